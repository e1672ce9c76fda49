(** Model of sporco/array.py: ntpl2array, array2ntpl, transpose_ntpl_list (22-91), rolling_window (247-289),
    subsample_array (293-334), extract_blocks (338-379), average_blocks (383-428), combine_blocks (432-482). *)
Require Import String List Arith ZArith Reals Bool.
Require Import Verif.NdIndex.
Import ListNotations.
Local Open Scope string_scope.
Local Open Scope list_scope.
Local Open Scope nat_scope.

(** ** Named tuples *)
Section Ntpl.
Variable V : Type.

(** A named tuple: class name, field names, values. *)
Record ntpl (A : Type) := mkntpl { nname : string; nfields : list string; nvals : list A }.
Arguments mkntpl {A}. Arguments nname {A}. Arguments nfields {A}. Arguments nvals {A}.

(** Construction of a named tuple: TypeError (None) unless the number of values is the number of fields. *)
Definition make_ntpl {A} (name : string) (fields : list string) (vals : list A) : option (ntpl A) :=
  if Nat.eqb (length vals) (length fields) then Some (mkntpl name fields vals) else None.

(** transpose_ntpl_list (85-91). The outer [None] is a TypeError or IndexError, the inner one is the value None returned
    for an empty list.  [lst[k][l]] is an IndexError when tuple k is too short. *)
Fixpoint opt_all {A} (l : list (option A)) : option (list A) :=
  match l with
  | [] => Some []
  | None :: _ => None
  | Some a :: r => match opt_all r with Some r' => Some (a :: r') | None => None end
  end.
Definition transpose_ntpl_list (lst : list (ntpl V)) : option (option (ntpl (list V))) :=
  match lst with
  | [] => Some None
  | t0 :: _ =>
      match opt_all (map (fun l => opt_all (map (fun t => nth_error (nvals t) l) lst)) (seq 0 (length (nvals t0)))) with
      | None => None
      | Some cols => match make_ntpl (nname t0) (nfields t0) cols with Some r => Some (Some r) | None => None end
      end
  end.

(** A field of a tuple passed to ntpl2array is a scalar or a list (or one-dimensional array) of scalars. Type promotion by
    np.hstack is not modelled: the scalars have one common type. *)
Inductive fval := Sc (v : V) | Ls (l : list V).

(** ntpl2array (40-41): np.hstack concatenates the fields. *)
Definition ntpl2array (t : ntpl fval) : list V * list string * string :=
  (flat_map (fun f => match f with Sc v => [v] | Ls l => l end) (nvals t), nfields t, nname t).

(** array2ntpl (64-65). *)
Definition array2ntpl (a : list V * list string * string) : option (ntpl fval) :=
  let '(vals, fields, name) := a in make_ntpl name fields (map Sc vals).
End Ntpl.
Arguments mkntpl {A}. Arguments nname {A}. Arguments nfields {A}. Arguments nvals {A}.
Arguments Sc {V}. Arguments Ls {V}.

(** ** Strided views *)
Section Views.
Variable A : Type.
(** np.pad with padding at the end of each axis, as an argument (the pad mode is chosen by the caller). *)
Variable pad : sarr A -> list nat -> sarr A.

(** rolling_window with wnm None (279-280, 287-289). A negative number of windows is a ValueError of as_strided. *)
Definition rolling_window_all (x : sarr A) (wsz : list nat) : option (sarr A) :=
  let wnm := map2 (fun n w => (Z.of_nat n - Z.of_nat w + 1)%Z) (sshape x) wsz in
  if existsb (fun z => Z.ltb z 0) wnm then None
  else Some (as_strided x (wsz ++ map Z.to_nat wnm) (strides x ++ strides x)).

(** rolling_window with wnm given (281-289). *)
Definition rolling_window (x : sarr A) (wsz wnm : list nat) : sarr A :=
  let over := map2 (fun wm n => wm - n - 1) (map2 Nat.add wsz wnm) (sshape x) in
  let x' := if existsb (fun p => Nat.ltb 0 p) over then pad x over else x in
  as_strided x' (wsz ++ wnm) (strides x' ++ strides x').

(** subsample_array (324-334). *)
Definition subsample_array (x : sarr A) (step : list nat) (padf : bool) : option (sarr A) :=
  if existsb (fun b : bool => b) (map2 (fun s n => Nat.leb n s) step (sshape x)) then None
  else
    let sbsz := map2 Nat.div (sshape x) step in
    let dvmd := map2 Nat.modulo (sshape x) step in
    let '(x', sb) :=
      if padf && existsb (fun d => negb (Nat.eqb d 0)) dvmd then
        let sb := map2 (fun q d => q + Nat.min d 1) sbsz dvmd in
        let psz := map2 (fun qs n => qs - n) (map2 Nat.mul sb step) (sshape x) in
        (pad x psz, sb)
      else (x, sbsz) in
    Some (as_strided x' (step ++ sb) (strides x' ++ map2 (fun s t => (Z.of_nat s * t)%Z) step (strides x'))).
End Views.

(** ** Blocks *)
(** zip_longest(..., fillvalue=1) pads the shorter tuples with ones. *)
Definition fill1 (n : nat) (l : list nat) : list nat := l ++ repeat 1 (n - length l).

(** Number of blocks on each axis (369-370, 409-410, 464-465). *)
Fixpoint numblocks_z (imgsz blksz stpsz : list nat) : list Z :=
  match imgsz with
  | [] => []
  | a :: r =>
      (Z.div (Z.of_nat a - Z.of_nat (hd 1%nat blksz)) (Z.of_nat (hd 1%nat stpsz)) + 1)%Z :: numblocks_z r (tl blksz) (tl stpsz)
  end.
Definition numblocks (imgsz blksz stpsz : list nat) : list nat := map Z.to_nat (numblocks_z imgsz blksz stpsz).

(** extract_blocks (362-379); a tuple of images is first stacked (359-360), which is left to the caller.  A negative
    number of blocks is a ValueError. *)
Definition extract_blocks {A} (img : sarr A) (blksz stpsz : list nat) : option (arr A) :=
  let nb := numblocks_z (sshape img) blksz stpsz in
  if existsb (fun z => Z.ltb z 0) nb then None
  else
    let blockstrides := map2 (fun a b => (a * Z.of_nat b)%Z) (strides img) (fill1 (length (strides img)) stpsz) in
    let view := as_strided img (blksz ++ map Z.to_nat nb) (firstn (length blksz) (strides img) ++ blockstrides) in
    Some (reshape (mkarr (sshape view) (sget view)) (blksz ++ [prod (map Z.to_nat nb)])).

Fixpoint eqlist (x y : list nat) : bool :=
  match x, y with [], [] => true | a :: x', b :: y' => (a =? b) && eqlist x' y' | _, _ => false end.
(** Is the image position [idx] inside the slices for block position [pos] (422-424)? *)
Fixpoint inslice (pos blksz stpsz idx : list nat) {struct blksz} : bool :=
  match blksz with
  | [] => eqlist pos idx
  | b :: bs =>
      match stpsz, pos, idx with
      | c :: cs, p :: ps, i :: is => (p * c <=? i) && (i <? p * c + b) && inslice ps bs cs is
      | _, _, _ => false
      end
  end.
(** The index inside the block. *)
Fixpoint inblock (pos blksz stpsz idx : list nat) {struct blksz} : list nat :=
  match blksz with
  | [] => []
  | b :: bs =>
      match stpsz, pos, idx with c :: cs, p :: ps, i :: is => (i - p * c) :: inblock ps bs cs is | _, _, _ => [] end
  end.

Section Combine.
Variable A : Type.

(** The loop over block positions shared by average_blocks (421-425) and combine_blocks (477-480): [upd] adds one block
    element to an accumulator. *)
Definition blocks_fold {S} (upd : S -> A -> S) (init : S) (blks : arr A) (blksz imgsz stpsz : list nat) : list nat -> S :=
  let nb := numblocks imgsz blksz stpsz in
  let b' := reshape blks (blksz ++ nb) in
  fold_left (fun (img : list nat -> S) pos =>
      fun idx => if inslice pos blksz stpsz idx then upd (img idx) (get b' (inblock pos blksz stpsz idx ++ pos)) else img idx)
    (indices nb) (fun _ => init).

(** combine_blocks (432-482). *)
Definition combine_blocks (fn : list A -> A) (blks : arr A) (blksz imgsz stpsz : list nat) : list nat -> A :=
  fun idx => fn (blocks_fold (fun l y => l ++ [y]) [] blks blksz imgsz stpsz idx).
End Combine.

(** average_blocks (383-428) over the reals; None is nan. *)
Definition average_blocks (blks : arr R) (blksz imgsz stpsz : list nat) : list nat -> option R :=
  let imgs := blocks_fold R (fun s y => (s + y)%R) 0%R blks blksz imgsz stpsz in
  let norm := blocks_fold R (fun s _ => (s + 1)%R) 0%R blks blksz imgsz stpsz in
  fun idx => if Rlt_dec 0 (norm idx) then Some (imgs idx / norm idx)%R else None.
