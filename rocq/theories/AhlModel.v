(** array.zpad, array.zdivide, array.atleast_nd and array.split (sporco/array.py 95-136 and 189-243).  Arrays, broadcasting and positions
    of lists are those of InnModel; None stands for an exception. *)
Require Import List Arith ZArith Bool Reals.
Import ListNotations.
Require Import Verif.RVec Verif.Cplx Verif.CscModel Verif.InnModel.

(** np.pad(x, widths, 'constant'): one pair of widths for each axis, or an exception. *)
Fixpoint pad_shape (s : list nat) (w : list (nat * nat)) : list nat :=
  match s, w with d :: s, (a, b) :: w => (a + d + b)%nat :: pad_shape s w | _, _ => [] end.
(** The index in x, None in the padding. *)
Fixpoint pad_index (s : list nat) (w : list (nat * nat)) (i : list nat) : option (list nat) :=
  match s, w, i with
  | d :: s, (a, b) :: w, k :: i =>
      if (Nat.leb a k && Nat.ltb k (a + d))%bool then match pad_index s w i with Some r => Some ((k - a)%nat :: r) | None => None end else None
  | _, _, _ => Some []
  end.
Definition np_pad (x : arr) (w : list (nat * nat)) : option arr :=
  if Nat.eqb (length w) (ndim x) then
    Some (mkArr (pad_shape (shp x) w) (fun i => match pad_index (shp x) w i with Some r => entry x r | None => c0 end))
  else None.
(** zpad (114-115): a tuple times a negative number is empty. *)
Definition zpad (x : arr) (pd : nat * nat) (ax : Z) : option arr :=
  np_pad x (repeat (0, 0) (Z.to_nat ax) ++ pd :: repeat (0, 0) (Z.to_nat (Z.of_nat (ndim x) - ax - 1))).

(** zdivide (136).  np.divide writes real or complex quotients to an array like x: an integer x raises, and so does a quotient of another
    shape than x. *)
Definition zdivide (integer : bool) (x y : arr) : option arr :=
  if integer then None else
  match bshape (shp x) (shp y) with
  | Some b => if list_eq_dec Nat.eq_dec b (shp x) then
      Some (mkArr b (fun i => let v := bread (shp y) (entry y) i in
        if (if Req_EM_T (re v) 0 then (if Req_EM_T (im v) 0 then true else false) else false) then c0 else cdiv (bread (shp x) (entry x) i) v))
      else None
  | None => None
  end.

(** atleast_nd (209-212). *)
Definition atleast_nd (n : nat) (u : arr) : arr :=
  if Nat.leb n (ndim u) then u else mkArr (shp u ++ repeat 1 (n - ndim u)) (fun i => entry u (firstn (ndim u) i)).

(** split (238-243): (slice(None),) * axis is empty for a negative axis, and u.shape[axis] counts from the end then. *)
Definition split (u : arr) (axis : Z) : option (list arr) :=
  let axis := if Z.ltb axis 0 then (Z.of_nat (ndim u) + axis)%Z else axis in
  match norm_axis (ndim u) axis with
  | Some a => let p := Z.to_nat axis in
      if Nat.ltb (nth p (shp u) O) (nth a (shp u) O) then None (* IndexError *) else
      Some (map (fun k => mkArr (del p (shp u)) (fun i => entry u (ins p k i))) (seq 0 (nth a (shp u) O)))
  | None => None
  end.
