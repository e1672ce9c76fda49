(** Model of the array layout inference of sporco/cnvrep.py: CSC_ConvRepIndexing (24-198), DictionarySize (211-264),
    CDU_ConvRepIndexing (277-454), stdformD (465-488), l1Wshape (492-550) and mskWshape (554-605). Arrays are represented
    by their shapes, the only thing these functions look at. *)
Require Import List Arith ZArith Bool.
Import ListNotations.
Local Open Scope nat_scope.

Inductive result (A : Type) := Ok (a : A) | IndexErr | ValueErr.
Arguments Ok {A} a. Arguments IndexErr {A}. Arguments ValueErr {A}.
Definition bind {A B} (x : result A) (f : A -> result B) : result B :=
  match x with Ok a => f a | IndexErr => IndexErr | ValueErr => ValueErr end.

(** tuple[i] with Python's negative indices. *)
Definition pyidx (t : list nat) (i : Z) : result nat :=
  let j := (if i <? 0 then i + Z.of_nat (length t) else i)%Z in
  if (j <? 0)%Z then IndexErr else match nth_error t (Z.to_nat j) with Some v => Ok v | None => IndexErr end.

(** The attributes of the two indexing classes. *)
Record cri := mkCri {
  dimN : nat; dimCd : Z; dimC : Z; dimK : Z;
  Cd : nat; C : nat; Cx : nat; K : nat; M : nat;
  Nv : list nat; shpD : list nat; shpS : list nat; shpX : list nat }.

(** Lines 146-156 (and 405-415): the number of channel and signal axes of S. *)
Definition infer_dims (sdim dN : nat) (dCd : Z) (dK : option Z) : Z * Z :=
  let rdim := (Z.of_nat sdim - Z.of_nat dN)%Z in
  match dK with
  | None => if (rdim =? 0)%Z then (0, 0)%Z
            else if (rdim =? 1)%Z then (dCd, Z.of_nat sdim - Z.of_nat dN - dCd)%Z
            else (1, 1)%Z
  | Some k => (Z.of_nat sdim - Z.of_nat dN - k, k)%Z
  end.

(** Lines 158-198, and 417-454 in the other class. [dshape] is D.shape[0:dimN] in the first and Nv in the second. The
    difference C - Cd + 1 (167) is not negative when no error is raised. *)
Definition layout (dN : nat) (dCd : Z) (cd m : nat) (Ssh : list nat) (dK : option Z) (dspat : list nat) : result cri :=
  let '(dC, dK') := infer_dims (length Ssh) dN dCd dK in
  bind (if (dC =? 1)%Z then pyidx Ssh (Z.of_nat dN) else Ok 1) (fun c =>
  if (Nat.ltb 1 cd && negb (Nat.eqb c cd))%bool then ValueErr else
  bind (if (dK' =? 1)%Z then pyidx Ssh (Z.of_nat dN + dC) else Ok 1) (fun k =>
  let cx := c + 1 - cd in
  let nv := firstn dN Ssh in
  Ok (mkCri dN dCd dC dK' cd c cx k m nv
        (dspat ++ [cd] ++ [1] ++ [m]) (nv ++ [c] ++ [k] ++ [1]) (nv ++ [cx] ++ [k] ++ [m])))).

(** CSC_ConvRepIndexing.__init__ (135-198). *)
Definition csc_index (Dsh Ssh : list nat) (dK : option Z) (dN : nat) : result cri :=
  let dCd := (Z.of_nat (length Dsh) - (Z.of_nat dN + 1))%Z in
  bind (if (dCd =? 0)%Z then Ok 1 else pyidx Dsh (-2)) (fun cd =>
  bind (pyidx Dsh (-1)) (fun m =>
  layout dN dCd cd m Ssh dK (firstn dN Dsh))).

(** DictionarySize (229-264). A size is a tuple of integers, or a tuple of blocks of filters of the same size, each of
    which is again a tuple of integers or a tuple of blocks of channels. *)
Inductive block := Blk (sz : list nat) | CBlk (szs : list (list nat)).
Inductive dsize := Flat (sz : list nat) | Blocks (bs : list block).

Record dictsize := mkDs { ds_ndim : nat; ds_nchn : nat; ds_nflt : nat; ds_mxsz : list nat }.

Fixpoint sum_chn (szs : list (list nat)) : result nat :=
  match szs with [] => Ok 0 | s :: r => bind (pyidx s (-2)) (fun a => bind (sum_chn r) (fun b => Ok (a + b))) end.
(** np.maximum of two vectors of length dimN (a shorter one is a broadcast error, a tuple of length one is repeated: not
    modelled, the shorter one is filled with zeros). *)
Definition vmaximum (dN : nat) (a b : list nat) : list nat := map (fun i => Nat.max (nth i a 0) (nth i b 0)) (seq 0 dN).
Fixpoint sum_blocks (dN : nat) (bs : list block) (nflt : nat) (mx : list nat) : result (nat * list nat) :=
  match bs with
  | [] => Ok (nflt, mx)
  | Blk sz :: r => bind (pyidx sz (-1)) (fun n => sum_blocks dN r (nflt + n) (vmaximum dN mx (firstn dN sz)))
  | CBlk szs :: r =>
      let mx' := fold_left (fun a s => vmaximum dN a (firstn dN s)) szs mx in
      match szs with
      | [] => IndexErr
      | s0 :: _ => bind (pyidx s0 (-1)) (fun n => sum_blocks dN r (nflt + n) mx')
      end
  end.
Definition dict_size (d : dsize) (dN : nat) : result dictsize :=
  match d with
  | Flat sz =>
      bind (pyidx sz (-1)) (fun n =>
      bind (if Nat.eqb (length sz) (dN + 1) then Ok 1 else pyidx sz (-2)) (fun c =>
      Ok (mkDs (length sz) c n (firstn dN sz))))
  | Blocks [] => IndexErr
  | Blocks (b0 :: r) =>
      bind (match b0 with
            | CBlk [] => IndexErr
            | CBlk (s0 :: t) => bind (sum_chn (s0 :: t)) (fun c => Ok (length s0, c))
            | Blk s0 => if Nat.eqb (length s0) (dN + 1) then Ok (length s0, 1)
                        else bind (pyidx s0 (-2)) (fun c => Ok (length s0, c))
            end) (fun '(nd, c) =>
      bind (sum_blocks dN (b0 :: r) 0 (repeat 0 dN)) (fun '(n, mx) => Ok (mkDs nd c n mx)))
  end.

(** CDU_ConvRepIndexing.__init__ (394-454). *)
Definition cdu_index (d : dsize) (Ssh : list nat) (dK : option Z) (dN : nat) : result cri :=
  bind (dict_size d dN) (fun ds =>
  layout dN (Z.of_nat (ds_ndim ds) - Z.of_nat dN - 1) (ds_nchn ds) (ds_nflt ds) Ssh dK (firstn dN Ssh)).

Definition prod (s : list nat) : nat := fold_right Nat.mul 1 s.
(** (1,)*k for an integer k. *)
Definition ones (k : Z) : list nat := repeat 1 (Z.to_nat k).

(** l1Wshape (526-550). *)
Definition l1Wshape (W : list nat) (c : cri) : result (list nat) :=
  let sdim := (Z.of_nat (dimN c) + dimC c + dimK c)%Z in
  let wd := Z.of_nat (length W) in
  if (wd <? sdim)%Z then
    if Nat.eqb (prod W) 1 then Ok (ones (Z.of_nat (dimN c) + 3)) else ValueErr
  else if (wd =? sdim)%Z then Ok (W ++ ones (3 - dimC c - dimK c))
  else if (wd =? Z.of_nat (dimN c) + 3)%Z then Ok W
  else Ok (removelast W ++ ones (2 - dimC c - dimK c) ++ match rev W with [] => [] | x :: _ => [x] end).

(** mskWshape (585-605). *)
Definition mskWshape (W : list nat) (c : cri) : result (list nat) :=
  let ckdim := (Z.of_nat (length W) - Z.of_nat (dimN c))%Z in
  let n := dimN c in
  if (2 <=? ckdim)%Z then Ok (if (ckdim =? 2)%Z then W ++ [1] else W)
  else if (ckdim =? 1)%Z then
    bind (pyidx W (Z.of_nat n)) (fun w =>
    if (Nat.eqb (C c) 1 && Nat.ltb 1 (K c))%bool then Ok (firstn n W ++ [1; w] ++ [1])
    else if (Nat.ltb 1 (C c) && Nat.eqb (K c) 1)%bool then Ok (firstn n W ++ [w; 1] ++ [1])
    else Ok (firstn n W ++ [w; 1] ++ [1]))
  else Ok (W ++ ones (3 - ckdim)).
