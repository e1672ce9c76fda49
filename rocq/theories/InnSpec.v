(** np.sum(x * y, axis=axis, keepdims=True), to which the documentation says that inner is equivalent. *)
Require Import List Arith ZArith Bool.
Import ListNotations.
Require Import Verif.RVec Verif.Cplx Verif.InnModel.
Fixpoint put (a k : nat) (l : list nat) : list nat :=
  match a, l with _, [] => [] | O, _ :: t => k :: t | S a, h :: t => h :: put a k t end.
Definition product (x y : arr) : option arr :=
  match bshape (shp x) (shp y) with
  | Some b => Some (mkArr b (fun i => cmul (bread (shp x) (entry x) i) (bread (shp y) (entry y) i)))
  | None => None
  end.
Definition sum_keepdims (z : arr) (axis : Z) : option arr :=
  let n := Z.of_nat (ndim z) in
  if (Z.leb (- n) axis && Z.ltb axis n)%bool then
    let a := Z.to_nat (if Z.ltb axis 0 then axis + n else axis) in
    Some (mkArr (put a 1 (shp z)) (fun i => csumn (nth a (shp z) O) (fun k => entry z (put a k i))))
  else None.
Definition sum_product (x y : arr) (axis : Z) : option arr :=
  match product x y with Some z => sum_keepdims z axis | None => None end.
(** The same exception behaviour, shape and entries. *)
Definition same_result (u v : option arr) : Prop :=
  match u, v with
  | Some u, Some v => shp u = shp v /\ forall i, length i = length (shp u) -> entry u i = entry v i
  | None, None => True
  | _, _ => False
  end.
