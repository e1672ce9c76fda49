(** linalg.inner and linalg.dot (sporco/linalg.py 41-143), on n-dimensional arrays: a shape and the entry at each list of indices.
    None stands for an exception. *)
Require Import List Arith ZArith Bool.
Import ListNotations.
Require Import Verif.RVec Verif.Cplx.

Record arr : Type := mkArr { shp : list nat; entry : list nat -> C }.
Definition ndim (x : arr) : nat := length (shp x).

(** numpy: removing, inserting a position of a list. *)
Fixpoint del (a : nat) (l : list nat) : list nat :=
  match a, l with _, [] => [] | O, _ :: t => t | S a, h :: t => h :: del a t end.
Fixpoint ins (a k : nat) (l : list nat) : list nat :=
  match a, l with O, _ => k :: l | S a, h :: t => h :: ins a k t | S a, [] => [k] end.
(** numpy broadcasting of one dimension, of index lists, and of shapes aligned on the right. *)
Definition bdim (d e : nat) : option nat :=
  if Nat.eqb d e then Some d else if Nat.eqb d 1 then Some e else if Nat.eqb e 1 then Some d else None.
Definition bidx1 (d k : nat) : nat := if Nat.eqb d 1 then O else k.
Fixpoint bidx (s i : list nat) : list nat :=
  match s, i with d :: s, k :: i => bidx1 d k :: bidx s i | _, _ => [] end.
Fixpoint bzip (s t : list nat) : option (list nat) :=
  match s, t with
  | [], [] => Some []
  | d :: s, e :: t => match bdim d e, bzip s t with Some m, Some r => Some (m :: r) | _, _ => None end
  | _, _ => None
  end.
Definition pad (n : nat) (s : list nat) : list nat := repeat 1 (n - length s) ++ s.
Definition bshape (s t : list nat) : option (list nat) := let n := Nat.max (length s) (length t) in bzip (pad n s) (pad n t).
Definition bread (s : list nat) (e : list nat -> C) (i : list nat) : C := e (bidx s (skipn (length i - length s) i)).

(** np.core.numeric.normalize_axis_index, as np.moveaxis applies it. *)
Definition norm_axis (n : nat) (a : Z) : option nat :=
  if (Z.leb (- Z.of_nat n) a && Z.ltb a (Z.of_nat n))%bool then Some (Z.to_nat (if Z.ltb a 0 then a + Z.of_nat n else a)) else None.
(** np.moveaxis(x, axis, 0) and np.moveaxis(x, 0, axis). *)
Definition move_front (x : arr) (axis : Z) : option arr :=
  match norm_axis (ndim x) axis with
  | Some a => Some (mkArr (nth a (shp x) O :: del a (shp x)) (fun i => match i with k :: r => entry x (ins a k r) | [] => entry x [] end))
  | None => None
  end.
Definition move_back (x : arr) (axis : Z) : option arr :=
  match norm_axis (ndim x) axis with
  | Some a => Some (mkArr (ins a (hd O (shp x)) (tl (shp x))) (fun i => entry x (nth a i O :: del a i)))
  | None => None
  end.
(** np.einsum(xr, [0, Ellipsis], yr, [0, Ellipsis])[np.newaxis, ...] (79-82): the product is summed over the first axis, the others are broadcast. *)
Definition einsum0 (x y : arr) : option arr :=
  match shp x, shp y with
  | d :: s, e :: t =>
      match bdim d e, bshape s t with
      | Some m, Some b => Some (mkArr (1 :: b)
          (fun i => csumn m (fun k => cmul (bread s (fun r => entry x (bidx1 d k :: r)) (tl i)) (bread t (fun r => entry y (bidx1 e k :: r)) (tl i)))))
      | _, _ => None
      end
  | _, _ => None
  end.
(** inner (64-88). *)
Definition inner (x y : arr) (axis : Z) : option arr :=
  let axis := if Z.ltb axis 0 then (Z.of_nat (ndim x) + axis)%Z else axis in
  let xr := if Z.eqb axis 0 then Some x else move_front x axis in
  let yr := if Z.eqb axis 0 then Some y else move_front y axis in
  match xr, yr with
  | Some xr, Some yr =>
      match einsum0 xr yr with
      | Some ip => if Z.eqb axis 0 then Some ip else move_back ip axis
      | None => None
      end
  | _, _ => None
  end.

(** dot (130-143) for a matrix a: expand_dims, the reshape of a to (1, .., M0, M1, .., 1), the broadcast product, the sum over
    axis + 1 and the removal of that axis.  The assignment to axshp[axis:axis + 2] or idxexp[axis + 1] fails outside 0 <= axis < ndim. *)
Definition dot_matrix (M0 M1 : nat) (a : nat -> nat -> C) (b : arr) (axis : Z) : option arr :=
  let axis := if Z.ltb axis 0 then (Z.of_nat (ndim b) + axis)%Z else axis in
  if (Z.leb 0 axis && Z.ltb axis (Z.of_nat (ndim b)))%bool then
    let p := Z.to_nat axis in
    let bxs := ins p 1 (shp b) in
    let axs := repeat 1 p ++ M0 :: M1 :: repeat 1 (ndim b - p - 1) in
    let ae := fun i => a (nth p i O) (nth (p + 1) i O) in
    let be := fun i => entry b (del p i) in
    match bshape axs bxs with
    | Some s => Some (mkArr (del (p + 1) s)
        (fun i => csumn (nth (p + 1) s O) (fun k => cmul (bread axs ae (ins (p + 1) k i)) (bread bxs be (ins (p + 1) k i)))))
    | None => None
    end
  else None.
