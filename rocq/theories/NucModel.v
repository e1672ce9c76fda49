(** Model of the nuclear norm functions (sporco/prox/_nuclear.py). Matrices are functions of row and column with explicit
    sizes; numpy.linalg.svd is a parameter, the float arithmetic is that of the real numbers. *)
Require Import Reals.
Require Import Verif.RVec.
Local Open Scope R_scope.

Definition mat := nat -> nat -> R.
(** np.dot of two matrices with inner size [k], np.diag of a vector. *)
Definition mdot (k : nat) (A B : mat) : mat := fun i j => sumn k (fun l => A i l * B l j).
Definition mdiag (s : nat -> R) : mat := fun i j => if Nat.eqb i j then s i else 0.

Section svd.
(** np.linalg.svd(X, full_matrices=False): U, s, V with X = U diag(s) V. promote16 (array.py 140-185) only changes the precision
    of floating point arrays (P16Model.v has the element types, also integers). *)
Variable svd : mat -> mat * (nat -> R) * mat.
(** prox/_nuclear.py 41 *)
Definition norm_nuclear (M N : nat) (X : mat) : R := let '(_, s, _) := svd X in sumn (Nat.min M N) s.
(** prox/_nuclear.py 65-67 *)
Definition prox_nuclear (M N : nat) (V : mat) (alpha : R) : mat * (nat -> R) :=
  let '(Usvd, s, Vsvd) := svd V in
  let ss := fun k => Rmax 0 (s k - alpha) in
  let k := Nat.min M N in
  (mdot k Usvd (mdot k (mdiag ss) Vsvd), ss).
End svd.
