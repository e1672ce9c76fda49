(** Operators given by complex matrices, applied to real arrays; transpose and adjoint. *)
Require Import Reals.
Require Import Verif.RVec Verif.Cplx.
Local Open Scope R_scope.
Definition cmatrix : Type := nat -> nat -> C.
Definition apply_matrix (cols : nat) (M : cmatrix) (x : nat -> R) : nat -> C := fun i => csumn cols (fun j => cscal (x j) (M i j)).
Definition transposed (m n : nat) (M N : cmatrix) : Prop := forall i j, (i < m)%nat -> (j < n)%nat -> N j i = M i j.
Definition adjoint (m n : nat) (M N : cmatrix) : Prop := forall i j, (i < m)%nat -> (j < n)%nat -> N j i = conj (M i j).
(** x1 . M x0, the number that both sides compute for transposed matrices. *)
Definition form (m n : nat) (M : cmatrix) (x0 x1 : nat -> R) : C := csumn m (fun i => csumn n (fun j => cscal (x1 i * x0 j) (M i j))).
