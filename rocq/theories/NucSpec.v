(** Specification side of C60: the nuclear norm as the dual of the operator norm. *)
Require Import Reals.
Require Import Verif.RVec.
Local Open Scope R_scope.

(** Inner product of matrices, squared Frobenius norm, bilinear form. *)
Definition fdot (M N : nat) (X W : nat -> nat -> R) : R := sumn M (fun i => sumn N (fun j => X i j * W i j)).
Definition fnrm2 (M N : nat) (X : nat -> nat -> R) : R := fdot M N X X.
Definition bilin (M N : nat) (W : nat -> nat -> R) (x y : nat -> R) : R := sumn M (fun i => sumn N (fun j => x i * W i j * y j)).
(** Operator norm at most one. *)
Definition contraction (M N : nat) (W : nat -> nat -> R) : Prop := forall x y, bilin M N W x y <= nrm M x * nrm N y.
(** [v] is the nuclear norm of [X]: the largest inner product with a contraction. *)
Definition is_nuclear (M N : nat) (X : nat -> nat -> R) (v : R) : Prop :=
  (forall W, contraction M N W -> fdot M N X W <= v) /\ exists W, contraction M N W /\ fdot M N X W = v.
(** What a (thin) singular value decomposition is. *)
Definition delta (a b : nat) : R := if Nat.eqb a b then 1 else 0.
Definition is_svd (M N : nat) (X : nat -> nat -> R) (d : (nat -> nat -> R) * (nat -> R) * (nat -> nat -> R)) : Prop :=
  let '(U, s, V) := d in let K := Nat.min M N in
  (forall a b, (a < K)%nat -> (b < K)%nat -> sumn M (fun i => U i a * U i b) = delta a b) /\
  (forall a b, (a < K)%nat -> (b < K)%nat -> sumn N (fun j => V a j * V b j) = delta a b) /\
  (forall k, (k < K)%nat -> 0 <= s k) /\
  (forall i j, (i < M)%nat -> (j < N)%nat -> X i j = sumn K (fun k => U i k * (s k * V k j))).
