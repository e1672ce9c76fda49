(** Specification side of C92: Kronecker products, principal components and block circulant matrices. *)
Require Import Reals Arith.
Require Import Verif.RVec Verif.NucSpec.
Local Open Scope R_scope.

(** The Kronecker product of a matrix B with a c0 x c1 matrix C. *)
Definition kron (c0 c1 : nat) (B C : nat -> nat -> R) : nat -> nat -> R :=
  fun p q => B (p / c0)%nat (q / c1)%nat * C (p mod c0) (q mod c1).

(** A decomposition as numpy returns it: singular values in descending order. *)
Definition is_sorted_svd (M N : nat) (X : nat -> nat -> R) (d : (nat -> nat -> R) * (nat -> R) * (nat -> nat -> R)) : Prop :=
  is_svd M N X d /\ forall k, (S k < Nat.min M N)%nat -> snd (fst d) (S k) <= snd (fst d) k.

(** The columns 0 .. n-1 of Q, vectors of length M, are orthonormal. *)
Definition orthonormal (M n : nat) (Q : nat -> nat -> R) : Prop :=
  forall a b, (a < n)%nat -> (b < n)%nat -> sumn M (fun i => Q i a * Q i b) = delta a b.

(** Squared distance of two M x N matrices. *)
Definition mdist2 (M N : nat) (X Y : nat -> nat -> R) : R := sumn M (fun i => sumn N (fun j => (X i j - Y i j) ^ 2)).

(** Matrix times vector, and the coefficients of a vector with respect to the columns of Q. *)
Definition mvec (n : nat) (Q : nat -> nat -> R) (w : nat -> R) : nat -> R := fun i => sumn n (fun k => Q i k * w k).
Definition coefs (M : nat) (Q : nat -> nat -> R) (x : nat -> R) : nat -> R := fun k => sumn M (fun i => Q i k * x i).

(** X holds the c0 x c1 blocks of a (b0 c0) x (b1 c1) matrix A: one row for each block, blocks and entries taken by columns. *)
Definition holds_blocks (b0 b1 c0 c1 : nat) (A X : nat -> nat -> R) : Prop :=
  forall k l i j, (k < b0)%nat -> (l < b1)%nat -> (i < c0)%nat -> (j < c1)%nat ->
    X (l * b0 + k)%nat (j * c0 + i)%nat = A (k * c0 + i)%nat (l * c1 + j)%nat.
