(** Sparse coding with a product dictionary, in the spatial domain: the signal with channels c is represented as
    sum_b B_{c,b} sum_m d_m * x_{b,m}.  No Fourier transform and no eigendecomposition occurs here. *)
Require Import List Arith Reals Bool.
Require Import Verif.RVec Verif.CscSpec.
Import ListNotations.
Local Open Scope R_scope.

Section problem.
Variables (s dsh : nat -> nat) (axes : list nat) (M C Cb : nat) (D : nat -> pos -> R) (B : nat -> nat -> R) (S : nat -> pos -> R).
Definition pd_synth (X : nat -> nat -> pos -> R) (c : nat) (p : pos) : R :=
  sumn Cb (fun b => B c b * sumn M (fun m => conv s axes (ext dsh axes (D m)) (X b m) p)).
Definition pd_fit (X : nat -> nat -> pos -> R) (base : pos) : R := / 2 * sumn C (fun c => sqn s axes (fun p => pd_synth X c p - S c p) base).
Definition pd_dist (X Z : nat -> nat -> pos -> R) (base : pos) : R := sumn Cb (fun b => sumn M (fun m => sqn s axes (fun p => X b m p - Z b m p) base)).
End problem.
(** Q is orthogonal and A = Q diag(G) Q^T (matrices with n rows and columns). *)
Definition delta (i j : nat) : R := if Nat.eqb i j then 1 else 0.
Definition eigen (n : nat) (A : nat -> nat -> R) (G : nat -> R) (Q : nat -> nat -> R) : Prop :=
  (forall i j, (i < n)%nat -> (j < n)%nat -> sumn n (fun k => Q k i * Q k j) = delta i j) /\
  (forall i j, (i < n)%nat -> (j < n)%nat -> sumn n (fun k => Q i k * Q j k) = delta i j) /\
  (forall i j, (i < n)%nat -> (j < n)%nat -> A i j = sumn n (fun k => Q i k * G k * Q j k)).
(** The joint sparsity term: the sum of the l2 norms over the channels b, entry (b, j) of the coefficients being at b * N + j. *)
Definition l2_groups (Cb N : nat) (mu : R) (x : nat -> R) : R := mu * sumn N (fun j => nrm Cb (fun b => x (b * N + j)%nat)).
