(** The mean squared error of two real images, and the largest entry of an image. *)
Require Import Reals.
Require Import Verif.RVec.
Local Open Scope R_scope.
Definition mean_squared_error (n0 n1 : nat) (a b : nat -> nat -> R) : R :=
  sumn n0 (fun i => sumn n1 (fun j => (a i j - b i j) ^ 2)) / (INR n0 * INR n1).
Definition is_largest (n0 n1 : nat) (v : nat -> nat -> R) (x : R) : Prop :=
  (forall i j, (i < n0)%nat -> (j < n1)%nat -> v i j <= x) /\ exists i j, (i < n0)%nat /\ (j < n1)%nat /\ v i j = x.
