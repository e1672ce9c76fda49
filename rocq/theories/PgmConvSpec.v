(** The convolutional sparse coding data term, stated in the signal domain. *)
Require Import Reals.
Require Import Verif.RVec.
Local Open Scope R_scope.
(** Circular convolution of the coefficient maps with the filters, summed, and the adjoint (correlation). *)
Definition cconv (N M : nat) (D : nat -> nat -> R) (x : nat -> R) : nat -> R :=
  fun j => sumn M (fun m => sumn N (fun i => x (m * N + i)%nat * D m ((j + N - i) mod N)%nat)).
Definition ccorr (N : nat) (D : nat -> nat -> R) (r : nat -> R) : nat -> R :=
  fun p => sumn N (fun j => r j * D (p / N)%nat ((j + N - p mod N) mod N)%nat).
(** The circular convolution in its usual form is the same. *)
Definition cconv' (N M : nat) (D : nat -> nat -> R) (x : nat -> R) : nat -> R :=
  fun j => sumn M (fun m => sumn N (fun i => D m i * x (m * N + (j + N - i) mod N)%nat)).
