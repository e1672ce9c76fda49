(** What a reconstruction is: at every position of the signal the sum over the filters of the circular convolutions (CscSpec), or
    the matrix product. *)
Require Import List Arith Reals.
Require Import Verif.RVec Verif.CscSpec.
Import ListNotations.
Local Open Scope R_scope.

Definition in_signal (s : nat -> nat) (axes : list nat) (p : pos) : Prop := forall ax, In ax axes -> (p ax < s ax)%nat.
(** [f] is the signal that the filters [d c m], of support [dsh], and the coefficient maps [X m] represent in channel c. *)
Definition represents (s dsh : nat -> nat) (axes : list nat) (M : nat) (d : nat -> nat -> pos -> R) (X : nat -> pos -> R) (c : nat) (f : pos -> R) : Prop :=
  forall p, in_signal s axes p -> f p = synth s dsh axes M d X c p.
(** The sum of the absolute values of all the filter samples of channel c. *)
Definition filter_mass (s dsh : nat -> nat) (axes : list nat) (M : nat) (d : nat -> nat -> pos -> R) (c : nat) (p : pos) : R :=
  sumn M (fun m => total s axes (fun q => Rabs (ext dsh axes (d c m) q)) p).
