(** The convolutional sparse coding problem in the spatial domain:
    minimise 1/2 sum_b sum_c || W_c (sum_m d_{c,m} * x_{b,m} - s_{b,c}) ||^2 + lambda || w x ||_1. *)
Require Import List Arith Reals.
Require Import Verif.RVec Verif.CscSpec Verif.StepsSpec.
Local Open Scope R_scope.

Section problem.
(** [maps] reads the coefficient maps from a vector: map m at a position, whose coordinate on axis [dN] is the slice. *)
Variables (s dsh : nat -> nat) (dN B Cd M n : nat) (maps : (nat -> R) -> nat -> pos -> R).
Variables (D : nat -> nat -> pos -> R) (S : nat -> pos -> R) (Wm : nat -> pos -> R) (lmbda : R) (wl1 : nat -> R).
Definition slice (b : nat) : pos := fun a => if Nat.eqb a dN then b else O.
Definition pdict (c m : nat) (p : pos) : R := D c m (set_at p dN O).
Definition pmodel (x : nat -> R) : nat -> pos -> R := synth s dsh (seq 0 dN) M pdict (maps x).
Definition pfit (x : nat -> R) : R := sumn B (fun b => / 2 * sumn Cd (fun c => sqn s (seq 0 dN) (fun p => Wm c p * (pmodel x c p - S c p)) (slice b))).
Definition pobjective (x : nat -> R) : R := pfit x + l1reg n lmbda wl1 x.
End problem.
