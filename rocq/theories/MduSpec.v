(** The dictionary update problem with a mask: minimise 1/2 sum_k || W_k (sum_m z_{k,m} * d_m - s_k) ||^2 over the dictionaries whose
    filters have the prescribed support (and zero mean, if requested) and unit norm. *)
Require Import List Arith Reals Bool.
Require Import Verif.RVec Verif.CscSpec Verif.PcnSpec Verif.CcmSpec.
Require Verif.CnvrepModel.
Local Open Scope R_scope.

(** First order condition for the minimisation of [F] over unit norm filters with the linear constraints: subject to the linear
    constraints, [d] minimises [F] minus a multiple (less than [b]) of the inner product with itself, for each filter. *)
Definition critical_for (nv : nat -> nat) (dN Cd M : nat) (dsz : CnvrepModel.dsize) (zm : bool) (F : (pos -> R) -> R) (b : R) (d : pos -> R) : Prop :=
  lin_ok nv dN Cd M dsz zm d /\ unit_norms nv dN Cd M d /\
  exists lam, (forall m, (m < M)%nat -> lam m < b) /\
    forall x, lin_ok nv dN Cd M dsz zm x -> F d + sumn M (fun m => lam m * (fdot nv dN Cd d x m - fdot nv dN Cd d d m)) <= F x.

Section problem.
Variables (nv : nat -> nat) (dN Cd K M : nat) (Z S : pos -> R) (wsh : nat -> nat) (W : pos -> R).
(** The mask of signal [k]; its axes of length one apply to every position. *)
Definition mask (k : nat) (p : pos) : R := W (fun a => if Nat.eqb (wsh a) 1 then O else set_at (set_at p (dN + 1) k) (dN + 2) O a).
Definition recon (d : pos -> R) : nat -> pos -> R := synth nv nv (spat dN) M (coef dN Z) (filt dN d).
Definition mfit (d : pos -> R) : R :=
  sumn Cd (fun c => / 2 * sumn K (fun k => sqn nv (spat dN) (fun p => mask k p * (recon d k p - sig dN S k p)) (at_cm dN c 0))).
(** Positions of an array of [K] signals. *)
Definition at_ck (c k : nat) : pos := fun a => if Nat.eqb a dN then c else if Nat.eqb a (dN + 1) then k else O.
Definition sentry (p : pos) : Prop :=
  exists c k, (c < Cd)%nat /\ (k < K)%nat /\ (forall a, (a < dN)%nat -> (p a < nv a)%nat) /\ forall a, (dN <= a)%nat -> p a = at_ck c k a.
Definition same_sig (x y : pos -> R) : Prop := forall p, sentry p -> x p = y p.
(** Positions of the array which holds both blocks, the [K] signals first on the filter axis. *)
Definition bentry (p : pos) : Prop :=
  exists c j, (c < Cd)%nat /\ (j < K + M)%nat /\ (forall a, (a < dN)%nat -> (p a < nv a)%nat) /\ forall a, (dN <= a)%nat -> p a = at_cm dN c j a.
Definition same_block (x y : pos -> R) : Prop := forall p, bentry p -> x p = y p.
End problem.
