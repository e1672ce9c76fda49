(** The dictionary update problem in the spatial domain: minimise 1/2 sum_k || sum_m z_{k,m} * d_m - s_k ||^2 over the dictionaries
    whose filters have the prescribed support (and zero mean, if requested) and unit norm.  No Fourier transform and no projection
    occurs here. *)
Require Import List Arith Reals Bool.
Require Import Verif.RVec Verif.CscSpec Verif.PcnSpec.
Require Verif.CnvrepModel.
Import ListNotations.
Local Open Scope R_scope.

Section problem.
Variables (nv : nat -> nat) (dN Cd K M : nat) (dsz : CnvrepModel.dsize) (zm : bool) (Z S : pos -> R).
Definition spat : list nat := seq 0 dN.
(** The position with zero spatial coordinates of channel [c] of filter [m], and the positions of a dictionary array. *)
Definition at_cm (c m : nat) : pos := fun a => if Nat.eqb a dN then c else if Nat.eqb a (dN + 2) then m else O.
Definition entry (p : pos) : Prop :=
  exists c m, (c < Cd)%nat /\ (m < M)%nat /\ (forall a, (a < dN)%nat -> (p a < nv a)%nat) /\ forall a, (dN <= a)%nat -> p a = at_cm c m a.
Definition same_dict (d d' : pos -> R) : Prop := forall p, entry p -> d p = d' p.
Definition coef (k m : nat) (p : pos) : R := Z (set_at (set_at (set_at p dN O) (dN + 1) k) (dN + 2) m).
Definition sig (k : nat) (p : pos) : R := S (set_at (set_at p (dN + 1) k) (dN + 2) O).
Definition filt (d : pos -> R) (m : nat) (p : pos) : R := d (set_at (set_at p (dN + 1) O) (dN + 2) m).
(** 1/2 sum_c sum_k || sum_m z_{k,m} * d_{c,m} - s_{k,c} ||^2. *)
Definition fit (d : pos -> R) : R := sumn Cd (fun c => datafit nv nv spat M K coef sig (filt d) (at_cm c 0)).
(** The terms of one signal, and the fit of the zero signals: 1/2 sum_c sum_k || sum_m z_{k,m} * d_{c,m} ||^2. *)
Definition fit1 (k : nat) (d : pos -> R) : R := sumn Cd (fun c => / 2 * sqn nv spat (fun p => synth nv nv spat M coef (filt d) k p - sig k p) (at_cm c 0)).
Definition energy (d : pos -> R) : R := sumn Cd (fun c => / 2 * sumn K (fun k => sqn nv spat (synth nv nv spat M coef (filt d) k) (at_cm c 0))).
(** The inner product of filter [m] of two dictionaries. *)
Definition fdot (x y : pos -> R) (m : nat) : R := sumn Cd (fun c => total nv spat (fun p => x p * y p) (at_cm c m)).
Definition sq_dist (x y : pos -> R) : R := sumn M (fun m => fdot (fun p => x p - y p) (fun p => x p - y p) m).
(** The linear constraints. *)
Definition lin_ok (x : pos -> R) : Prop :=
  (forall p, entry p -> ~ in_filter dsz dN p -> x p = 0) /\
  (zm = true -> forall c m, (c < Cd)%nat -> (m < M)%nat -> total nv spat x (at_cm c m) = 0).
Definition unit_norms (x : pos -> R) : Prop := forall m, (m < M)%nat -> fdot x x m = 1 \/ fdot x x m = 0.
(** First order condition: subject to the linear constraints, [d] minimises the fit minus a multiple (less than [b]) of the inner
    product with itself, for each filter. *)
Definition critical (b : R) (d : pos -> R) : Prop :=
  lin_ok d /\ unit_norms d /\
  exists lam, (forall m, (m < M)%nat -> lam m < b) /\
    forall x, lin_ok x -> fit d + sumn M (fun m => lam m * (fdot d x m - fdot d d m)) <= fit x.
End problem.
