(** The problems of the product dictionary solvers with l1 data term, in the spatial domain: the weighted l1 norm of the residual
    sum_b B_{c,b} sum_m d_m * x_{b,m} - s_c, the l1 or the l2,1 norm of the coefficients, and the energy of the differences of the
    coefficient maps along the axes. *)
Require Import List Arith Reals Bool.
Require Import Verif.RVec Verif.CscSpec Verif.PdcSpec.
Import ListNotations.
Local Open Scope R_scope.

Section problem.
Variables (s dsh : nat -> nat) (axes : list nat) (M C Cb : nat) (D : nat -> pos -> R) (B : nat -> nat -> R) (S W : nat -> pos -> R) (base : pos).
Definition pdg_fit (X : nat -> nat -> pos -> R) : R :=
  sumn C (fun c => total s axes (fun p => Rabs (W c p * (pd_synth s dsh axes M Cb D B X c p - S c p))) base).
Definition pdg_grad (mu : R) (Wgrd : nat -> R) (X : nat -> nat -> pos -> R) : R := sumn Cb (fun b => grad_term s axes M mu Wgrd (X b) base).
End problem.
(** The weighted l2,1 norm, the groups being formed by the channels b; entry (b, j) of the coefficients is at b * N + j. *)
Definition wl21norm (Cb N : nat) (w x : nat -> R) : R := sumn N (fun j => w j * nrm Cb (fun b => x (b * N + j)%nat)).
