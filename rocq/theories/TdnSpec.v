(** The problems solved by TVL2Denoise and TVL1Denoise, written down from their documentation (tvl2.py 25-38, tvl1.py 25-38)
    without reference to the operators of the code: an image has C channels of shape [s], stored one after the other, and the
    first K axes of [s] are differenced. *)
Require Import List Arith Reals.
Require Import Verif.RVec Verif.NdIndex Verif.NdSum.
Local Open Scope R_scope.

(** Pixel [idx] of channel [c]. *)
Definition pix (s : list nat) (x : nat -> R) (c : nat) (idx : list nat) : R := x (c * prod s + ravel s idx)%nat.
(** The forward difference along axis [ax], which is zero at the end of the axis. *)
Definition fdiff (s : list nat) (ax : nat) (f : list nat -> R) (idx : list nat) : R :=
  if Nat.ltb (coord ax idx + 1) (nth ax s O) then f (setc ax (coord ax idx + 1) idx) - f idx else 0.
(** The weighted (vector) total variation: at each pixel, the norm of all the differences of all the channels. *)
Definition tv_norm (s : list nat) (K C : nat) (w x : nat -> R) : R :=
  ndsum s (fun idx => w (ravel s idx) * sqrt (sumn K (fun ax => sumn C (fun c => fdiff s ax (pix s x c) idx * fdiff s ax (pix s x c) idx)))).
(** 1/2 || W_df (x - S) ||^2 + lmbda TV(x). *)
Definition tvl2_problem (s : list nat) (K C : nat) (lmbda : R) (S wd w x : nat -> R) : R :=
  / 2 * sumn (C * prod s) (fun i => (wd i * (x i - S i)) * (wd i * (x i - S i))) + lmbda * tv_norm s K C w x.
(** || W_df (x - S) ||_1 + lmbda TV(x). *)
Definition tvl1_problem (s : list nat) (K C : nat) (lmbda : R) (S wd w x : nat -> R) : R :=
  sumn (C * prod s) (fun i => Rabs (wd i * (x i - S i))) + lmbda * tv_norm s K C w x.
