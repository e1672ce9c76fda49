(** Model of the constraints applied after soft thresholding by the options NonNegCoef and NoBndryCross: sporco/admm/cbpdn.py 304-311 (and
    1652-1660), sporco/pgm/cbpdn.py 290-297, sporco/admm/parcbpdn.py 226-232 (all with the same slices). Arrays are functions of the full index
    [i_0; i_1; ...]; the first dimN axes are the spatial ones; [Nv] are the signal sizes and [dshape] the leading axes of the dictionary. *)
Require Import List Arith ZArith Reals.
Require Import Verif.ProxModel.
Import ListNotations.
Local Open Scope nat_scope.

Definition arr := list nat -> R.
(** The first index selected by slice(start, None) on an axis of length N: negative starts count from the end. *)
Definition slice_start (N : nat) (start : Z) : nat := if (start <? 0)%Z then Z.to_nat (Z.max 0 (Z.of_nat N + start)) else Z.to_nat (Z.min start (Z.of_nat N)).
(** Y[(slice(None),)*n + (slice(start, None),)] = 0.0. *)
Definition zero_from (n first : nat) (x : arr) : arr := fun ix => if first <=? nth n ix 0 then 0%R else x ix.
(** Y[Y < 0.0] = 0.0. *)
Definition clip (x : arr) : arr := fun ix => if Rlt_dec (x ix) 0 then 0%R else x ix.
(** The loop over the spatial axes. *)
Definition no_cross (dimN : nat) (Nv dshape : list nat) (x : arr) : arr :=
  fold_left (fun y n => zero_from n (slice_start (nth n Nv 0) (1 - Z.of_nat (nth n dshape 0))) y) (seq 0 dimN) x.
Definition constrain (NonNegCoef NoBndryCross : bool) (dimN : nat) (Nv dshape : list nat) (x : arr) : arr :=
  let y := if NonNegCoef then clip x else x in if NoBndryCross then no_cross dimN Nv dshape y else y.
(** ConvBPDN.ystep (admm/cbpdn.py 614-622): soft thresholding of AX + U with threshold (lmbda/rho) wl1, then the constraints; prox_g of
    pgm/cbpdn.py (286-297) is the same with threshold (lmbda/L) wl1. *)
Definition ystep (NonNegCoef NoBndryCross : bool) (dimN : nat) (Nv dshape : list nat) (v thr : arr) : arr :=
  constrain NonNegCoef NoBndryCross dimN Nv dshape (fun ix => sgn (v ix) * Rmax (Rabs (v ix) - thr ix) 0)%R.
