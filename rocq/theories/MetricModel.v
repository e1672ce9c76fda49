(** Model of sporco/metric.py: mae, mse, snr, psnr, isnr, bsnr. Images are raveled complex (or real) arrays of n entries; pamse and gmsd are in
    PerModel. *)
Require Import Arith ZArith Reals.
Require Import Verif.RVec Verif.Cplx Verif.CproxModel.
Local Open Scope R_scope.
Notation img := (nat -> C).
Definition real (v : nat -> R) : img := fun i => ofR (v i).
(** mae 58-60, mse 85-87. *)
Definition mae (n : nat) (r c : img) : R := sumn n (fun i => cabs (csub (r i) (c i))) / INR n.
Definition mse (n : nat) (r c : img) : R := sumn n (fun i => cabs (csub (r i) (c i)) ^ 2) / INR n.
(** np.var: mean squared distance from the mean. *)
Definition mean (n : nat) (v : img) : C := cscal (/ INR n) (csumn n v).
Definition var (n : nat) (v : img) : R := sumn n (fun i => cabs (csub (v i) (mean n v)) ^ 2) / INR n.
(** Decibel values: 10 log10(a / b) with the IEEE results for zeros (a, b >= 0). *)
Inductive db := Fin (x : R) | PInf | NInf | NaN.
Definition log10 (x : R) : R := ln x / ln 10.
Definition decibel (a b : R) : db :=
  if Req_EM_T b 0 then (if Req_EM_T a 0 then NaN else PInf)
  else if Req_EM_T a 0 then NInf else Fin (10 * log10 (a / b)).
(** snr 108-111. *)
Definition snr (n : nat) (vref vcmp : img) : db := decibel (var n vref) (mse n vref vcmp).
(** vref.max(), vref.min(). *)
Fixpoint amax (n : nat) (v : nat -> R) : R := match n with O => 0 | S O => v O | S m => Rmax (amax m v) (v m) end.
Fixpoint amin (n : nat) (v : nat -> R) : R := match n with O => 0 | S O => v O | S m => Rmin (amin m v) (v m) end.
(** psnr 139-144 for a real reference image. Line 140 subtracts in the data type of the image: [sub] is exact for floating point images and
    wraps around for integer images. *)
Definition psnr (sub : R -> R -> R) (n : nat) (vref : nat -> R) (vcmp : img) (rng : option R) : db :=
  let rng := match rng with Some r => r | None => Rabs (sub (amax n vref) (amin n vref)) end in
  decibel (rng ^ 2) (mse n (real vref) vcmp).
(** Subtraction of int8 and uint8 values. *)
Definition wrap_int8 (a b : Z) : Z := ((a - b + 128) mod 256 - 128)%Z.
Definition wrap_uint8 (a b : Z) : Z := ((a - b) mod 256)%Z.
(** isnr 168-172, bsnr 194-198 ([diff] is vnsy - vblr in the data type of the images). *)
Definition isnr (n : nat) (vref vdeg vrst : img) : db := decibel (mse n vref vdeg) (mse n vref vrst).
Definition bsnr (n : nat) (vblr : img) (diff : img) : db := decibel (var n vblr) (var n diff).
