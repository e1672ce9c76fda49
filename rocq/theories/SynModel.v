(** signal.spnoise, signal.rndmask and signal.rgb2gray (sporco/signal.py 42-113), entry by entry.  The draws of numpy's generator
    are arguments: [u] is an entry of np.random.uniform(-1.0, 1.0, shape). *)
Require Import Reals ZArith Bool.
Require Import Verif.RVec.
Local Open Scope R_scope.

(** The data types that matter: conversion to an integer type truncates towards zero, to bool it tests for zero. *)
Inductive dtype : Type := Float | Int | BoolT.
Definition trunc (x : R) : R := if Rle_dec 0 x then IZR (Int_part x) else - IZR (Int_part (- x)).
Definition cast (d : dtype) (x : R) : R :=
  match d with Float => x | Int => trunc x | BoolT => if Req_EM_T x 0 then 0 else 1 end.

(** rndmask (88-91): the second comparison sees the entries already replaced by the first. *)
Definition rndmask (d : dtype) (frc u : R) : R :=
  let msk := cast d u in
  let msk := if Rlt_dec frc (Rabs msk) then cast d 1 else msk in
  if Rlt_dec (Rabs msk) frc then cast d 0 else msk.

(** spnoise (62-66) for an image of type d: the noise values are converted on assignment. *)
Definition spnoise (d : dtype) (frc smn smx s u : R) : R :=
  let sn := s in
  let sn := if Rlt_dec u (frc - 1) then cast d smn else sn in
  if Rlt_dec (1 - frc) u then cast d smx else sn.

(** rgb2gray (109-111): the weights have the type of the image; [rgb k] is channel k of a pixel. *)
Definition rgb2gray (d : dtype) (rgb : nat -> R) : R :=
  let w := fun k => cast d (match k with O => 299 / 1000 | 1%nat => 587 / 1000 | _ => 114 / 1000 end) in
  sumn 3 (fun k => w k * rgb k).
