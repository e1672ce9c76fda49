(** The problems of total variation deconvolution in the spatial domain: no Fourier transform occurs here. *)
Require Import List Arith Reals.
Require Import Verif.RVec Verif.CscSpec Verif.CscIterModel.
Import ListNotations.
Local Open Scope R_scope.
Local Notation vec := (nat -> R).

Section problem.
Variables (s ash : nat -> nat) (axes : list nat) (A S : pos -> R) (C B : nat) (bases : nat -> pos).
Notation P := (size s axes).
(** The image: slice c * B + b holds channel c, the vector [x] being the image in C order. *)
Definition image (x : vec) (t : nat) : pos -> R := fun p => x (t * P + rank s axes p)%nat.
(** The blurred image minus the data. *)
Definition misfit (x : vec) (t : nat) (p : pos) : R := conv s axes (ext ash axes A) (image x t) p - S p.
(** The total variation, with weight w at each pixel: the Euclidean norm of all the differences of all the channels. *)
Definition tv (w x : vec) : R :=
  sumn B (fun b => total s axes (fun p => w (b * P + rank s axes p)%nat *
    sqrt (sumn (length axes) (fun j => sumn C (fun c => diff s j (image x (c * B + b)) p ^ 2)))) (fun _ => O)).
Definition tvl2_problem (lmbda : R) (w x : vec) : R :=
  / 2 * sumn (C * B) (fun t => sqn s axes (misfit x t) (bases t)) + lmbda * tv w x.
Definition tvl1_problem (lmbda : R) (w wd x : vec) : R :=
  sumn (C * B) (fun t => total s axes (fun p => wd (t * P + rank s axes p)%nat * Rabs (misfit x t p)) (bases t)) + lmbda * tv w x.
(** The sum of the samples of the blur. *)
Definition dc_gain (t : nat) : R := total s axes (ext ash axes A) (bases t).
End problem.
