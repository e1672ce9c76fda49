(** Convolutional sparse coding with the total variation of the reconstruction, in the spatial domain: no Fourier transform occurs here. *)
Require Import List Arith Reals.
Require Import Verif.RVec Verif.CscSpec Verif.CscIterModel.
Import ListNotations.
Local Open Scope R_scope.
Local Notation vec := (nat -> R).

Section problem.
Variables (s dsh : nat -> nat) (axes : list nat) (M Cd : nat) (D : nat -> nat -> pos -> R) (S : nat -> pos -> R) (Cx KS : nat) (bases : nat -> pos).
Variables (wtv : nat -> R) (wl1 : vec) (lmbda mu : R).
Notation P := (size s axes).
Notation NS := (Cx * KS)%nat.
(** Coefficient map m of channel x of signal k; the reconstruction of channel c from the maps weighted by [wtv]. *)
Definition cmap (x : vec) (t m : nat) : pos -> R := fun p => x ((m * NS + t) * P + rank s axes p)%nat.
Definition wrec (x : vec) (t c : nat) : pos -> R := fun p => sumn M (fun m => wtv m * conv s axes (ext dsh axes (D c m)) (cmap x t m) p).
Definition rec_fit (x : vec) : R := sumn NS (fun t => datafit s dsh axes M Cd D S (cmap x t) (bases t)).
Definition rec_l1 (x : vec) : R := lmbda * sumn (M * NS * P) (fun i => wl1 i * Rabs (x i)).
(** The total variation of the reconstructed images, the norm being taken jointly over directions and channels; [place] is the position
    number i of a slice. *)
Definition rec_tv (x : vec) : R :=
  sumn KS (fun k => sumn P (fun i => sqrt (sumn (length axes) (fun j => sumn Cd (fun c => sumn Cx (fun ch =>
    diff s j (wrec x (ch * KS + k) c) (place s axes (bases (ch * KS + k)%nat) i) ^ 2)))))).
Definition rec_problem (x : vec) : R := rec_fit x + rec_l1 x + mu * rec_tv x.
End problem.
