(** Convolutional sparse coding with total variation terms, in the spatial domain: no Fourier transform occurs here. *)
Require Import List Arith Reals.
Require Import Verif.RVec Verif.CscSpec Verif.CscIterModel.
Import ListNotations.
Local Open Scope R_scope.
Local Notation vec := (nat -> R).

Section problem.
Variables (s dsh : nat -> nat) (axes : list nat) (M Cd : nat) (D : nat -> nat -> pos -> R) (S : nat -> pos -> R) (NS : nat) (bases : nat -> pos).
Variables (wtv : nat -> R) (wl1 : vec) (lmbda mu : R).
Notation P := (size s axes).
(** Coefficient map m of slice t, and its weighted difference along axis j. *)
Definition coef (x : vec) (t m : nat) : pos -> R := fun p => x ((m * NS + t) * P + rank s axes p)%nat.
Definition wgrad (x : vec) (t m j : nat) : pos -> R := fun p => wtv m * diff s j (coef x t m) p.
Definition fit (x : vec) : R := sumn NS (fun t => datafit s dsh axes M Cd D S (coef x t) (bases t)).
Definition sparsity (x : vec) : R := lmbda * sumn (M * NS * P) (fun i => wl1 i * Rabs (x i)).
(** The total variation of each coefficient map; of all of them jointly; the norm of the array of all the differences. *)
Definition scalar_tv (x : vec) : R :=
  sumn M (fun m => sumn NS (fun t => total s axes (fun p => sqrt (sumn (length axes) (fun j => wgrad x t m j p ^ 2))) (bases t))).
Definition vector_tv (x : vec) : R :=
  sumn NS (fun t => total s axes (fun p => sqrt (sumn (length axes) (fun j => sumn M (fun m => wgrad x t m j p ^ 2)))) (bases t)).
Definition norm_tv (x : vec) : R :=
  sqrt (sumn NS (fun t => sumn M (fun m => sumn (length axes) (fun j => sqn s axes (wgrad x t m j) (bases t))))).
Definition ctv_problem (tv : vec -> R) (x : vec) : R := fit x + sparsity x + mu * tv x.
End problem.
