(** The problem solved by SplineL1, without any cosine transform: the second difference operator with reflecting ends, as in the
    matrix D of the class documentation (rows (-1 1), (1 -2 1), ..., (1 -1)), summed over the axes, and the objective function
    || W (x - s) ||_1 + lambda / 2 || D x ||^2. *)
Require Import List Arith Reals Bool.
Require Import Verif.RVec.
Import ListNotations.
Local Open Scope R_scope.

(** One row of D applied to a signal of length [N]. *)
Definition second_diff (N : nat) (x : nat -> R) (j : nat) : R :=
  (if Nat.ltb (S j) N then x (S j) - x j else 0) + (if Nat.eqb j 0 then 0 else x (j - 1)%nat - x j).
(** Along the axis [ax] of an array with lengths [s], and summed over [axes]. *)
Definition along (s : nat -> nat) (ax : nat) (x : (nat -> nat) -> R) (p : nat -> nat) : R :=
  second_diff (s ax) (fun j => x (fun a => if Nat.eqb a ax then j else p a)) (p ax).
Definition laplace (s : nat -> nat) (axes : list nat) (x : (nat -> nat) -> R) (p : nat -> nat) : R :=
  fold_right (fun ax t => along s ax x p + t) 0 axes.
(** The array of a vector in C order, and the objective function on vectors; [at_] lists the positions. *)
Definition on_vec (at_ : nat -> nat -> nat) (num : (nat -> nat) -> nat) (Op : ((nat -> nat) -> R) -> (nat -> nat) -> R) (x : nat -> R) : nat -> R :=
  fun r => Op (fun p => x (num p)) (at_ r).
Definition spline_obj (n : nat) (D : (nat -> R) -> nat -> R) (lmbda : R) (W s x : nat -> R) : R :=
  sumn n (fun r => Rabs (W r * (x r - s r))) + lmbda / 2 * nrm2 n (D x).
