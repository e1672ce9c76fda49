(** The constrained dictionary update problem: minimise 1/2 sum W (D Z - S)^2 over matrices whose columns lie in a linear space or
    cone (all vectors, vectors of zero mean, non-negative vectors) and have norm one. *)
Require Import List Arith Reals Bool.
Require Import Verif.RVec.
Local Open Scope R_scope.

Section problem.
Variables (Nc Nm Ns : nat) (Z S W : nat -> nat -> R) (zm nnc : bool).
Definition misfit (D : nat -> nat -> R) : R :=
  / 2 * sumn Nc (fun i => sumn Ns (fun n => W i n * (sumn Nm (fun m => D i m * Z m n) - S i n) ^ 2)).
Definition col (D : nat -> nat -> R) (m : nat) : nat -> R := fun i => D i m.
(** Allowed directions of a column. *)
Definition cone (v : nat -> R) : Prop := (zm = true -> sumn Nc v = 0) /\ (nnc = true -> forall i, (i < Nc)%nat -> 0 <= v i).
Definition in_cone (D : nat -> nat -> R) : Prop := forall m, (m < Nm)%nat -> cone (col D m).
Definition unit_atoms (D : nat -> nat -> R) : Prop := forall m, (m < Nm)%nat -> nrm2 Nc (col D m) = 1.
Definition unit_or_zero (D : nat -> nat -> R) : Prop := forall m, (m < Nm)%nat -> nrm2 Nc (col D m) = 1 \/ nrm2 Nc (col D m) = 0.
(** A solution of the documented problem. *)
Definition solution (D : nat -> nat -> R) : Prop :=
  in_cone D /\ unit_atoms D /\ forall X, in_cone X -> unit_atoms X -> misfit D <= misfit X.
(** First order condition with multipliers [lam]: D minimises, over the cone, the misfit minus sum_m lam_m <d_m, x_m>. *)
Definition first_order (lam : nat -> R) (D : nat -> nat -> R) : Prop :=
  in_cone D /\ unit_or_zero D /\
  forall X, in_cone X -> misfit D + sumn Nm (fun m => lam m * (dot Nc (col D m) (col X m) - nrm2 Nc (col D m))) <= misfit X.
End problem.
