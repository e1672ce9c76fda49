(** The optimisation problems behind C36, C37 and C67: objective functions, constraint sets, subgradients. *)
Require Import Reals.
Require Import Verif.RVec.
Local Open Scope R_scope.

(** Least squares term  (1/2) || L x - s ||^2  and ridge term. *)
Definition lsq (m : nat) (L : (nat -> R) -> nat -> R) (s x : nat -> R) : R := / 2 * nrm2 m (fun i => L x i - s i).
Definition ridge (n : nat) (mu : R) (x : nat -> R) : R := mu / 2 * nrm2 n x.
(** Weighted l1 norm times lambda; l2,1 norm over the rows of an array with Nm columns, times mu. *)
Definition l1reg (n : nat) (lam : R) (w x : nat -> R) : R := lam * sumn n (fun i => Rabs (w i * x i)).
Definition row (Nm i : nat) (x : nat -> R) : nat -> R := fun k => x (i * Nm + k)%nat.
Definition col (Nm k : nat) (x : nat -> R) : nat -> R := fun i => x (i * Nm + k)%nat.
Definition l21reg (Nc Nm : nat) (mu : R) (x : nat -> R) : R := mu * sumn Nc (fun i => nrm Nm (row Nm i x)).
(** Constraint sets. *)
Definition nonneg_set (nonneg : bool) (n : nat) (x : nat -> R) : Prop := nonneg = true -> forall i, (i < n)%nat -> 0 <= x i.
Definition l1ball_cols (Nc Nm : nat) (gamma : R) (x : nat -> R) : Prop := forall k, (k < Nm)%nat -> nrm1 Nc (col Nm k x) <= gamma.
Definition l2ball_cols (Nr Nm : nat) (s : nat -> R) (eps : R) (x : nat -> R) : Prop :=
  forall k, (k < Nm)%nat -> nrm Nr (fun i => col Nm k x i - col Nm k s i) <= eps.
Definition unit_cols (Nc Nm : nat) (zm : bool) (x : nat -> R) : Prop :=
  forall k, (k < Nm)%nat -> nrm Nc (col Nm k x) = 1 /\ (zm = true -> sumn Nc (col Nm k x) = 0).
(** A linear map with its adjoint. *)
Definition linear_map (L : (nat -> R) -> nat -> R) : Prop := forall a x b y p, L (fun i => a * x i + b * y i) p = a * L x p + b * L y p.
Definition adjoint_of (n m : nat) (L LT : (nat -> R) -> nat -> R) : Prop := forall x r, dot m (L x) r = dot n x (LT r).
Definition local_map (n : nat) (L : (nat -> R) -> nat -> R) : Prop := forall x y, (forall i, (i < n)%nat -> x i = y i) -> forall p, L x p = L y p.
(** [w] is a subgradient of [g] (restricted to [E]) at [y]. *)
Definition subgradient (n : nat) (E : (nat -> R) -> Prop) (g : (nat -> R) -> R) (y w : nat -> R) : Prop :=
  forall z, E z -> g y + dot n w (fun i => z i - y i) <= g z.
