(** What is said about the speed of the ADMM iteration and about its stopping test. *)
Require Import Reals.
Require Import Verif.RVec Verif.AdmmSpec.
Local Open Scope R_scope.

(** Distance (squared) of a pair (y, u) from a solution, in the variable in which the relaxed iteration contracts. *)
Definition start_distance (m : nat) (B : (nat -> R) -> nat -> R) (y u ys us : nat -> R) : R :=
  nrm2 m (fun i => (u i - B y i) - (us i - B ys i)).
(** y is a minimiser of g plus the linear term that u defines: what a y step leaves behind, and what the initial
    arrays satisfy if, for example, u = 0 and g is smallest at y. *)
Definition dual_fit (m : nat) (B : (nat -> R) -> nat -> R) (rho : R) (E : (nat -> R) -> Prop) (g : (nat -> R) -> R) (y u : nat -> R) : Prop :=
  E y /\ forall v, E v -> g y <= g v + rho * dot m u (fun i => B v i - B y i).
(** AT is the adjoint of A, B is linear, and the gain of A is at most a. *)
Definition adjoint_pair (m n : nat) (A AT : (nat -> R) -> nat -> R) : Prop :=
  forall x x' v, dot m (fun i => A x i - A x' i) v = dot n (fun j => x j - x' j) (AT v).
Definition additive (m : nat) (B : (nat -> R) -> nat -> R) : Prop :=
  forall y y' i, (i < m)%nat -> B (fun j => y j - y' j) i = B y i - B y' i.
Definition gain (m n : nat) (A : (nat -> R) -> nat -> R) (a : R) : Prop :=
  0 <= a /\ forall x x', nrm m (fun i => A x i - A x' i) <= a * nrm n (fun j => x j - x' j).
(** The documented criterion (Boyd et al., section 3.3.1): norms r and s of the residuals, rn and sn the norms that the
    relative tolerance refers to. *)
Definition criterion (m n : nat) (abstol reltol r s rn sn : R) : Prop :=
  r < sqrt (INR m) * abstol + reltol * rn /\ s < sqrt (INR n) * abstol + reltol * sn.
