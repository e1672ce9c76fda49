(** Convex problems  min f(x) + g(y)  s.t.  A x + B y = c,  and what solving them means. Functions may be restricted to a
    convex domain, to cover constraints. *)
Require Import Reals.
Require Import Verif.RVec.
Local Open Scope R_scope.

(** The point at position t on the segment from x to y. *)
Definition seg (x y : nat -> R) (t : R) : nat -> R := fun i => x i + t * (y i - x i).
Definition convex_on (D : (nat -> R) -> Prop) (f : (nat -> R) -> R) : Prop :=
  forall x y t, D x -> D y -> 0 <= t <= 1 -> D (seg x y t) /\ f (seg x y t) <= f x + t * (f y - f x).
(** Affine maps (in particular linear ones), on the first m components of the result. *)
Definition affine (m : nat) (A : (nat -> R) -> nat -> R) : Prop :=
  forall x y t i, (i < m)%nat -> A (seg x y t) i = A x i + t * (A y i - A x i).
Definition argmin (D : (nat -> R) -> Prop) (F : (nat -> R) -> R) (p : nat -> R) : Prop := D p /\ forall x, D x -> F p <= F x.

Definition gap (A B : (nat -> R) -> nat -> R) (c x y : nat -> R) : nat -> R := fun i => A x i + B y i - c i.
(** The augmented Lagrangian in scaled form, without the constant. *)
Definition auglag (m : nat) (A B : (nat -> R) -> nat -> R) (c : nat -> R) (rho : R) (f g : (nat -> R) -> R) (x y u : nat -> R) : R :=
  f x + g y + rho / 2 * nrm2 m (fun i => A x i + B y i - c i + u i).

Definition feasible (m : nat) (A B : (nat -> R) -> nat -> R) (c : nat -> R) (D E : (nat -> R) -> Prop) (x y : nat -> R) : Prop :=
  D x /\ E y /\ forall i, (i < m)%nat -> gap A B c x y i = 0.
Definition solution (m : nat) (A B : (nat -> R) -> nat -> R) (c : nat -> R) (D E : (nat -> R) -> Prop) (f g : (nat -> R) -> R)
  (x y : nat -> R) : Prop :=
  feasible m A B c D E x y /\ forall x' y', feasible m A B c D E x' y' -> f x + g y <= f x' + g y'.
(** A saddle point: a feasible pair with a multiplier, in units of rho. *)
Definition saddle (m : nat) (A B : (nat -> R) -> nat -> R) (c : nat -> R) (rho : R) (D E : (nat -> R) -> Prop)
  (f g : (nat -> R) -> R) (x y u : nat -> R) : Prop :=
  feasible m A B c D E x y /\ forall x' y', D x' -> E y' -> f x + g y <= f x' + g y' + rho * dot m u (gap A B c x' y').
