(** Specification of proximal operators and projections. *)
Require Import Reals.
Require Import Verif.RVec.
Local Open Scope R_scope.

(** The proximal objective of a function [g] at [v]. *)
Definition prox_obj (n : nat) (g : (nat -> R) -> R) (v x : nat -> R) : R := / 2 * nrm2 n (vsub x v) + g x.

(** [p] minimises [f] over all vectors. *)
Definition minimises (f : (nat -> R) -> R) (p : nat -> R) : Prop := forall x, f p <= f x.

(** [p] is the only minimiser up to the irrelevant components beyond [n]. *)
Definition unique_minimiser (n : nat) (f : (nat -> R) -> R) (p : nat -> R) : Prop :=
  minimises f p /\ forall q, minimises f q -> forall i, (i < n)%nat -> q i = p i.

(** [p] is the point of the set [C] nearest to [v], and the only one. *)
Definition nearest (n : nat) (C : (nat -> R) -> Prop) (v p : nat -> R) : Prop :=
  C p /\ (forall x, C x -> nrm n (vsub p v) <= nrm n (vsub x v)) /\
  (forall q, C q -> (forall x, C x -> nrm n (vsub q v) <= nrm n (vsub x v)) -> forall i, (i < n)%nat -> q i = p i).

(** Contract of a root finder for one call: for a continuous function with a sign change it returns a root inside the
    interval (such a root exists by the intermediate value theorem). *)
Definition root_finder_at (brentq : (R -> R) -> R -> R -> R) (f : R -> R) (a b : R) : Prop :=
  continuity f -> a <= b -> f a * f b <= 0 -> a <= brentq f a b <= b /\ f (brentq f a b) = 0.

(** The number of nonzero entries. *)
Definition nonzeros (n : nat) (x : nat -> R) : R := sumn n (fun i => if Req_EM_T (x i) 0 then 0 else 1).
(** Weighted l1 norm. *)
Definition wnrm1 (n : nat) (w x : nat -> R) : R := sumn n (fun i => Rabs (w i * x i)).

(** Arrays of [g] groups of [n] entries, and a proximal objective summed over the groups. *)
Definition group_obj (g n : nat) (f : (nat -> R) -> R) (v x : nat -> nat -> R) : R :=
  sumn g (fun j => prox_obj n f (v j) (x j)).
