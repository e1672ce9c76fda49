(** The draws are uniform on [-1, 1): the probability of an interval inside is half its length. *)
Require Import Reals.
Local Open Scope R_scope.
Definition draw (u : R) : Prop := -1 <= u < 1.
Definition probability (a b : R) : R := (b - a) / 2.
(** A set of draws that is, up to its end points, the interval from a to b inside [-1, 1). *)
Definition is_interval (P : R -> Prop) (a b : R) : Prop :=
  -1 <= a <= b /\ b <= 1 /\ (forall u, draw u -> a < u < b -> P u) /\ (forall u, draw u -> P u -> a <= u <= b).
