(** Specification vocabulary for the proximal gradient methods. *)
Require Import Reals.
Require Import Verif.RVec.
Local Open Scope R_scope.
(** [grad] is the gradient of [f]: it gives every directional derivative. *)
Definition is_gradient (n : nat) (f : (nat -> R) -> R) (grad : (nat -> R) -> nat -> R) : Prop :=
  forall x d, derivable_pt_lim (fun t => f (fun i => x i + t * d i)) 0 (dot n (grad x) d).
(** The gradient is Lipschitz with constant [Lf]. *)
Definition lipschitz (n : nat) (grad : (nat -> R) -> nat -> R) (Lf : R) : Prop :=
  forall x y, nrm n (fun i => grad x i - grad y i) <= Lf * nrm n (fun i => x i - y i).
(** The quadratic upper bound at [x] of the model around [y], with curvature [L]. *)
Definition majorises (n : nat) (f : (nat -> R) -> R) (grad : (nat -> R) -> nat -> R) (L : R) (x y : nat -> R) : Prop :=
  f x <= f y + dot n (grad y) (fun i => x i - y i) + L / 2 * nrm2 n (fun i => x i - y i).
