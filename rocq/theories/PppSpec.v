(** Plug and play equilibria, stated for arbitrary operators: no iteration occurs here. *)
Require Import Reals.
Require Import Verif.RVec.
Local Open Scope R_scope.
Local Notation vec := (nat -> R).

(** The equilibrium of two agents F and G: F leaves x fixed after the force u is subtracted, G after it is added. *)
Definition equilibrium (n : nat) (F G : vec -> vec) (x u : vec) : Prop :=
  (forall i, (i < n)%nat -> F (fun j => x j - u j) i = x i) /\ (forall i, (i < n)%nat -> G (fun j => x j + u j) i = x i).
(** The multi-agent consensus equilibrium: each agent leaves x fixed under its force, and g is in equilibrium with the mean force. *)
Definition consensus (nb n : nat) (alpha : vec) (F : nat -> vec -> vec) (G : vec -> vec) (x : vec) (u : nat -> vec) : Prop :=
  (forall j i, (j < nb)%nat -> (i < n)%nat -> F j (fun l => x l - u j l) i = x i) /\
  (forall i, (i < n)%nat -> G (fun l => x l + sumn nb (fun j => alpha j * u j l) / sumn nb alpha) i = x i).
(** Firmly non-expansive operators. *)
Definition firm (n : nat) (T : vec -> vec) : Prop :=
  forall a b, nrm2 n (fun i => T a i - T b i) <= dot n (fun i => T a i - T b i) (fun i => a i - b i).
(** T v is the value of the proximal operator of f / rho, for each v: f may be restricted to a set D. *)
Definition proximal (n : nat) (D : vec -> Prop) (f : vec -> R) (rho : R) (T : vec -> vec) : Prop :=
  forall v, D (T v) /\ forall x, D x -> f (T v) + rho / 2 * nrm2 n (fun i => T v i - v i) <= f x + rho / 2 * nrm2 n (fun i => x i - v i).
