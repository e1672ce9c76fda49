(** Specifications for sporco/interp.py. *)
Require Import List Arith ZArith Reals.
Require Import Verif.RVec Verif.InterpModel.
Local Open Scope R_scope.
(** Linear programming. *)
Definition lp_feasible (p : lp) (z : nat -> R) : Prop := forall i, (i < lp_m p)%nat -> sumn (lp_n p) (fun j => lp_A p i j * z j) <= lp_b p i.
Definition lp_value (p : lp) (z : nat -> R) : R := sumn (lp_n p) (fun j => lp_c p j * z j).
Definition lp_optimal (p : lp) (z : nat -> R) : Prop := lp_feasible p z /\ forall w, lp_feasible p w -> lp_value p z <= lp_value p w.
(** The contract of the external solver: it reports success only with an optimal point, and succeeds if there is one. *)
Definition lp_solver (linprog : lp -> bool * (nat -> R)) : Prop :=
  forall p, (fst (linprog p) = true -> lp_optimal p (snd (linprog p))) /\ (fst (linprog p) = false -> forall z, ~ lp_optimal p z).
(** Residuals of A x = b. *)
Definition resid (N : nat) (A : nat -> nat -> R) (b x : nat -> R) (i : nat) : R := sumn N (fun j => A i j * x j) - b i.
Definition l1dev (M N : nat) A b x : R := sumn M (fun i => Rabs (resid N A b x i)).
Definition is_maxdev (M N : nat) A b x (t : R) : Prop :=
  (forall i, (i < M)%nat -> Rabs (resid N A b x i) <= t) /\ (exists i, (i < M)%nat /\ Rabs (resid N A b x i) = t).
