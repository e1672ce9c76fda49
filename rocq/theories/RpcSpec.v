(** The robust PCA problem: split S into a matrix L of small nuclear norm and a matrix E of small l1 norm. The nuclear norm is that
    of NucSpec (the dual of the operator norm). *)
Require Import Reals.
Require Import Verif.RVec Verif.NucSpec.
Local Open Scope R_scope.

Definition rows (N : nat) (x : nat -> R) : nat -> nat -> R := fun i j => x (i * N + j)%nat.
Definition splits (n : nat) (S L E : nat -> R) : Prop := forall i, (i < n)%nat -> L i + E i = S i.
Definition abs_sum (n : nat) (E : nat -> R) : R := sumn n (fun i => Rabs (E i)).
(** [v] is the smallest value, attained at L + E = S. *)
Definition rpca_solution (M N : nat) (lmbda : R) (S L E : nat -> R) (v : R) : Prop :=
  splits (M * N) S L E /\ (exists w, is_nuclear M N (rows N L) w /\ v = w + lmbda * abs_sum (M * N) E) /\
  forall L' E' w', splits (M * N) S L' E' -> is_nuclear M N (rows N L') w' -> v <= w' + lmbda * abs_sum (M * N) E'.
