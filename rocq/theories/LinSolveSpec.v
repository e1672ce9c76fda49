(** Specification: the systems that the linear solvers have to solve. *)
From mathcomp Require Import all_ssreflect all_algebra.
Set Implicit Arguments.
Unset Strict Implicit.
Unset Printing Implicit Defensive.
Import GRing.Theory Num.Theory.
Local Open Scope ring_scope.

(** (D + sum_k a_k a_k^H) x = b, with D diagonal and a_k the conjugate of ah_k. *)
Definition block_system (C : numClosedFieldType) M (d : 'I_M -> C) (ahs : seq ('I_M -> C)) (x b : 'I_M -> C) : Prop :=
  forall m, d m * x m + \sum_(ah <- ahs) (ah m)^* * (\sum_(n < M) ah n * x n) = b m.

(** Positive semi-definite matrix, as a quadratic form. *)
Definition psd (R : realFieldType) n (A : 'M[R]_n) : Prop := forall v : 'rV[R]_n, 0 <= (v *m A *m v^T) 0 0.

(** Contract of a factorise-and-solve routine. *)
Definition solves (F : fieldType) (solve : forall n k, 'M[F]_n -> bool -> 'M[F]_(n, k) -> 'M[F]_(n, k)) : Prop :=
  forall n k (G : 'M[F]_n) (tr : bool) (B : 'M[F]_(n, k)), G \in unitmx ->
    (if tr then G^T else G) *m solve n k G tr B = B.

(** Contract of a symmetric eigenvalue routine. *)
Definition eigen_decomposition (R : realFieldType) n (A : 'M[R]_n) (L : 'rV[R]_n) (Q : 'M[R]_n) : Prop :=
  Q^T *m Q = 1%:M /\ A = Q *m diag_mx L *m Q^T.
