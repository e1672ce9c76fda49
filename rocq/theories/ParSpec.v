(** What an iteration of the parallel solver is meant to compute: ADMM for
      minimise 1/2 || W (sum_i Y0_i - S) ||^2 + lmbda || w Y1 ||_1   subject to   D_i X = Y0_i,  alpha X = alpha Y1,
    with the filters of group [i] in D_i (parcbpdn.py 350-470).  Nothing here refers to the arrays or steps of the model. *)
Require Import Reals Arith Bool.
Require Import Verif.RVec.
Local Open Scope R_scope.

Record problem := mkProblem {
  pM : nat; pn : nat; pP : nat;                       (* filters, groups, pixels *)
  pD : nat -> (nat -> nat -> R) -> nat -> R;          (* D i X: the filters of group i applied to their maps *)
  pS : nat -> R; pW : nat -> R;
  plmbda : R; prho : R; palpha : R; prlx : R; pw : nat -> nat -> R;
  pfeas : nat -> nat -> R -> Prop                     (* values allowed for a coefficient *)
}.

Record st := mkSt { Y0 : nat -> nat -> R; Y1 : nat -> nat -> R; U0 : nat -> nat -> R; U1 : nat -> nat -> R }.

Section Spec.
Variable q : problem.
Definition sumF (h : nat -> nat -> R) : R := sumn (pM q) (fun f => sumn (pP q) (h f)).
Definition sumG (h : nat -> nat -> R) : R := sumn (pn q) (fun i => sumn (pP q) (h i)).

(** Augmented Lagrangian in X, without the terms that do not depend on X. *)
Definition xobj (s : st) (Z : nat -> nat -> R) : R :=
  1 / 2 * sumG (fun i p => (pD q i Z p - Y0 s i p + U0 s i p) ^ 2) +
  1 / 2 * sumF (fun f p => (palpha q * Z f p - palpha q * Y1 s f p + U1 s f p) ^ 2).

Definition relaxed (a b : nat -> nat -> R) : nat -> nat -> R := fun i p => prlx q * a i p + (1 - prlx q) * b i p.

Definition y0obj (DXr u Z : nat -> nat -> R) : R :=
  1 / 2 * sumn (pP q) (fun p => (pW q p * (sumn (pn q) (fun i => Z i p) - pS q p)) ^ 2) +
  prho q / 2 * sumG (fun i p => (DXr i p - Z i p + u i p) ^ 2).

Definition y1obj (Xr u Z : nat -> nat -> R) : R :=
  plmbda q * sumF (fun f p => pw q f p * Rabs (Z f p)) +
  prho q / 2 * sumF (fun f p => (palpha q * Xr f p - palpha q * Z f p + u f p) ^ 2).
Definition feasible (Z : nat -> nat -> R) : Prop := forall f p, (f < pM q)%nat -> (p < pP q)%nat -> pfeas q f p (Z f p).

(** One iteration from [s] to [s'] with the coefficient maps [X]. *)
Record is_step (X : nat -> nat -> R) (s s' : st) : Prop := {
  x_min : forall Z, xobj s X <= xobj s Z;
  y0_min : forall Z, y0obj (relaxed (fun i => pD q i X) (Y0 s)) (U0 s) (Y0 s') <= y0obj (relaxed (fun i => pD q i X) (Y0 s)) (U0 s) Z;
  y1_ok : feasible (Y1 s');
  y1_min : forall Z, feasible Z -> y1obj (relaxed X (Y1 s)) (U1 s) (Y1 s') <= y1obj (relaxed X (Y1 s)) (U1 s) Z;
  u0_eq : forall i p, (i < pn q)%nat -> (p < pP q)%nat ->
          U0 s' i p = U0 s i p + (relaxed (fun i => pD q i X) (Y0 s) i p - Y0 s' i p);
  u1_eq : forall f p, (f < pM q)%nat -> (p < pP q)%nat ->
          U1 s' f p = U1 s f p + (palpha q * relaxed X (Y1 s) f p - palpha q * Y1 s' f p)
}.

(** [N] iterations; [xsq k] are the coefficient maps of iteration [k], [sq k] the variables before it. *)
Definition iterations (N : nat) (xsq : nat -> nat -> nat -> R) (sq : nat -> st) : Prop :=
  forall k, (k < N)%nat -> is_step (xsq k) (sq k) (sq (S k)).
End Spec.
