(** The problem ParConvBPDN is documented to solve (parcbpdn.py 350-380):
      minimise  1/2 || W (sum_f d_f * x_f - s) ||^2 + lmbda sum_f || w_f x_f ||_1
    over coefficient maps with the allowed values.  Written without groups, without the variables of the solver and without
    its parameters.  [D f] is the matrix of the convolution with filter [f]. *)
Require Import Reals Arith.
Require Import Verif.RVec.
Local Open Scope R_scope.

Record cbpdn := mkCbpdn {
  bM : nat; bP : nat;                       (* filters, pixels *)
  bD : nat -> nat -> nat -> R;              (* D f p p' *)
  bS : nat -> R; bW : nat -> R;
  bl : R; bw : nat -> nat -> R;
  ballow : nat -> nat -> R -> Prop          (* NonNegCoef, NoBndryCross *)
}.
Section Problem.
Variable b : cbpdn.
Definition product (X : nat -> nat -> R) (p : nat) : R := sumn (bM b) (fun f => sumn (bP b) (fun r => bD b f p r * X f r)).
Definition objective (X : nat -> nat -> R) : R :=
  / 2 * sumn (bP b) (fun p => (bW b p * (product X p - bS b p)) ^ 2) + bl b * sumn (bM b) (fun f => sumn (bP b) (fun p => bw b f p * Rabs (X f p))).
Definition allowed (X : nat -> nat -> R) : Prop := forall f p, (f < bM b)%nat -> (p < bP b)%nat -> ballow b f p (X f p).
Definition solution (X : nat -> nat -> R) : Prop := allowed X /\ forall Z, allowed Z -> objective X <= objective Z.
End Problem.
(** [a] is at a distance of at most [eps] from [X] in every coefficient. *)
Definition near (b : cbpdn) (eps : R) (a X : nat -> nat -> R) : Prop :=
  forall f p, (f < bM b)%nat -> (p < bP b)%nat -> Rabs (a f p - X f p) <= eps.
