(** Vocabulary of C104: interpolating cubic splines, and the colour filter array. *)
Require Import Reals List Arith Bool Lra Lia.
Local Open Scope R_scope.

(** The interpolating cubic spline of FITPACK (s = 0, not-a-knot) with values f 0, ..., f (n-1) at the nodes 0, ..., n-1: cubic polynomials
    between the nodes, two continuous derivatives, and one polynomial on the first two and on the last two intervals. *)
Definition cubic (a b c d t : R) : R := a + b * t + c * t ^ 2 + d * t ^ 3.
Record spline (n : nat) (f : nat -> R) (g : R -> R) : Prop := mkSpline {
  sp_interp : forall k, (k < n)%nat -> g (INR k) = f k;
  sp_pieces : exists a b c d : nat -> R,
    (forall k t, (S k < n)%nat -> INR k <= t <= INR (S k) -> g t = cubic (a k) (b k) (c k) (d k) t) /\
    (forall k, (S (S k) < n)%nat -> exists e, forall t,
        cubic (a (S k)) (b (S k)) (c (S k)) (d (S k)) t - cubic (a k) (b k) (c k) (d k) t = e * (t - INR (S k)) ^ 3) /\
    (forall t, cubic (a 1%nat) (b 1%nat) (c 1%nat) (d 1%nat) t = cubic (a 0%nat) (b 0%nat) (c 0%nat) (d 0%nat) t) /\
    (forall t, cubic (a (n - 2)%nat) (b (n - 2)%nat) (c (n - 2)%nat) (d (n - 2)%nat) t
               = cubic (a (n - 3)%nat) (b (n - 3)%nat) (c (n - 3)%nat) (d (n - 3)%nat) t) }.

(** The colour measured at a pixel: B G B G / G R G R. *)
Inductive colour := Red | Green | Blue.
Definition measured (i j : nat) : colour :=
  if Nat.even i then if Nat.even j then Blue else Green else if Nat.even j then Green else Red.
