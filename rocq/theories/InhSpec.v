(** Convolutional sparse coding with inhibition (documentation of ConvBPDNInhib), in the spatial domain. *)
Require Import List Arith Reals Bool.
Require Import Verif.RVec Verif.CscSpec.
Import ListNotations.
Local Open Scope R_scope.

(** A periodic weighting array of radius r around the origin: the value at k is non-zero only if every coordinate is within
    distance r of 0 on the circle, and is then the geometric mean of the window samples at the signed distances. *)
Definition within (n r k : nat) : bool := (Nat.leb k r || Nat.leb (n - r) k)%bool.
Definition sample (n r k : nat) : nat := if Nat.leb k r then (r + k)%nat else (r + k - n)%nat.
Definition weighting (s : nat -> nat) (axes : list nat) (r : nat) (win : nat -> R) (h : pos -> R) : Prop :=
  forall k, (forall ax, In ax axes -> (k ax < s ax)%nat) ->
    if forallb (fun ax => within (s ax) r (k ax)) axes
    then 0 <= h k /\ h k ^ length axes = fold_right Rmult 1 (map (fun ax => win (sample (s ax) r (k ax))) axes)
    else h k = 0.

(** The number of common groups of two different filters (for a matrix of zeros and ones). *)
Definition share (Ng : nat) (W : nat -> nat -> R) (m n : nat) : R := if Nat.eqb m n then 0 else sumn Ng (fun g => W g m * W g n).
(** Lateral inhibition of filter m at p: weighted activity of the other filters of its groups around p.  Self inhibition: weighted
    activity of the same filter around p. *)
Definition omega (s : nat -> nat) (axes : list nat) (M : nat) (c : nat -> nat -> R) (h : pos -> R) (X : nat -> pos -> R) (m : nat) (p : pos) : R :=
  sumn M (fun n => c m n * conv s axes h (fun q => Rabs (X n q)) p).
Definition zeta (s : nat -> nat) (axes : list nat) (h : pos -> R) (X : nat -> pos -> R) (m : nat) (p : pos) : R :=
  conv s axes h (fun q => Rabs (X m q)) p.
