(** The convolutional sparse coding sub-problem in the spatial domain: no Fourier transform occurs here.  [base] fixes the
    coordinates which are not filtered along (signal index, channel); sums run over the positions on [axes]. *)
Require Import List Arith Reals Bool.
Require Import Verif.RVec.
Import ListNotations.
Local Open Scope R_scope.

Definition pos : Type := nat -> nat.
Definition set_at (p : pos) (ax j : nat) : pos := fun k => if Nat.eqb k ax then j else p k.
(** Sum over all positions: the coordinate on each of the axes runs over its range. *)
Fixpoint total (s : nat -> nat) (axes : list nat) (f : pos -> R) (p : pos) : R :=
  match axes with
  | [] => f p
  | ax :: r => sumn (s ax) (fun j => total s r f (set_at p ax j))
  end.
Definition sqn (s : nat -> nat) (axes : list nat) (f : pos -> R) (base : pos) : R := total s axes (fun p => f p * f p) base.

(** p - k on a periodic domain, and circular convolution. *)
Definition minus (s : nat -> nat) (axes : list nat) (p k : pos) : pos :=
  fun ax => if existsb (Nat.eqb ax) axes then ((p ax + s ax - k ax) mod s ax)%nat else p ax.
Definition conv (s : nat -> nat) (axes : list nat) (u v : pos -> R) (p : pos) : R :=
  total s axes (fun k => u k * v (minus s axes p k)) p.
(** A filter with support of size [dsh], extended by zeros. *)
Definition ext (dsh : nat -> nat) (axes : list nat) (u : pos -> R) : pos -> R :=
  fun p => if forallb (fun ax => Nat.ltb (p ax) (dsh ax)) axes then u p else 0.
(** The difference with the preceding sample along one axis, periodically. *)
Definition back (s : nat -> nat) (ax : nat) (p : pos) : pos := set_at p ax ((p ax + s ax - 1) mod s ax)%nat.
Definition diff (s : nat -> nat) (ax : nat) (u : pos -> R) (p : pos) : R := u p - u (back s ax p).

Section problem.
Variables (s dsh : nat -> nat) (axes : list nat) (M Cd : nat) (D : nat -> nat -> pos -> R).
(** sum_m d_{c,m} * x_m *)
Definition synth (X : nat -> pos -> R) (c : nat) (p : pos) : R := sumn M (fun m => conv s axes (ext dsh axes (D c m)) (X m) p).
Definition datafit (S : nat -> pos -> R) (X : nat -> pos -> R) (base : pos) : R :=
  / 2 * sumn Cd (fun c => sqn s axes (fun p => synth X c p - S c p) base).
Definition ridge_term (mu : R) (X : nat -> pos -> R) (base : pos) : R := mu / 2 * sumn M (fun m => sqn s axes (X m) base).
Definition grad_term (mu : R) (wg : nat -> R) (X : nat -> pos -> R) (base : pos) : R :=
  mu / 2 * sumn M (fun m => wg m * fold_right Rplus 0 (map (fun ax => sqn s axes (diff s ax (X m)) base) axes)).
(** rho/2 || X - Z ||^2 *)
Definition near (rho : R) (Z X : nat -> pos -> R) (base : pos) : R := rho / 2 * sumn M (fun m => sqn s axes (fun p => X m p - Z m p) base).
End problem.
