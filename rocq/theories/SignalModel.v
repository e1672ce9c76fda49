(** Model of the finite differences sporco/signal.py grad (115-168) and gradT (172-200), on arrays of any dimension with
    real entries, and of the total variation operators built on them: cnst_A, cnst_AT, LaplaceCentreWeight and
    GaussSeidelStep of sporco/admm/tvl2.py (307-371) and sporco/admm/tvl1.py (317-397). An array of shape [s] is a
    function on indices, used only on the indices valid for [s]. *)
Require Import List Arith ZArith Reals Bool.
Require Import Verif.NdIndex Verif.RVec Verif.NdSum.
Import ListNotations.
Local Open Scope R_scope.

(** np.roll along one axis by one position forward ([-1]) or backward ([1]). *)
Definition roll_m1 (s : list nat) (ax : nat) (x : list nat -> R) : list nat -> R :=
  fun idx => x (setc ax ((coord ax idx + 1) mod nth ax s O) idx).
Definition roll_p1 (s : list nat) (ax : nat) (x : list nat -> R) : list nat -> R :=
  fun idx => x (setc ax ((coord ax idx + nth ax s O - 1) mod nth ax s O) idx).

(** The axis seen by np.roll and np.diff (negative axes count from the end), and the axis selected by the index
    (slice(None),)*axis + (...): the tuple is empty if [axis] is negative. *)
Definition np_axis (s : list nat) (axis : Z) : nat := Z.to_nat (if Z.ltb axis 0 then axis + Z.of_nat (length s) else axis).
Definition slc_axis (axis : Z) : nat := Z.to_nat axis.

(** grad with zero_pad=False (165-167). *)
Definition grad (s : list nat) (axis : Z) (x : list nat -> R) : list nat -> R :=
  let a := np_axis s axis in
  let b := slc_axis axis in
  fun idx => if Nat.eqb (coord b idx) (nth b s O - 1) then 0 else roll_m1 s a x idx - x idx.

(** gradT with zero_pad=False (196-199). [None]: ValueError, the slice [-2:-1] of an axis of length one is empty and
    cannot be assigned to the slice [-1:]. The last assignment overrides the first. *)
Definition gradT (s : list nat) (axis : Z) (x : list nat -> R) : option (list nat -> R) :=
  let a := np_axis s axis in
  let b := slc_axis axis in
  let n := nth b s O in
  if Nat.eqb n 1 then None
  else Some (fun idx =>
    if Nat.eqb (coord b idx) (n - 1) then x (setc b (n - 2) idx)
    else if Nat.eqb (coord b idx) 0 then - x (setc b 0 idx)
    else roll_p1 s a x idx - x idx).

(** grad and gradT with zero_pad=True (163, 194): np.diff, with a zero before and after in grad; the axis has one more
    sample in the gradient. *)
Definition grad_zp (s : list nat) (axis : Z) (x : list nat -> R) : list nat -> R :=
  let a := np_axis s axis in
  let n := nth a s O in
  let xp := fun idx => if Nat.eqb (coord a idx) 0 then 0
                       else if Nat.eqb (coord a idx) (n + 1) then 0 else x (setc a (coord a idx - 1) idx) in
  fun idx => xp (setc a (coord a idx + 1) idx) - xp idx.
Definition gradT_zp (s : list nat) (axis : Z) (x : list nat -> R) : list nat -> R :=
  let a := np_axis s axis in
  fun idx => - (x (setc a (coord a idx + 1) idx) - x idx).

(** ** Total variation *)
(** The gradient array has a last axis for the component; component [c] is [y c]. *)
(** cnst_A (tvl2.py 313-315): component j is the gradient along axes[j]. *)
Definition tv_A (s : list nat) (axes : list nat) (x : list nat -> R) : nat -> list nat -> R :=
  fun c => grad s (Z.of_nat (nth c axes O)) x.

(** cnst_AT (tvl2.py 325-327): the sum over [ax] in [axes] of gradT(X[..., ax], ax). [None]: IndexError if [ax] is not a
    component, or ValueError of gradT. *)
Fixpoint tv_AT_sum (s : list nat) (ncomp : nat) (axes : list nat) (y : nat -> list nat -> R) : option (list nat -> R) :=
  match axes with
  | [] => Some (fun _ => 0)
  | ax :: r =>
      if Nat.ltb ax ncomp then
        match gradT s (Z.of_nat ax) (y ax), tv_AT_sum s ncomp r y with
        | Some g, Some h => Some (fun idx => g idx + h idx)
        | _, _ => None
        end
      else None
  end.
Definition tv_AT (s : list nat) (axes : list nat) (y : nat -> list nat -> R) : option (list nat -> R) :=
  tv_AT_sum s (length axes) axes y.

(** The versions of tvl1.py (323-325, 335-337), which have the array itself as a last component. *)
Definition tv1_A (s : list nat) (axes : list nat) (x : list nat -> R) : nat -> list nat -> R :=
  fun c => if Nat.ltb c (length axes) then grad s (Z.of_nat (nth c axes O)) x else x.
Definition tv1_AT (s : list nat) (axes : list nat) (y : nat -> list nat -> R) : option (list nat -> R) :=
  match tv_AT_sum s (length axes + 1) axes y with
  | Some g => Some (fun idx => g idx + y (length axes) idx)
  | None => None
  end.

Fixpoint lsum {A} (f : A -> R) (l : list A) : R := match l with [] => 0 | a :: r => f a + lsum f r end.

(** LaplaceCentreWeight (tvl2.py 352-358): the fancy index [0, -1] decrements each listed sample once. *)
Definition lcw (s : list nat) (axes : list nat) : list nat -> R :=
  fun idx => 2 * INR (length axes)
             - lsum (fun ax => if (Nat.eqb (coord ax idx) 0 || Nat.eqb (coord ax idx) (nth ax s O - 1))%bool then 1 else 0) axes.

(** GaussSeidelStep (tvl2.py 365-371). *)
Definition gs_step (s : list nat) (axes : list nat) (S X ATYU : list nat -> R) (rho : R) (W2 : list nat -> R) : list nat -> R :=
  let Xss := fun idx => lsum (fun ax =>
      (if Nat.eqb (coord ax idx) 0 then 0 else X (setc ax (coord ax idx - 1) idx))
      + (if Nat.eqb (coord ax idx) (nth ax s O - 1) then 0 else X (setc ax (coord ax idx + 1) idx))) axes in
  fun idx => (rho * (Xss idx + ATYU idx) + W2 idx * S idx) / (W2 idx + rho * lcw s axes idx).

(** The x-step of TVL2Denoise (tvl2.py 242-254): [rr] is the relative residual (linalg.rrs). *)
Definition tvl2_xstep (s : list nat) (axes : list nat) (maxit : nat) (tol : R) (rr : (list nat -> R) -> R)
    (S ATYU : list nat -> R) (rho : R) (W2 X0 : list nat -> R) : (list nat -> R) * nat :=
  (fix loop (fuel it : nat) (first : bool) (X : list nat -> R) : (list nat -> R) * nat :=
     match fuel with
     | O => (X, it)
     | Datatypes.S f =>
         if (first || (if Rlt_dec tol (rr X) then true else false))%bool
         then loop f (Datatypes.S it) false (gs_step s axes S X ATYU rho W2)
         else (X, it)
     end) maxit O true X0.
