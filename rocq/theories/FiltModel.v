(** Model of sporco/signal.py tikhonov_filter (281-301), gaussian (321-331) and local_contrast_normalise (364-385). Arrays and transforms as in
    FftModel.v; [sh] gives the length of the signal along each axis; the first two axes are filtered. Exact arithmetic; the conversions
    astype(s.dtype) of line 301 are the identity for real and complex signals and truncation for integers ([astype_int]). *)
Require Import List Arith ZArith Reals.
Require Import Verif.RVec Verif.Cplx Verif.FftModel.
Import ListNotations.
Local Open Scope R_scope.

(** np.pad(..., mode='symmetric') along one axis: position p of the padded axis shows sample [sym n npd p] of an axis of length n (any amount
    of padding; the reflected signal is repeated). *)
Definition sym (n npd p : nat) : nat :=
  let t := Z.to_nat ((Z.of_nat p - Z.of_nat npd) mod (2 * Z.of_nat n)) in if (t <? n)%nat then t else (2 * n - 1 - t)%nat.
Definition on2 (f : nat -> nat -> nat) (idx : index) : index := fun ax => if (ax <? 2)%nat then f ax (idx ax) else idx ax.
Definition padded (sh : nat -> nat) (npd : nat) : nat -> nat := fun ax => if (ax <? 2)%nat then (sh ax + 2 * npd)%nat else sh ax.
Definition pad_sym {T} (sh : nat -> nat) (npd : nat) (x : index -> T) : index -> T := fun idx => x (on2 (fun ax p => sym (sh ax) npd p) idx).
(** [npd:(sp.shape[0] - npd), npd:(sp.shape[1] - npd)]. *)
Definition crop {T} (npd : nat) (x : index -> T) : index -> T := fun idx => x (on2 (fun _ p => (p + npd)%nat) idx).

(** 287-290: the difference filters along an axis and their transforms at the padded size. *)
Definition dfilt (ax : nat) : index -> R := fun idx => if (idx ax =? 0)%nat then -1 else 1.
Definition dfilt_shape (ax : nat) : nat -> nat := fun b => if (b =? ax)%nat then 2%nat else 1%nat.
Definition Gf (s : nat -> nat) (ax : nat) : index -> C := fftn s [0; 1]%nat (fun i => ofR (padR (dfilt_shape ax) [0; 1]%nat (dfilt ax) i)).
(** 291: the real transform is the complex one on the half spectrum. *)
Definition Aden (s : nat -> nat) (lmbda : R) : index -> R := fun idx => 1 + lmbda * (cabs2 (Gf s 0 idx) + cabs2 (Gf s 1 idx)).
(** 296-298: the filtered padded signal, real and complex. *)
Definition tik_real (s : nat -> nat) (lmbda : R) (sp : index -> R) : index -> R :=
  irfftn s [0; 1]%nat (fun i => cscal (/ Aden s lmbda i) (rfftn s [0; 1]%nat sp i)).
Definition tik_cplx (s : nat -> nat) (lmbda : R) (sp : index -> C) : index -> C :=
  ifftn s [0; 1]%nat (fun i => cscal (/ Aden s lmbda i) (fftn s [0; 1]%nat sp i)).
(** 294-301. *)
Definition tikhonov (sh : nat -> nat) (npd : nat) (lmbda : R) (x : index -> R) : (index -> R) * (index -> R) :=
  let slp := crop npd (tik_real (padded sh npd) lmbda (pad_sym sh npd x)) in (slp, fun idx => x idx - slp idx).
Definition tikhonov_c (sh : nat -> nat) (npd : nat) (lmbda : R) (x : index -> C) : (index -> C) * (index -> C) :=
  let slp := crop npd (tik_cplx (padded sh npd) lmbda (pad_sym sh npd x)) in (slp, fun idx => csub (x idx) (slp idx)).
(** Conversion of a real number to an integer type (towards zero), for integer signals. *)
Definition astype_int (r : R) : Z := if Rle_dec 0 r then Int_part r else (- Int_part (- r))%Z.
Definition tikhonov_int (sh : nat -> nat) (npd : nat) (lmbda : R) (x : index -> Z) : (index -> Z) * (index -> Z) :=
  let (slp, shp) := tikhonov sh npd lmbda (fun i => IZR (x i)) in (fun i => astype_int (slp i), fun i => astype_int (shp i)).

(** 321-331 for a two-dimensional shape (n0, n1): np.linspace(-3, 3, n) has step 6/(n-1), and the single point -3 for n = 1. *)
Definition linspace3 (n k : nat) : R := -3 + INR k * (6 / INR (n - 1)).
Definition lin3 (n k : nat) : R := if (n =? 1)%nat then -3 else linspace3 n k.
Definition gfn (sd x : R) : R := exp (- (x ^ 2) / (2 * sd ^ 2)) / (sqrt (2 * PI) * sd).
Definition gauss_raw (n0 n1 : nat) (sd : R) (i j : nat) : R := gfn sd (lin3 n0 i) * gfn sd (lin3 n1 j).
Definition gaussian (n0 n1 : nat) (sd : R) (i j : nat) : R :=
  gauss_raw n0 n1 sd i j / sumn n0 (fun a => sumn n1 (fun b => gauss_raw n0 n1 sd a b)).

(** 364-385: the rolls by (-n, -n) are the origin argument of fftconv. [rest] are the indices not filtered (colour axis) and c is the given
    constant or None. The mean of 380 is over the padded image. *)
Definition gker (n : nat) : index -> R := fun idx => gaussian (2 * n + 1) (2 * n + 1) 1 (idx 0%nat) (idx 1%nat).
Definition gshape (n : nat) : nat -> nat := fun ax => if (ax <? 2)%nat then (2 * n + 1)%nat else 1%nat.
Definition gconv (sh : nat -> nat) (n : nat) (x : index -> R) : index -> R :=
  fftconv_r (gshape n) (padded sh n) [0; 1]%nat (Some [Z.of_nat n; Z.of_nat n]) (gker n) x.
Definition lcn_mean (sh : nat -> nat) (n : nat) (x : index -> R) : index -> R := gconv sh n (pad_sym sh n x).
Definition lcn_s1 (sh : nat -> nat) (n : nat) (x : index -> R) : index -> R := fun i => pad_sym sh n x i - lcn_mean sh n x i.
Definition lcn_raw (sh : nat -> nat) (n : nat) (x : index -> R) : index -> R := fun i => sqrt (Rmax 0 (gconv sh n (fun j => lcn_s1 sh n x j ^ 2) i)).
Definition lcn_c (sh : nat -> nat) (n : nat) (c : option R) (x : index -> R) (idx : index) : R :=
  match c with
  | Some c => c
  | None => rsum (padded sh n) [0; 1]%nat (lcn_raw sh n x) idx / (INR (padded sh n 0) * INR (padded sh n 1))
  end.
Definition lcn_nrm (sh : nat -> nat) (n : nat) (c : option R) (x : index -> R) : index -> R := fun i => Rmax (lcn_c sh n c x i) (lcn_raw sh n x i).
(** 383-385; the value of a division by zero is None; the slice n:-n is empty for n = 0. *)
Definition lcn_shape (sh : nat -> nat) (n : nat) : nat -> nat := fun ax => if (ax <? 2)%nat then if (n =? 0)%nat then 0%nat else sh ax else sh ax.
Definition lcn (sh : nat -> nat) (n : nat) (c : option R) (x : index -> R) : index -> option R * R * R :=
  fun idx =>
  let i := on2 (fun _ p => (p + n)%nat) idx in
  let d := lcn_nrm sh n c x i in
  ((if Req_EM_T d 0 then None else Some (lcn_s1 sh n x i / d)), lcn_mean sh n x i, d).
