(** metric.pamse and metric.gmsd (sporco/metric.py 202-300) for real images of n0 x n1 entries. *)
Require Import Reals Arith.
Require Import Verif.RVec.
Local Open Scope R_scope.

Definition image : Type := nat -> nat -> R.
(** vref.max(). *)
Fixpoint maxn (n : nat) (f : nat -> R) : R := match n with O => f O | S m => Rmax (maxn m f) (f (S m)) end.
Definition imax (n0 n1 : nat) (v : image) : R := maxn (n0 - 1) (fun i => maxn (n1 - 1) (v i)).
(** 231-232 and 270-273. *)
Definition scl (rescale : bool) (n0 n1 : nat) (vref : image) : R := if rescale then 255 / imax n0 n1 vref else 1.
Definition mean (n0 n1 : nat) (v : image) : R := sumn n0 (fun i => sumn n1 (v i)) / (INR n0 * INR n1).

(** scipy.ndimage.gaussian_filter with sigma = 0.8 (234): weights of radius int(4 sigma + 0.5) = 3, divided by their sum, applied
    along axis 0 and then axis 1, the signal being continued by mode 'reflect' (d c b a | a b c d | d c b a). *)
Definition raw (k : nat) : R := exp (- (/ 2) / (8 / 10) ^ 2 * (INR k - 3) ^ 2).
Definition weight (k : nat) : R := raw k / sumn 7 raw.
Definition reflected (N : nat) (e : nat -> R) (p : nat) : R :=
  let r := (p mod (2 * N))%nat in if (r <? N)%nat then e r else e (2 * N - 1 - r)%nat.
(** Position i + k - 3 of the continued signal, shifted by three periods to stay in nat. *)
Definition filter1 (N : nat) (e : nat -> R) (i : nat) : R := sumn 7 (fun k => weight k * reflected N e (i + k + (6 * N - 3))%nat).
Definition gaussian_filter (n0 n1 : nat) (e : image) : image :=
  fun i j => filter1 n1 (fun j' => filter1 n0 (fun i' => e i' j') i) j.
(** pamse (227-236). *)
Definition pamse (rescale : bool) (n0 n1 : nat) (vref vcmp : image) : R :=
  let emap := fun i j => (vref i j - vcmp i j) * scl rescale n0 n1 vref in
  mean n0 n1 (fun i j => gaussian_filter n0 n1 emap i j ^ 2).

(** scipy.signal.convolve2d, mode='same', boundary='symm': for a 3 x 3 kernel entry (a, b) meets the pixel (i + 1 - a, j + 1 - b), for a
    2 x 2 kernel the pixel (i - a, j - b); one pixel outside the image the symmetric continuation repeats the border. *)
Definition near (n p : nat) : nat := Nat.min (p - 1) (n - 1).
Definition conv3 (n0 n1 : nat) (v krn : image) : image :=
  fun i j => sumn 3 (fun a => sumn 3 (fun b => krn a b * v (near n0 (i + 2 - a)%nat) (near n1 (j + 2 - b)%nat))).
Definition conv2 (v krn : image) : image := fun i j => sumn 2 (fun a => sumn 2 (fun b => krn a b * v (i - a)%nat (j - b)%nat)).
(** 275-280. *)
Definition T : R := 170.
Definition dx : image := fun a b => match b with O => 1 | 1%nat => 0 | _ => -1 end / 3.
Definition dy : image := fun a b => dx b a.
Definition ukrn : image := fun _ _ => 1 / 4.
(** 281-284: smoothing and every second pixel. *)
Definition down (v : image) : image := fun i j => conv2 v ukrn (2 * i)%nat (2 * j)%nat.
Definition half (n : nat) : nat := ((n + 1) / 2)%nat.
(** 286-292. *)
Definition grdMap (n0 n1 : nat) (Y : image) : image := fun i j => sqrt (conv3 n0 n1 Y dx i j ^ 2 + conv3 n0 n1 Y dy i j ^ 2).
(** 294. *)
Definition quality_map (rescale : bool) (n0 n1 : nat) (vref vcmp : image) : image :=
  let c := scl rescale n0 n1 vref in
  let g1 := grdMap (half n0) (half n1) (down (fun i j => c * vref i j)) in
  let g2 := grdMap (half n0) (half n1) (down (fun i j => c * vcmp i j)) in
  fun i j => (2 * g1 i j * g2 i j + T) / (g1 i j ^ 2 + g2 i j ^ 2 + T).
(** np.std and the score (295). *)
Definition std (n0 n1 : nat) (q : image) : R := sqrt (mean n0 n1 (fun i j => (q i j - mean n0 n1 q) ^ 2)).
Definition gmsd (rescale : bool) (n0 n1 : nat) (vref vcmp : image) : R :=
  std (half n0) (half n1) (quality_map rescale n0 n1 vref vcmp).
