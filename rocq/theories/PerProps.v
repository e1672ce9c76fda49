Require Import Reals Arith Bool Lia Lra Psatz.
Require Import Verif.RVec Verif.PerModel Verif.PerSpec Verif.PerProofs.
Local Open Scope R_scope.

Lemma pow2_scal_r x c : (x * c) ^ 2 = c ^ 2 * x ^ 2. Proof. ring. Qed.
Lemma reflected_neg N e p : reflected N (fun i => - e i) p = - reflected N e p.
Proof. unfold reflected. destruct (_ <? _)%nat; reflexivity. Qed.
Lemma filter1_neg N e i : filter1 N (fun i => - e i) i = - filter1 N e i.
Proof. unfold filter1. rewrite <- sumn_opp. apply sumn_ext. intros k _. rewrite reflected_neg. ring. Qed.
Lemma gaussian_neg n0 n1 e i j : gaussian_filter n0 n1 (fun i j => - e i j) i j = - gaussian_filter n0 n1 e i j.
Proof.
  unfold gaussian_filter. rewrite <- (filter1_neg n1 (fun j' => filter1 n0 (fun i' => e i' j') i) j).
  unfold filter1 at 1. unfold filter1 at 2. apply sumn_ext. intros k _. f_equal. unfold reflected at 1.
  match goal with |- _ = reflected n1 ?f ?p => unfold reflected at 1 end. destruct (_ <? _)%nat; apply (filter1_neg n0 (fun i' => e i' _)).
Qed.

(** ** pamse *)
(** At most the mean squared error, times the square of 255 / vref.max() when rescaling. *)
Theorem C100_pamse_bound (n0 n1 : nat) (vref vcmp : nat -> nat -> R) (mx : R) : (0 < n0)%nat -> (0 < n1)%nat -> is_largest n0 n1 vref mx ->
  0 <= pamse false n0 n1 vref vcmp <= mean_squared_error n0 n1 vref vcmp /\
  0 <= pamse true n0 n1 vref vcmp <= (255 / mx) ^ 2 * mean_squared_error n0 n1 vref vcmp.
Proof.
  intros H0 H1 Hm.
  assert (K : forall r, 0 <= pamse r n0 n1 vref vcmp <= scl r n0 n1 vref ^ 2 * mean_squared_error n0 n1 vref vcmp).
  { intros r. assert (P : 0 < / (INR n0 * INR n1)) by (apply Rinv_0_lt_compat; pose proof (INR_pos _ H0); pose proof (INR_pos _ H1); nra).
    unfold pamse, mean_squared_error, mean. cbv zeta. unfold Rdiv. split.
    - apply Rmult_le_pos; [|lra]. apply sumn_nonneg. intros i _. apply sumn_nonneg. intros j _. apply pow2_ge_0.
    - rewrite <- Rmult_assoc. apply Rmult_le_compat_r; [lra|]. eapply Rle_trans; [apply gaussian_le; assumption|]. right.
      rewrite <- sumn_scal. apply sumn_ext. intros i _. rewrite <- sumn_scal. apply sumn_ext. intros j _. apply pow2_scal_r. }
  split.
  - destruct (K false) as [A B]. unfold scl in B. split; [exact A|]. lra.
  - destruct (K true) as [A B]. unfold scl in B. rewrite (largest_unique n0 n1 vref mx (imax n0 n1 vref) Hm (imax_largest n0 n1 vref H0 H1)). split; assumption.
Qed.
Print Assumptions C100_pamse_bound.
(** Equality for a constant error: smoothing does not change it. *)
Theorem C100_pamse_constant (n0 n1 : nat) (vref vcmp : nat -> nat -> R) (c mx : R) : (0 < n0)%nat -> (0 < n1)%nat -> is_largest n0 n1 vref mx ->
  (forall i j, (i < n0)%nat -> (j < n1)%nat -> vcmp i j = vref i j + c) ->
  pamse false n0 n1 vref vcmp = c ^ 2 /\ pamse true n0 n1 vref vcmp = (255 / mx * c) ^ 2.
Proof.
  intros H0 H1 Hm H.
  assert (K : forall r, pamse r n0 n1 vref vcmp = (scl r n0 n1 vref * c) ^ 2).
  { intros r. unfold pamse. cbv zeta. rewrite (mean_ext n0 n1 _ (fun _ _ => (scl r n0 n1 vref * c) ^ 2)); [apply mean_const; assumption|].
    intros i j _ _. rewrite (gaussian_ext n0 n1 _ (fun _ _ => - (scl r n0 n1 vref * c)) i j H0 H1).
    - rewrite gaussian_const. ring.
    - intros i' j' Hi Hj. rewrite H by assumption. ring. }
  split; rewrite K; unfold scl; [ring|].
  rewrite (largest_unique n0 n1 vref mx (imax n0 n1 vref) Hm (imax_largest n0 n1 vref H0 H1)). reflexivity.
Qed.
Print Assumptions C100_pamse_constant.
(** Symmetric without rescaling, not with it. *)
Theorem C100_pamse_symmetric (n0 n1 : nat) (a b : nat -> nat -> R) : (0 < n0)%nat -> (0 < n1)%nat -> pamse false n0 n1 a b = pamse false n0 n1 b a.
Proof.
  intros H0 H1. unfold pamse, scl. cbv zeta. apply mean_ext. intros i j _ _.
  rewrite (gaussian_ext n0 n1 (fun i j => (a i j - b i j) * 1) (fun i j => - ((b i j - a i j) * 1)) i j H0 H1) by (intros; ring).
  rewrite (gaussian_neg n0 n1 (fun i j => (b i j - a i j) * 1)). ring.
Qed.
Print Assumptions C100_pamse_symmetric.
Theorem C100_pamse_symmetric_refuted :
  pamse true 1 1 (fun _ _ => 1) (fun _ _ => 2) = 255 ^ 2 /\ pamse true 1 1 (fun _ _ => 2) (fun _ _ => 1) = (255 / 2) ^ 2.
Proof.
  assert (L : forall x, is_largest 1 1 (fun _ _ => x) x) by (intros x; split; [intros; lra|exists O, O; repeat split; lia]). split.
  - destruct (C100_pamse_constant 1 1 (fun _ _ => 1) (fun _ _ => 2) 1 1 ltac:(lia) ltac:(lia) (L 1)) as [_ E]; [intros; lra|]. rewrite E. field.
  - destruct (C100_pamse_constant 1 1 (fun _ _ => 2) (fun _ _ => 1) (-1) 2 ltac:(lia) ltac:(lia) (L 2)) as [_ E]; [intros; lra|]. rewrite E. field.
Qed.
Print Assumptions C100_pamse_symmetric_refuted.

(** ** gmsd *)
(** The quality map has values in (0, 1], the score lies between 0 and 1/2. *)
Theorem C100_gmsd_range (rescale : bool) (n0 n1 : nat) (vref vcmp : nat -> nat -> R) : (0 < n0)%nat -> (0 < n1)%nat ->
  (forall i j, 0 < quality_map rescale n0 n1 vref vcmp i j <= 1) /\ 0 <= gmsd rescale n0 n1 vref vcmp <= 1 / 2.
Proof.
  intros H0 H1. split; [intros; apply quality_bounds|]. apply std_half; [apply half_pos; exact H0|apply half_pos; exact H1|].
  intros i j. destruct (quality_bounds rescale n0 n1 vref vcmp i j). lra.
Qed.
Print Assumptions C100_gmsd_range.
Lemma near_lt n p : (0 < n)%nat -> (near n p < n)%nat. Proof. unfold near. lia. Qed.
Lemma grdMap_local h0 h1 v w i j : (0 < h0)%nat -> (0 < h1)%nat -> (forall i j, (i < h0)%nat -> (j < h1)%nat -> v i j = w i j) ->
  grdMap h0 h1 v i j = grdMap h0 h1 w i j.
Proof.
  intros H0 H1 H. assert (K : forall krn, conv3 h0 h1 v krn i j = conv3 h0 h1 w krn i j).
  { intros krn. unfold conv3. apply sumn_ext. intros a _. apply sumn_ext. intros b _. rewrite H by (apply near_lt; assumption). reflexivity. }
  unfold grdMap. rewrite !K. reflexivity.
Qed.
Lemma half_lt n i : (i < half n)%nat -> (2 * i < n)%nat.
Proof. unfold half. intros H. pose proof (Nat.div_mod (n + 1) 2). pose proof (Nat.mod_upper_bound (n + 1) 2). lia. Qed.
Lemma down_local n0 n1 v w i j : (forall i j, (i < n0)%nat -> (j < n1)%nat -> v i j = w i j) -> (2 * i < n0)%nat -> (2 * j < n1)%nat -> down v i j = down w i j.
Proof. intros H Hi Hj. unfold down, conv2. apply sumn_ext. intros a _. apply sumn_ext. intros b _. rewrite H by lia. reflexivity. Qed.
(** An image compared with itself plus a constant: quality 1 everywhere and score 0.  Nothing outside the image is read. *)
Theorem C100_gmsd_identical (rescale : bool) (n0 n1 : nat) (vref vcmp : nat -> nat -> R) (t : R) : (0 < n0)%nat -> (0 < n1)%nat ->
  (forall i j, (i < n0)%nat -> (j < n1)%nat -> vcmp i j = vref i j + t) ->
  (forall i j, quality_map rescale n0 n1 vref vcmp i j = 1) /\ gmsd rescale n0 n1 vref vcmp = 0.
Proof.
  intros H0 H1 H. assert (Q : forall i j, quality_map rescale n0 n1 vref vcmp i j = 1).
  { intros i j. unfold quality_map. cbv zeta. set (c := scl rescale n0 n1 vref).
    rewrite (grdMap_local (half n0) (half n1) (down (fun i j => c * vcmp i j)) (fun i j => down (fun i j => c * vref i j) i j + c * t) i j (half_pos _ H0) (half_pos _ H1)).
    - rewrite grdMap_shift. set (g := grdMap _ _ _ i j). unfold T. field. pose proof (pow2_ge_0 g). lra.
    - intros i' j' Hi Hj. rewrite <- down_affine. apply (down_local n0 n1); [|apply half_lt; exact Hi|apply half_lt; exact Hj].
      intros i2 j2 Hi2 Hj2. rewrite H by assumption. reflexivity. }
  split; [exact Q|]. apply (std_const _ _ _ 1); [apply half_pos; exact H0|apply half_pos; exact H1|]. intros; apply Q.
Qed.
Print Assumptions C100_gmsd_identical.
(** A constant added to the compared image does not matter, nor with rescaling a common positive factor. *)
Theorem C100_gmsd_invariant (rescale : bool) (n0 n1 : nat) (vref vcmp : nat -> nat -> R) (t c : R) : (0 < n0)%nat -> (0 < n1)%nat -> 0 < c ->
  gmsd rescale n0 n1 vref (fun i j => vcmp i j + t) = gmsd rescale n0 n1 vref vcmp /\
  (forall mx, is_largest n0 n1 vref mx -> mx <> 0 -> gmsd true n0 n1 (fun i j => c * vref i j) (fun i j => c * vcmp i j) = gmsd true n0 n1 vref vcmp).
Proof.
  intros H0 H1 Hc. split.
  - apply std_ext. intros i j _ _. unfold quality_map. cbv zeta. set (s := scl rescale n0 n1 vref).
    rewrite (grdMap_ext _ _ (down (fun i j => s * (vcmp i j + t))) (fun i j => down (fun i j => s * vcmp i j) i j + s * t) i j) by (intros; apply down_affine).
    rewrite grdMap_shift. reflexivity.
  - intros mx Lm Hm. rewrite (largest_unique n0 n1 vref mx (imax n0 n1 vref) Lm (imax_largest n0 n1 vref H0 H1)) in Hm. apply std_ext. intros i j _ _. unfold quality_map, scl. cbv zeta. rewrite imax_scale by assumption.
    assert (E : forall v i j, grdMap (half n0) (half n1) (down (fun i j => 255 / (c * imax n0 n1 vref) * (c * v i j))) i j =
      grdMap (half n0) (half n1) (down (fun i j => 255 / imax n0 n1 vref * v i j)) i j).
    { intros v i' j'. apply grdMap_ext. intros. apply down_ext. intros. field. split; [exact Hm|lra]. }
    rewrite !E. reflexivity.
Qed.
Print Assumptions C100_gmsd_invariant.
(** Symmetric without rescaling. *)
Theorem C100_gmsd_symmetric (n0 n1 : nat) (a b : nat -> nat -> R) : gmsd false n0 n1 a b = gmsd false n0 n1 b a.
Proof.
  apply std_ext. intros i j _ _. unfold quality_map, scl. cbv zeta. f_equal; ring.
Qed.
Print Assumptions C100_gmsd_symmetric.

Definition step (k : R) (i j : nat) : R := match j with O => 0 | _ => k end.
Lemma step_grd c k j : 0 <= c * k -> (j < 2)%nat -> grdMap (half 1) (half 3) (down (fun i j => c * step k i j)) O j = c * k.
Proof.
  intros H Hj. unfold grdMap. rewrite <- (sqrt_pow2 (c * k) H). f_equal.
  assert (X : conv3 (half 1) (half 3) (down (fun i j => c * step k i j)) dx O j = c * k).
  { destruct j as [|[|j]]; [| |lia]; unfold conv3, down, conv2, dx, ukrn, near, half, step; simpl; field. }
  assert (Y : conv3 (half 1) (half 3) (down (fun i j => c * step k i j)) dy O j = 0).
  { destruct j as [|[|j]]; [| |lia]; unfold conv3, down, conv2, dy, dx, ukrn, near, half, step; simpl; field. }
  rewrite X, Y. ring.
Qed.
Lemma step_max k : 0 < k -> imax 1 3 (step k) = k.
Proof. intros H. unfold imax, step. simpl. rewrite (Rmax_right 0 k) by lra. apply Rmax_left. lra. Qed.
Lemma step_quality k l j : 0 < k -> 0 <= l -> (j < 2)%nat ->
  quality_map true 1 3 (step k) (step l) O j = (2 * 255 * (255 / k * l) + 170) / (255 ^ 2 + (255 / k * l) ^ 2 + 170).
Proof.
  intros Hk Hl Hj. assert (0 < / k) by (apply Rinv_0_lt_compat; exact Hk). unfold quality_map, scl, T. cbv zeta. rewrite step_max by exact Hk. rewrite !step_grd; try exact Hj.
  - replace (255 / k * k) with 255 by (field; lra). reflexivity.
  - unfold Rdiv. apply Rmult_le_pos; [lra|exact Hl].
  - unfold Rdiv. apply Rmult_le_pos; lra.
Qed.
(** The score 0 does not mean similar images: a step compared with a black image has constant quality below 1/100 and so score 0. *)
Theorem C100_gmsd_zero_refuted : gmsd true 1 3 (step 1) (fun _ _ => 0) = 0 /\ quality_map true 1 3 (step 1) (fun _ _ => 0) O O < 1 / 100.
Proof.
  assert (Q : forall j, (j < 2)%nat -> quality_map true 1 3 (step 1) (fun _ _ => 0) O j = 170 / (255 ^ 2 + 170)).
  { intros j Hj. pose proof (step_quality 1 0 j ltac:(lra) ltac:(lra) Hj) as E.
    assert (Z : quality_map true 1 3 (step 1) (fun _ _ => 0) O j = quality_map true 1 3 (step 1) (step 0) O j).
    { unfold quality_map. cbv zeta. rewrite (grdMap_ext _ _ (down (fun i j => scl true 1 3 (step 1) * 0)) (down (fun i j => scl true 1 3 (step 1) * step 0 i j)) O j); [reflexivity|].
      intros. apply down_ext. intros i' [|j']; reflexivity. }
    rewrite Z, E. f_equal; field. }
  split; [|rewrite Q by lia; lra]. apply (std_const _ _ _ (170 / (255 ^ 2 + 170))); [apply half_pos; lia|apply half_pos; lia|].
  intros i j Hi Hj. change (half 1) with 1%nat in Hi. change (half 3) with 2%nat in Hj. replace i with O by lia. apply Q. exact Hj.
Qed.
Print Assumptions C100_gmsd_zero_refuted.
(** With rescaling the quality map is not symmetric. *)
Theorem C100_gmsd_symmetric_refuted : quality_map true 1 3 (step 1) (step 2) O O <> quality_map true 1 3 (step 2) (step 1) O O.
Proof. rewrite !step_quality by (try lra; lia). lra. Qed.
Print Assumptions C100_gmsd_symmetric_refuted.

(** Cases meeting the hypotheses. *)
Example C100_instance : is_largest 1 3 (step 1) 1 /\ (1 <> 0) /\ mean_squared_error 1 3 (step 1) (step 2) = 2 / 3.
Proof.
  split; [split; [intros i [|j] _ _; simpl; lra|exists O, 1%nat; repeat split; lia]|]. split; [lra|].
  unfold mean_squared_error, step. simpl. field.
Qed.
