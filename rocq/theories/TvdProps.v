(** C75: total variation deconvolution solves its problem. *)
Require Import List Arith ZArith Reals Bool Lia Lra FunctionalExtensionality Permutation.
Require Import Verif.RVec Verif.Cplx Verif.FftModel Verif.FftProofs Verif.CscModel Verif.CscSpec Verif.CscProofs Verif.CscIterModel Verif.CscIterProofs.
Require Import Verif.AdmmSpec Verif.AdmmModel Verif.AdmmProofs Verif.AdmmProps Verif.StepsSpec Verif.StepsProofs Verif.ProxModel.
Require Import Verif.LimitProofs Verif.SplitConv Verif.TvdModel Verif.TvdSpec Verif.TvdFourier Verif.TvdProofs Verif.TvdSteps Verif.TvdObj.
Import ListNotations.
Local Open Scope R_scope.
Local Notation vec := (nat -> R).

(** The filters exist for the leading axes only, in any order. *)
Theorem C75_gradient_filters axes : NoDup axes -> ((exists G, gradient_filters axes = Some G) <-> Permutation axes (seq 0 (length axes))).
Proof.
  intros ND. unfold gradient_filters. split.
  - destruct (forallb (fun k => Nat.ltb k (length axes)) axes) eqn:E; intros [G HG]; [|discriminate]. rewrite forallb_forall in E.
    apply NoDup_Permutation_bis; [exact ND|rewrite seq_length; lia|]. intros a Ha. apply E, Nat.ltb_lt in Ha. apply in_seq. lia.
  - intros Pm. assert (E : forallb (fun k => Nat.ltb k (length axes)) axes = true).
    { apply forallb_forall. intros k Hk. apply (Permutation_in k Pm) in Hk. apply in_seq in Hk. apply Nat.ltb_lt. lia. }
    rewrite E. eexists. reflexivity.
Qed.
Print Assumptions C75_gradient_filters.
(** An array with the gradient along its second and third axes: IndexError. *)
Theorem C75_axes_refuted : exists axes, NoDup axes /\ (forall k, In k axes -> (k < 3)%nat) /\ gradient_filters axes = None.
Proof.
  exists [1; 2]%nat. split; [repeat constructor; simpl; intuition lia|]. split; [simpl; intuition lia|reflexivity].
Qed.
Print Assumptions C75_axes_refuted.

(** The transformed operator is the periodic backward difference, and the blur in the last component of TVL1Deconv. *)
Theorem C75_A s ash axes A G C B bases x j t p : NoDup axes -> axes <> [] -> (forall ax, In ax axes -> (2 <= s ax)%nat) -> gradient_filters axes = Some G -> (0 < C)%nat -> (0 < B)%nat ->
  (t < C * B)%nat -> on_slice s axes (bases t) p ->
  ((j < length axes)%nat -> image s axes (tvl2_cnst_A s axes G (C * B) bases x) (j * (C * B) + t) p = diff s j (image s axes x t) p) /\
  ((j < length axes)%nat -> image s axes (tvl1_cnst_A s ash axes A G (C * B) bases x) (j * (C * B) + t) p = diff s j (image s axes x t) p) /\
  image s axes (tvl1_cnst_A s ash axes A G (C * B) bases x) (length axes * (C * B) + t) p = conv s axes (ext ash axes A) (image s axes x t) p.
Proof.
  intros ND Hne H2 HG HC HB Ht Hp. pose proof (HN C B HC HB) as HNS. pose proof (rank_lt s axes p (proj1 Hp)) as Hr. pose proof (place_rank s axes ND (bases t) p Hp) as E.
  rewrite (A_tvl2 s ash axes A G (C * B) bases ND Hne H2 HNS), (A_tvl1 s ash axes A G (C * B) bases ND Hne H2 HNS).
  split; [|split]; [intros Hj|intros Hj|]; unfold image at 1; (rewrite KA_at; [|assumption..|assumption || lia|lia|exact Ht|exact Hr]); rewrite E.
  - apply Nat.ltb_lt in Hj. rewrite Hj. reflexivity.
  - apply Nat.ltb_lt in Hj. rewrite Hj. reflexivity.
  - rewrite Nat.ltb_irrefl. reflexivity.
Qed.
Print Assumptions C75_A.

(** The quotient of the x step is defined at every frequency exactly when the blur does not remove the mean. *)
Theorem C75_denominator s ash axes A G bases t rho : NoDup axes -> axes <> [] -> (forall ax, In ax axes -> (2 <= s ax)%nat) -> gradient_filters axes = Some G -> 0 < rho ->
  (dc_gain s ash axes A bases t <> 0 <->
   forall i, on_slice s axes (bases t) i -> cadd (AHAf s ash axes A i) (ofR (rho * TvdModel.GHGf s axes G i)) <> c0).
Proof.
  intros ND Hne H2 HG Hr. split.
  - intros Hd i [I1 I2]. rewrite tvl2_den. apply ofR_ne. apply Rgt_not_eq. apply (den_pos s ash axes A G bases ND Hne H2 HG _ t); try assumption.
    intros j _. unfold om2. destruct (Nat.ltb j (length axes)); lra.
  - intros H Hd. set (i := fun ax => if existsb (Nat.eqb ax) axes then O else bases t ax).
    assert (Iz : forall ax, In ax axes -> i ax = O) by (intros ax Ha; unfold i; assert (E : existsb (Nat.eqb ax) axes = true) by (apply existsb_exists; exists ax; split; [exact Ha|apply Nat.eqb_refl]); rewrite E; reflexivity).
    assert (Io : forall ax, ~ In ax axes -> i ax = bases t ax).
    { intros ax Ha. unfold i. destruct (existsb (Nat.eqb ax) axes) eqn:E; [|reflexivity]. exfalso. apply existsb_exists in E. destruct E as (b & Hb & Eb). apply Nat.eqb_eq in Eb. subst. contradiction. }
    apply (H i); [split; [intros ax Ha; rewrite (Iz ax Ha); specialize (H2 ax Ha); lia|exact Io]|]. rewrite tvl2_den.
    rewrite (den_dc s ash axes A G bases ND Hne H2 HG _ t) by assumption. reflexivity.
Qed.
Print Assumptions C75_denominator.

Section c75.
Variables (s ash : nat -> nat) (axes : list nat) (A S : index -> R) (G : nat -> index -> R) (C B : nat) (bases : nat -> index).
Hypothesis ND : NoDup axes.
Hypothesis Hne : axes <> [].
Hypothesis H2 : forall ax, In ax axes -> (2 <= s ax)%nat.
Hypothesis HG : gradient_filters axes = Some G.
Hypothesis HC : (0 < C)%nat.
Hypothesis HB : (0 < B)%nat.
Hypothesis Hdc : forall t, (t < C * B)%nat -> dc_gain s ash axes A bases t <> 0.
Variables (lam rho rlx : R) (w wd : vec).
Hypothesis Hr : 0 < rho.
Notation P := (size s axes).
Notation K := (length axes).
Notation NS := (C * B)%nat.
(** The weights are non-negative. *)
Hypothesis Hl : 0 <= lam.
Hypothesis Hw : forall q, (q < B * P)%nat -> 0 <= w q.
Hypothesis Hwd : forall k, (k < NS * P)%nat -> 0 <= wd k.

Theorem C75_tvl2_stationary st : rlx <> 0 ->
  let st' := tvl2_iterate s ash axes A S G NS bases C B lam rho rlx w 1 st in
  (forall i, (i < K * NS * P)%nat -> sY st' i = sY st i) -> (forall i, (i < K * NS * P)%nat -> sU st' i = sU st i) ->
  argmin (fun _ => True) (tvl2_problem s ash axes A S C B bases lam w) (sX st').
Proof.
  intros Hx. rewrite (it2 s ash axes A S G C B bases ND Hne H2 HC HB lam rho rlx w 1 st). intros st' E1 E2.
  destruct (split_stationary _ _ _ _ _ _ _ _ rlx rho _ _ (HA_linear s ash axes A NS bases) (KA_linear s ash axes A G NS bases K)
    (tvg_convex (K * C) (B * P) lam w Hl Hw) (L2_nonneg s axes B lam w Hl Hw) (g2_lip s axes C B lam w Hl Hw) Hr
    (X2 s ash axes A S G C B bases ND Hne H2 HG HC HB Hdc lam rho w Hr) (Y2 s axes C B lam rho w Hl Hr Hw) st Hx E1 E2) as [M _].
  revert M. apply argmin_ext. intros x. apply prob2; assumption.
Qed.
Theorem C75_tvl2_limit st : 0 < rlx < 2 -> (exists p, argmin (fun _ => True) (tvl2_problem s ash axes A S C B bases lam w) p) ->
  exists p, argmin (fun _ => True) (tvl2_problem s ash axes A S C B bases lam w) p /\
    (forall i, (i < NS * P)%nat -> Un_cv (fun k => sX (tvl2_iterate s ash axes A S G NS bases C B lam rho rlx w k st) i) (p i)) /\
    (forall i, (i < K * NS * P)%nat -> Un_cv (fun k => sY (tvl2_iterate s ash axes A S G NS bases C B lam rho rlx w k st) i) (tvl2_cnst_A s axes G NS bases p i)).
Proof.
  intros Hx [p0 Hp0]. destruct (inj2 s ash axes A G C B bases ND Hne H2 HG HC HB Hdc) as (kap & Hk & Hi).
  destruct (split_limit (NS * P) _ _ _ _ _ _ _ _ rlx rho _ _ (HA_linear s ash axes A NS bases) (HA_local s ash axes A NS bases ND H2 (HN C B HC HB))
    (KA_linear s ash axes A G NS bases K) (fun x y E i _ => KA_local s ash axes A G NS bases ND H2 (HN C B HC HB) K x y E i)
    (tvg_convex (K * C) (B * P) lam w Hl Hw) (tvg_nonneg (K * C) (B * P) lam w Hl Hw) (L2_nonneg s axes B lam w Hl Hw) (g2_lip s axes C B lam w Hl Hw) Hr
    (X2 s ash axes A S G C B bases ND Hne H2 HG HC HB Hdc lam rho w Hr) (Y2 s axes C B lam rho w Hl Hr Hw) kap Hk Hi st Hx) as (p & M & Cx & Cy).
  - exists p0. revert Hp0. apply argmin_ext. intros x. symmetry. apply prob2; assumption.
  - exists p. split; [revert M; apply argmin_ext; intros x; apply prob2; assumption|]. split.
    + intros i Hi'. specialize (Cx i Hi'). revert Cx. apply AdmmConv.cv_ext. intros k. rewrite it2 by assumption. reflexivity.
    + intros i Hi'. specialize (Cy i Hi'). rewrite Rminus_0_r in Cy. rewrite (A_tvl2 s ash axes A G NS bases ND Hne H2 (HN C B HC HB)). revert Cy. apply AdmmConv.cv_ext. intros k. rewrite it2 by assumption. reflexivity.
Qed.
Theorem C75_tvl1_stationary st : rlx <> 0 ->
  let st' := tvl1_iterate s ash axes A S G NS bases C B lam rho rlx w wd 1 st in
  (forall i, (i < (K + 1) * NS * P)%nat -> sY st' i = sY st i) -> (forall i, (i < (K + 1) * NS * P)%nat -> sU st' i = sU st i) ->
  argmin (fun _ => True) (tvl1_problem s ash axes A S C B bases lam w wd) (sX st').
Proof.
  intros Hx. rewrite (it1 s ash axes A S G C B bases ND Hne H2 HC HB lam rho rlx w wd 1 st). intros st' E1 E2.
  destruct (split_stationary _ _ _ _ _ _ _ _ rlx rho _ _ (HA_linear s ash axes A NS bases) (KA_linear s ash axes A G NS bases (K + 1))
    (g1_convex s axes C B lam w wd Hl Hw Hwd) (L1_nonneg s axes C B lam w wd Hl Hw Hwd) (g1_lip s axes C B lam w wd Hl Hw Hwd) Hr
    (X1 s ash axes A S G C B bases ND Hne H2 HG HC HB Hdc lam rho w wd Hr) (Y1 s axes S C B bases H2 HC HB lam rho w wd Hl Hr Hw Hwd) st Hx E1 E2) as [M _].
  revert M. apply argmin_ext. intros x. apply prob1; assumption.
Qed.
Theorem C75_tvl1_limit st : 0 < rlx < 2 -> (exists p, argmin (fun _ => True) (tvl1_problem s ash axes A S C B bases lam w wd) p) ->
  exists p, argmin (fun _ => True) (tvl1_problem s ash axes A S C B bases lam w wd) p /\
    (forall i, (i < NS * P)%nat -> Un_cv (fun k => sX (tvl1_iterate s ash axes A S G NS bases C B lam rho rlx w wd k st) i) (p i)) /\
    (forall i, (i < (K + 1) * NS * P)%nat -> Un_cv (fun k => sY (tvl1_iterate s ash axes A S G NS bases C B lam rho rlx w wd k st) i) (tvl1_cnst_A s ash axes A G NS bases p i - tvl1_c s axes S NS bases i)).
Proof.
  intros Hx [p0 Hp0]. destruct (inj1 s ash axes A G C B bases ND Hne H2 HG HC HB Hdc) as (kap & Hk & Hi).
  destruct (split_limit (NS * P) _ _ _ (TvdProofs.sv s axes S NS bases) _ _ _ _ rlx rho _ _ (HA_linear s ash axes A NS bases) (HA_local s ash axes A NS bases ND H2 (HN C B HC HB))
    (KA_linear s ash axes A G NS bases (K + 1)) (fun x y E i _ => KA_local s ash axes A G NS bases ND H2 (HN C B HC HB) (K + 1) x y E i)
    (g1_convex s axes C B lam w wd Hl Hw Hwd) (g1_nonneg s axes C B lam w wd Hl Hw Hwd) (L1_nonneg s axes C B lam w wd Hl Hw Hwd) (g1_lip s axes C B lam w wd Hl Hw Hwd) Hr
    (X1 s ash axes A S G C B bases ND Hne H2 HG HC HB Hdc lam rho w wd Hr) (Y1 s axes S C B bases H2 HC HB lam rho w wd Hl Hr Hw Hwd) kap Hk Hi st Hx) as (p & M & Cx & Cy).
  - exists p0. revert Hp0. apply argmin_ext. intros x. symmetry. apply prob1; assumption.
  - exists p. split; [revert M; apply argmin_ext; intros x; apply prob1; assumption|]. split.
    + intros i Hi'. specialize (Cx i Hi'). revert Cx. apply AdmmConv.cv_ext. intros k. rewrite it1 by assumption. reflexivity.
    + intros i Hi'. specialize (Cy i Hi'). rewrite (A_tvl1 s ash axes A G NS bases ND Hne H2 (HN C B HC HB)). revert Cy. apply AdmmConv.cv_ext. intros k. rewrite it1 by assumption. reflexivity.
Qed.
(** With positive weights there is a minimiser. *)
Theorem C75_exists : 0 < lam -> (forall q, (q < B * P)%nat -> 0 < w q) ->
  (exists p, argmin (fun _ => True) (tvl2_problem s ash axes A S C B bases lam w) p) /\
  ((forall k, (k < NS * P)%nat -> 0 < wd k) -> exists p, argmin (fun _ => True) (tvl1_problem s ash axes A S C B bases lam w wd) p).
Proof.
  intros Hl0 Hw0. destruct (tvg_coercive (K * C) (B * P) lam w Hl0 Hw0) as (a & Ha & Ea). split.
  - destruct (inj2 s ash axes A G C B bases ND Hne H2 HG HC HB Hdc) as (kap & Hk & Hi).
    destruct (split_exists (NS * P) (NS * P) (K * NS * P) _ (TvdProofs.sv s axes S NS bases) _ (fun _ => 0) _ _ (HA_linear s ash axes A NS bases) (HA_local s ash axes A NS bases ND H2 (HN C B HC HB))
      (KA_linear s ash axes A G NS bases K) (fun x y E i _ => KA_local s ash axes A G NS bases ND H2 (HN C B HC HB) K x y E i)
      (L2_nonneg s axes B lam w Hl Hw) (g2_lip s axes C B lam w Hl Hw) kap Hk Hi a 0 Ha) as [p M].
    + intros y. rewrite Rminus_0_r. rewrite sizes. apply Ea.
    + exists p. revert M. apply argmin_ext. intros x. apply prob2; assumption.
  - intros Hd0. destruct (tail1_coercive (K * C * (B * P)) (NS * P) wd Hd0) as (a' & Ha' & Ea').
    destruct (inj1 s ash axes A G C B bases ND Hne H2 HG HC HB Hdc) as (kap & Hk & Hi).
    destruct (split_exists (NS * P) 0 ((K + 1) * NS * P) _ (TvdProofs.sv s axes S NS bases) _ (tvl1_c s axes S NS bases) _ _ (HA_linear s ash axes A NS bases) (HA_local s ash axes A NS bases ND H2 (HN C B HC HB))
      (KA_linear s ash axes A G NS bases (K + 1)) (fun x y E i _ => KA_local s ash axes A G NS bases ND H2 (HN C B HC HB) (K + 1) x y E i)
      (L1_nonneg s axes C B lam w wd Hl Hw Hwd) (g1_lip s axes C B lam w wd Hl Hw Hwd) kap Hk Hi (Rmin a a') 0) as [p M].
    + apply Rmin_glb_lt; assumption.
    + intros y. rewrite Rminus_0_r. rewrite sizes1, sumn_split. rewrite Rmult_plus_distr_l. apply Rplus_le_compat.
      * eapply Rle_trans; [|apply Ea]. apply Rmult_le_compat_r; [apply sumn_nonneg; intros; apply Rabs_pos|apply Rmin_l].
      * eapply Rle_trans; [|apply Ea']. apply Rmult_le_compat_r; [apply sumn_nonneg; intros; apply Rabs_pos|apply Rmin_r].
    + exists p. revert M. apply argmin_ext. intros x. apply prob1; assumption.
Qed.
End c75.
Print Assumptions C75_tvl2_stationary.
Print Assumptions C75_tvl2_limit.
Print Assumptions C75_tvl1_stationary.
Print Assumptions C75_tvl1_limit.
Print Assumptions C75_exists.

(** Two channels of a signal of length 4, blurred by the mean of neighbouring samples: all the hypotheses hold. *)
Example C75_instance : exists G, gradient_filters [0%nat] = Some G /\
  (forall t, (t < 2 * 1)%nat -> dc_gain (fun _ => 4%nat) (fun _ => 2%nat) [0%nat] (fun _ => / 2) (fun t ax => if Nat.eqb ax 1 then t else O) t <> 0) /\
  (forall S, exists p, argmin (fun _ => True) (tvl2_problem (fun _ => 4%nat) (fun _ => 2%nat) [0%nat] (fun _ => / 2) S 2 1 (fun t ax => if Nat.eqb ax 1 then t else O) 1 (fun _ => 1)) p).
Proof.
  assert (D : forall t, dc_gain (fun _ => 4%nat) (fun _ => 2%nat) [0%nat] (fun _ => / 2) (fun t ax => if Nat.eqb ax 1 then t else O) t <> 0).
  { intros t. unfold dc_gain, ext, total, set_at. cbn [sumn forallb Nat.ltb Nat.leb Nat.eqb andb]. lra. }
  eexists. split; [reflexivity|]. split; [intros t _; apply D|]. intros S.
  destruct (C75_exists (fun _ => 4%nat) (fun _ => 2%nat) [0%nat] (fun _ => / 2) S _ 2 1 (fun t ax => if Nat.eqb ax 1 then t else O) ltac:(repeat constructor; simpl; tauto) ltac:(discriminate)
    ltac:(intros; cbv beta; lia) eq_refl ltac:(lia) ltac:(lia) ltac:(intros; apply D) 1 (fun _ => 1) (fun _ => 1)) as [X _]; try (intros; lra). exact X.
Qed.

(** With a weight array and the channel axis the reported regularisation term is the weighted sum only for a single pixel. *)
Theorem C75_caxis_weights N1 N2 : (0 < N1)%nat -> (0 < N2)%nat ->
  ((forall W t, caxis_reg N1 N2 W t = Some (sumn N1 (fun i => sumn N2 (fun k => W i k * t i k)))) <-> N1 = 1%nat /\ N2 = 1%nat).
Proof.
  intros P1 P2. split.
  - intros H. destruct (Nat.eq_dec N1 1) as [->|E1]; destruct (Nat.eq_dec N2 1) as [->|E2]; [split; reflexivity|exfalso..].
    + pose proof (H (fun _ k => if Nat.eqb k 0 then 1 else 0) (fun _ k => if Nat.eqb k 1 then 1 else 0)) as Q. unfold caxis_reg, bc in Q.
      destruct (Nat.eqb_spec N2 1) as [|_]; [congruence|]. cbn [Nat.eqb] in Q. injection Q as Q. cbn [sumn] in Q. rewrite !Rplus_0_l in Q.
      assert (Z : sumn N2 (fun k => (if Nat.eqb k 0 then 1 else 0) * (if Nat.eqb k 1 then 1 else 0)) = 0) by (apply sumn_0; intros k _; destruct k as [|[|k]]; cbn [Nat.eqb]; ring).
      rewrite Z in Q. rewrite (sumn_ext N2 _ (fun j => if Nat.eqb j 0 then 1 else 0)) in Q.
      * rewrite sumn_delta in Q by lia. lra.
      * intros j _. rewrite sumn_scal. rewrite (sumn_delta N2 1 (fun _ => 1)) by lia. ring.
    + pose proof (H (fun i _ => if Nat.eqb i 0 then 1 else 0) (fun i _ => if Nat.eqb i 1 then 1 else 0)) as Q. unfold caxis_reg, bc in Q.
      destruct (Nat.eqb_spec 1 N1) as [|_]; [congruence|]. destruct (Nat.eqb_spec N1 1) as [|_]; [congruence|]. cbn [Nat.eqb] in Q. injection Q as Q. cbn [sumn] in Q.
      rewrite (sumn_0 N1 (fun i => 0 + (if Nat.eqb i 0 then 1 else 0) * _)) in Q by (intros i _; destruct i as [|[|i]]; cbn [Nat.eqb]; ring).
      rewrite (sumn_ext N1 _ (fun i => if Nat.eqb i 0 then 1 else 0)) in Q.
      * rewrite sumn_delta in Q by lia. lra.
      * intros i _. rewrite (sumn_ext N1 _ (fun j => (if Nat.eqb i 0 then 1 else 0) * (if Nat.eqb j 1 then 1 else 0))) by (intros; ring). rewrite sumn_scal. rewrite (sumn_delta N1 1 (fun _ => 1)) by lia. ring.
    + pose proof (H (fun i k => if Nat.eqb i 0 then (if Nat.eqb k 1 then 1 else 0) else 0) (fun i k => if Nat.eqb i 1 then (if Nat.eqb k 0 then 1 else 0) else 0)) as Q. unfold caxis_reg, bc in Q.
      destruct (Nat.eqb_spec N2 N1) as [E|E]; [|destruct (Nat.eqb_spec N2 1) as [|_]; [congruence|]; destruct (Nat.eqb_spec N1 1) as [|_]; [congruence|discriminate]].
      destruct (Nat.eqb_spec N2 1) as [|_]; [congruence|]. destruct (Nat.eqb_spec N1 1) as [|_]; [congruence|]. injection Q as Q.
      rewrite (sumn_0 N1 (fun i => sumn N2 (fun k => _ * (if Nat.eqb i 1 then (if Nat.eqb k 0 then 1 else 0) else 0)))) in Q by (intros i _; apply sumn_0; intros k _; destruct i as [|[|i]]; cbn [Nat.eqb]; ring).
      rewrite (sumn_ext N1 _ (fun i => if Nat.eqb i 0 then 1 else 0)) in Q.
      * rewrite sumn_delta in Q by lia. lra.
      * intros i _. rewrite (sumn_ext N2 _ (fun j => if Nat.eqb j 1 then (if Nat.eqb i 0 then 1 else 0) else 0)).
        -- rewrite (sumn_delta N2 1 (fun _ => if Nat.eqb i 0 then 1 else 0)) by lia. reflexivity.
        -- intros j _. rewrite sumn_scal. destruct (Nat.eqb j 1); [|rewrite (sumn_0 N2 (fun _ => 0)) by reflexivity; destruct (Nat.eqb i 0); ring].
           rewrite (sumn_delta N2 0 (fun _ => 1)) by lia. destruct (Nat.eqb i 0); ring.
  - intros [-> ->] W t. unfold caxis_reg, bc. cbn [Nat.eqb sumn]. f_equal. ring.
Qed.
Print Assumptions C75_caxis_weights.
