(** Lemmas about sporco/interp.py. *)
Require Import List Arith ZArith Reals Bool Lra Lia Psatz.
Require Import Verif.RVec Verif.InterpModel Verif.InterpSpec.
Import ListNotations.
Local Open Scope R_scope.

(** ** Points *)
Lemma arange_length lo hi : length (arange lo hi) = Z.to_nat (hi - lo).
Proof. unfold arange. rewrite map_length, seq_length. reflexivity. Qed.
Lemma arange_nth lo hi i d : (i < length (arange lo hi))%nat -> nth i (arange lo hi) d = (lo + Z.of_nat i)%Z.
Proof.
  intros H. unfold arange in *. rewrite map_length, seq_length in H. rewrite (nth_indep _ d ((fun i => (lo + Z.of_nat i)%Z) O)) by (rewrite map_length, seq_length; exact H).
  rewrite (map_nth (fun i => (lo + Z.of_nat i)%Z)), seq_nth by exact H. reflexivity.
Qed.
Lemma arange_in lo hi k : In k (arange lo hi) <-> (lo <= k < hi)%Z.
Proof.
  unfold arange. rewrite in_map_iff. split.
  - intros (i & <- & Hi). apply in_seq in Hi. lia.
  - intros H. exists (Z.to_nat (k - lo)). split; [lia|apply in_seq; lia].
Qed.

(** ** sinc *)
Lemma sinc_0 : sinc 0 = 1. Proof. unfold sinc. destruct (Req_EM_T 0 0); [reflexivity|lra]. Qed.
Lemma sinc_ne x : x <> 0 -> sinc x = sin (PI * x) / (PI * x).
Proof. intros H. unfold sinc. destruct (Req_EM_T x 0); [contradiction|reflexivity]. Qed.
Lemma sinc_even x : sinc (- x) = sinc x.
Proof.
  destruct (Req_dec x 0) as [->|H]; [rewrite Ropp_0; reflexivity|]. rewrite !sinc_ne by lra.
  replace (PI * - x) with (- (PI * x)) by ring. rewrite sin_neg. pose proof PI_RGT_0. field. split; lra.
Qed.
Lemma sin_nat_PI k : sin (PI * INR k) = 0.
Proof.
  induction k as [|k IH]; [simpl; rewrite Rmult_0_r; apply sin_0|]. rewrite S_INR. replace (PI * (INR k + 1)) with (PI * INR k + PI) by ring. rewrite neg_sin, IH. lra.
Qed.
Lemma sin_int_PI z : sin (PI * IZR z) = 0.
Proof.
  destruct (Z_le_gt_dec 0 z) as [H|H].
  - rewrite <- (Z2Nat.id z H), <- INR_IZR_INZ. apply sin_nat_PI.
  - replace z with (- Z.of_nat (Z.to_nat (- z)))%Z by lia. rewrite opp_IZR, <- INR_IZR_INZ.
    replace (PI * - INR (Z.to_nat (- z))) with (- (PI * INR (Z.to_nat (- z)))) by ring. rewrite sin_neg, sin_nat_PI. lra.
Qed.
Lemma sinc_int z : z <> 0%Z -> sinc (IZR z) = 0.
Proof. intros H. rewrite sinc_ne by (intros E; apply H, eq_IZR, E). rewrite sin_int_PI. unfold Rdiv. apply Rmult_0_l. Qed.
Lemma sin_le_abs x : Rabs (sin x) <= Rabs x.
Proof.
  assert (K : forall y, 0 <= y -> Rabs (sin y) <= y).
  { intros y Hy. destruct (Req_dec y 0) as [->|N]; [rewrite sin_0, Rabs_R0; lra|].
    destruct (MVT_cor2 sin cos 0 y) as (c & E & _); [lra|intros; apply derivable_pt_lim_sin|]. rewrite sin_0, !Rminus_0_r in E. rewrite E, Rabs_mult.
    pose proof (COS_bound c). rewrite (Rabs_right y) by lra. assert (Rabs (cos c) <= 1) by (apply Rabs_le; lra). pose proof (Rabs_pos (cos c)). nra. }
  destruct (Rle_lt_dec 0 x) as [H|H]; [rewrite (Rabs_right x) by lra; apply K, H|].
  rewrite (Rabs_left x) by exact H. rewrite <- (Rabs_Ropp (sin x)), <- sin_neg. apply K. lra.
Qed.
Lemma sinc_bound x : Rabs (sinc x) <= 1.
Proof.
  destruct (Req_dec x 0) as [->|H]; [rewrite sinc_0, Rabs_R1; lra|]. rewrite sinc_ne by exact H. pose proof PI_RGT_0 as HP.
  assert (HN : PI * x <> 0) by (apply Rmult_integral_contrapositive; lra). unfold Rdiv. rewrite Rabs_mult, Rabs_inv.
  pose proof (sin_le_abs (PI * x)). pose proof (Rabs_pos_lt _ HN) as Q. apply (Rmult_le_reg_r (Rabs (PI * x)) _ _ Q). rewrite Rmult_assoc, Rinv_l by lra. lra.
Qed.
Lemma sin_ratio y z : 0 < y < z -> z <= PI -> y * sin z < z * sin y.
Proof.
  intros [H1 H2] H3.
  destruct (MVT_cor2 sin cos 0 y) as (c1 & E1 & C1); [exact H1|intros; apply derivable_pt_lim_sin|].
  destruct (MVT_cor2 sin cos y z) as (c2 & E2 & C2); [exact H2|intros; apply derivable_pt_lim_sin|].
  rewrite sin_0, !Rminus_0_r in E1.
  assert (cos c2 < cos c1) by (apply cos_decreasing_1; lra).
  assert (sin z = sin y + cos c2 * (z - y)) by lra. rewrite H0.
  assert (y * (cos c2 * (z - y)) < y * (cos c1 * (z - y))) by (apply Rmult_lt_compat_l; [exact H1|]; apply Rmult_lt_compat_r; lra).
  rewrite E1 in *. nra.
Qed.
Lemma sinc_pos x : 0 <= x < 1 -> 0 < sinc x.
Proof.
  intros [H1 H2]. destruct (Req_dec x 0) as [->|H]; [rewrite sinc_0; lra|]. rewrite sinc_ne by exact H. pose proof PI_RGT_0.
  assert (0 < PI * x) by (apply Rmult_lt_0_compat; lra). assert (PI * x < PI) by nra.
  apply Rdiv_lt_0_compat; [apply sin_gt_0; assumption|assumption].
Qed.
Lemma sinc_decr x y : 0 < x < y -> y <= 1 -> sinc y < sinc x.
Proof.
  intros [H1 H2] H3. rewrite !sinc_ne by lra. pose proof PI_RGT_0 as HP. assert (0 < PI * x) by (apply Rmult_lt_0_compat; lra). assert (PI * x < PI * y) by nra. assert (PI * y <= PI) by nra.
  pose proof (sin_ratio (PI * x) (PI * y) ltac:(lra) ltac:(lra)) as K.
  apply (Rmult_lt_reg_r (PI * y * (PI * x))); [apply Rmult_lt_0_compat; lra|]. field_simplify; [|split; lra|split; lra].
  nra.
Qed.

(** ** The kernel *)
Lemma lanczos_in a x : - INR a < x < INR a -> lanczos_kernel a x = sinc x * sinc (x / INR a).
Proof. intros [H1 H2]. unfold lanczos_kernel. destruct (Rlt_dec (- INR a) x); [|lra]. destruct (Rlt_dec x (INR a)); [|lra]. ring. Qed.
Lemma lanczos_out a x : x <= - INR a \/ INR a <= x -> lanczos_kernel a x = 0.
Proof. intros H. unfold lanczos_kernel. destruct (Rlt_dec (- INR a) x); [destruct (Rlt_dec x (INR a)); [lra|ring]|ring]. Qed.
Lemma lanczos_even a x : lanczos_kernel a (- x) = lanczos_kernel a x.
Proof.
  destruct (Rlt_dec (- INR a) x) as [H|H]; [destruct (Rlt_dec x (INR a)) as [H'|H']|].
  - rewrite !lanczos_in by lra. rewrite sinc_even. f_equal. unfold Rdiv. rewrite Ropp_mult_distr_l_reverse. apply sinc_even.
  - rewrite !lanczos_out by lra. reflexivity.
  - rewrite !lanczos_out by lra. reflexivity.
Qed.
Lemma lanczos_int a z : (0 < a)%nat -> lanczos_kernel a (IZR z) = if Z.eqb z 0 then 1 else 0.
Proof.
  intros Ha. destruct (Z.eqb_spec z 0) as [->|H].
  - assert (0 < INR a) by (apply lt_0_INR; exact Ha). rewrite lanczos_in by lra. unfold Rdiv. rewrite Rmult_0_l, sinc_0. lra.
  - unfold lanczos_kernel. rewrite sinc_int by exact H. ring.
Qed.
Lemma lanczos_bound a x : Rabs (lanczos_kernel a x) <= 1.
Proof.
  unfold lanczos_kernel. rewrite !Rabs_mult. pose proof (sinc_bound x) as B1. pose proof (sinc_bound (x / INR a)) as B2. pose proof (Rabs_pos (sinc x)). pose proof (Rabs_pos (sinc (x / INR a))).
  set (s := Rabs (if Rlt_dec (- INR a) x then _ else _)). assert (0 <= s <= 1) by (unfold s; destruct (Rlt_dec (- INR a) x); [destruct (Rlt_dec x (INR a))|]; rewrite ?Rabs_R1, ?Rabs_R0; lra).
  assert (s * Rabs (sinc x) <= 1) by nra. assert (0 <= s * Rabs (sinc x)) by (apply Rmult_le_pos; lra). nra.
Qed.

(** ** The sum of the samples is positive *)
Lemma alternating n (c : nat -> R) : (forall k, (k <= n)%nat -> 0 < c k) -> (forall k, (k < n)%nat -> c (S k) < c k) -> 0 < sumn (S n) (fun k => (-1) ^ k * c k).
Proof.
  (* sums of any length are between 0 and the first term *)
  assert (K : forall n (c : nat -> R), (forall k, (k <= n)%nat -> 0 < c k) -> (forall k, (k < n)%nat -> c (S k) < c k) -> 0 < sumn (S n) (fun k => (-1) ^ k * c k) <= c O).
  { clear. induction n as [|n IH]; intros c H1 H2.
    - simpl. specialize (H1 O ltac:(lia)). lra.
    - rewrite sumn_first. specialize (IH (fun k => c (S k)) ltac:(intros k Hk; apply H1; lia) ltac:(intros k Hk; apply H2; lia)). cbv beta in IH.
      assert (E : sumn (S n) (fun k => (-1) ^ S k * c (S k)) = - sumn (S n) (fun k => (-1) ^ k * c (S k))).
      { rewrite <- sumn_opp. apply sumn_ext. intros k _. simpl. ring. }
      rewrite E. specialize (H2 O ltac:(lia)). simpl pow at 1 3. lra. }
  intros H1 H2. apply (K n c H1 H2).
Qed.
Lemma sin_shift x k : sin (PI * (x + INR k)) = (-1) ^ k * sin (PI * x).
Proof.
  induction k as [|k IH]; [simpl; rewrite Rplus_0_r; ring|]. rewrite S_INR. replace (PI * (x + (INR k + 1))) with (PI * (x + INR k) + PI) by ring. rewrite neg_sin, IH. simpl. ring.
Qed.
Lemma half_pos a x : (0 < a)%nat -> 0 < x < 1 -> 0 < sumn a (fun k => lanczos_kernel a (x + INR k)).
Proof.
  intros Ha [H1 H2]. destruct a as [|n]; [lia|]. set (a := S n) in *.
  assert (HA : 0 < INR a) by (apply lt_0_INR; exact Ha). pose proof PI_RGT_0 as HP.
  assert (S0 : 0 < sin (PI * x)) by (apply sin_gt_0; nra).
  assert (Hk : forall k, (k <= n)%nat -> 0 < x + INR k < INR a).
  { intros k Hk. pose proof (pos_INR k). assert (INR k <= INR n) by (apply le_INR, Hk). unfold a. rewrite S_INR. lra. }
  assert (Hq : forall k, (k <= n)%nat -> 0 < (x + INR k) / INR a < 1).
  { intros k Hk'. specialize (Hk k Hk'). split; [apply Rdiv_lt_0_compat; lra|]. apply (Rmult_lt_reg_r (INR a)); [exact HA|]. unfold Rdiv. rewrite Rmult_assoc, Rinv_l by lra. lra. }
  set (c := fun k => sin (PI * x) / (PI * (x + INR k)) * sinc ((x + INR k) / INR a)).
  rewrite (sumn_ext _ _ (fun k => (-1) ^ k * c k)).
  - apply alternating.
    + intros k Hk'. unfold c. specialize (Hk k Hk'). specialize (Hq k Hk'). apply Rmult_lt_0_compat; [apply Rdiv_lt_0_compat; [exact S0|apply Rmult_lt_0_compat; lra]|apply sinc_pos; lra].
    + intros k Hk'. unfold c. pose proof (Hk k ltac:(lia)) as K1. pose proof (Hk (S k) ltac:(lia)) as K2. pose proof (Hq k ltac:(lia)) as Q1. pose proof (Hq (S k) ltac:(lia)) as Q2. rewrite S_INR in *.
      assert (D : (x + INR k) / INR a < (x + (INR k + 1)) / INR a) by (unfold Rdiv; apply Rmult_lt_compat_r; [apply Rinv_0_lt_compat; exact HA|lra]).
      pose proof (sinc_decr _ _ (conj (proj1 Q1) D) ltac:(lra)) as SD. pose proof (sinc_pos _ (conj (Rlt_le _ _ (proj1 Q2)) (proj2 Q2))) as SP.
      assert (F : sin (PI * x) / (PI * (x + (INR k + 1))) < sin (PI * x) / (PI * (x + INR k))).
      { unfold Rdiv. apply Rmult_lt_compat_l; [exact S0|]. apply Rinv_lt_contravar; [apply Rmult_lt_0_compat; apply Rmult_lt_0_compat; lra|]. apply Rmult_lt_compat_l; lra. }
      assert (0 < sin (PI * x) / (PI * (x + (INR k + 1)))) by (apply Rdiv_lt_0_compat; [exact S0|apply Rmult_lt_0_compat; lra]).
      apply Rmult_gt_0_lt_compat; lra.
  - intros k Hk'. specialize (Hk k ltac:(lia)). rewrite lanczos_in by lra. rewrite sinc_ne by lra. rewrite sin_shift. unfold c, Rdiv. ring.
Qed.
Lemma sum_even a x : sumn (2 * a + 1) (fun k => lanczos_kernel a (INR k - INR a + - x)) = sumn (2 * a + 1) (fun k => lanczos_kernel a (INR k - INR a + x)).
Proof.
  rewrite (sumn_rev (2 * a + 1) (fun k => lanczos_kernel a (INR k - INR a + x))). apply sumn_ext. intros k Hk.
  rewrite <- lanczos_even. f_equal. replace (2 * a + 1 - 1 - k)%nat with (2 * a - k)%nat by lia. rewrite minus_INR by lia. rewrite mult_INR. simpl (INR 2). ring.
Qed.
Lemma sum_int a z : (0 < a)%nat -> (- Z.of_nat a <= z <= Z.of_nat a)%Z -> sumn (2 * a + 1) (fun k => lanczos_kernel a (INR k - INR a + IZR z)) = 1.
Proof.
  intros Ha Hz. rewrite (sumn_ext _ _ (fun k => if Nat.eqb k (Z.to_nat (Z.of_nat a - z)) then 1 else 0)).
  - rewrite (sumn_delta (2 * a + 1) (Z.to_nat (Z.of_nat a - z)) (fun _ => 1)); [reflexivity|lia].
  - intros k Hk. replace (INR k - INR a + IZR z) with (IZR (Z.of_nat k - Z.of_nat a + z)) by (rewrite plus_IZR, minus_IZR, <- !INR_IZR_INZ; reflexivity).
    rewrite lanczos_int by exact Ha. destruct (Z.eqb_spec (Z.of_nat k - Z.of_nat a + z) 0), (Nat.eqb_spec k (Z.to_nat (Z.of_nat a - z))); try reflexivity; lia.
Qed.
Lemma sum_pos a x : (0 < a)%nat -> -1 <= x <= 1 -> 0 < sumn (2 * a + 1) (fun k => lanczos_kernel a (INR k - INR a + x)).
Proof.
  intros Ha.
  assert (K : forall x, 0 <= x <= 1 -> 0 < sumn (2 * a + 1) (fun k => lanczos_kernel a (INR k - INR a + x))).
  { clear x. intros x [H1 H2]. destruct (Req_dec x 0) as [->|N0]; [rewrite (sum_int a 0 Ha ltac:(lia)); lra|].
    destruct (Req_dec x 1) as [->|N1]; [rewrite (sum_int a 1 Ha ltac:(lia)); lra|].
    replace (2 * a + 1)%nat with (a + (a + 1))%nat by lia. rewrite sumn_split.
    assert (E1 : sumn a (fun k => lanczos_kernel a (INR k - INR a + x)) = sumn a (fun k => lanczos_kernel a ((1 - x) + INR k))).
    { rewrite (sumn_rev a (fun k => lanczos_kernel a (INR k - INR a + x))). apply sumn_ext. intros k Hk. rewrite <- lanczos_even. f_equal.
      replace (a - 1 - k)%nat with (a - (1 + k))%nat by lia. rewrite minus_INR by lia. rewrite plus_INR. simpl (INR 1). ring. }
    assert (E2 : sumn (a + 1) (fun k => lanczos_kernel a (INR (a + k) - INR a + x)) = sumn a (fun k => lanczos_kernel a (x + INR k))).
    { rewrite sumn_split. simpl (sumn 1 _). rewrite Nat.add_0_r.
      assert (Z : lanczos_kernel a (INR (a + a) - INR a + x) = 0) by (apply lanczos_out; right; rewrite plus_INR; lra). rewrite Z, !Rplus_0_r.
      apply sumn_ext. intros k _. f_equal. rewrite plus_INR. ring. }
    rewrite E1, E2. pose proof (half_pos a x Ha ltac:(lra)). pose proof (half_pos a (1 - x) Ha ltac:(lra)). lra. }
  intros H. destruct (Rle_lt_dec 0 x) as [L|L]; [apply K; lra|]. rewrite <- (Ropp_involutive x), sum_even. apply K. lra.
Qed.

(** ** Linear programs *)
Lemma lp_abs_row M N A b z i : (i < M)%nat ->
  (sumn (M + N) (fun j => lp_A (lstabsdev_lp M N A b) i j * z j) = - z i - sumn N (fun j => A i j * z (M + j)%nat)) /\
  (sumn (M + N) (fun j => lp_A (lstabsdev_lp M N A b) (M + i) j * z j) = - z i + sumn N (fun j => A i j * z (M + j)%nat)).
Proof.
  intros Hi. cbn [lstabsdev_lp lp_A]. rewrite (proj2 (Nat.ltb_lt i M) Hi). rewrite (proj2 (Nat.ltb_ge (M + i) M) ltac:(lia)). replace (M + i - M)%nat with i by lia.
  assert (T : forall u, sumn M (fun j => (if Nat.ltb j M then (if Nat.eqb i j then -1 else 0) else u j) * z j) = - z i).
  { intros u. rewrite (sumn_ext _ _ (fun j => if Nat.eqb j i then - z j else 0)); [exact (sumn_delta M i (fun j => - z j) Hi)|].
    intros j Hj. rewrite (proj2 (Nat.ltb_lt j M) Hj). rewrite (Nat.eqb_sym i j). destruct (Nat.eqb j i); ring. }
  split; rewrite sumn_split, T.
  - unfold Rminus at 1. f_equal. rewrite <- sumn_opp. apply sumn_ext. intros j _. rewrite (proj2 (Nat.ltb_ge (M + j) M) ltac:(lia)). replace (M + j - M)%nat with j by lia. ring.
  - f_equal. apply sumn_ext. intros j _. rewrite (proj2 (Nat.ltb_ge (M + j) M) ltac:(lia)). replace (M + j - M)%nat with j by lia. ring.
Qed.
Lemma lp_abs_feasible M N A b z : lp_feasible (lstabsdev_lp M N A b) z <-> forall i, (i < M)%nat -> Rabs (resid N A b (fun j => z (M + j)%nat) i) <= z i.
Proof.
  unfold lp_feasible, resid. cbn [lp_m lp_n lstabsdev_lp]. split.
  - intros H i Hi. destruct (lp_abs_row M N A b z i Hi) as [E1 E2]. pose proof (H i ltac:(lia)) as H1. pose proof (H (M + i)%nat ltac:(lia)) as H2.
    cbn [lp_n lstabsdev_lp] in H1, H2. rewrite E1 in H1. rewrite E2 in H2. cbn [lp_b lstabsdev_lp] in H1, H2.
    rewrite (proj2 (Nat.ltb_lt i M) Hi) in H1. rewrite (proj2 (Nat.ltb_ge (M + i) M) ltac:(lia)) in H2. replace (M + i - M)%nat with i in H2 by lia. apply Rabs_le. lra.
  - intros H i Hi. destruct (Nat.ltb_spec i M) as [L|L].
    + destruct (lp_abs_row M N A b z i L) as [E1 _]. rewrite E1. cbn [lp_b lstabsdev_lp]. rewrite (proj2 (Nat.ltb_lt i M) L). specialize (H i L). pose proof (Rle_abs (- (sumn N (fun j => A i j * z (M + j)%nat) - b i))) as Q. rewrite Rabs_Ropp in Q. lra.
    + assert (Hx : exists k, i = (M + k)%nat /\ (k < M)%nat) by (exists (i - M)%nat; lia). destruct Hx as (k & -> & Hk).
      destruct (lp_abs_row M N A b z k Hk) as [_ E2]. rewrite E2. cbn [lp_b lstabsdev_lp]. rewrite (proj2 (Nat.ltb_ge (M + k) M) L). replace (M + k - M)%nat with k by lia.
      specialize (H k Hk). pose proof (Rle_abs (sumn N (fun j => A k j * z (M + j)%nat) - b k)). lra.
Qed.
Lemma lp_abs_value M N A b z : lp_value (lstabsdev_lp M N A b) z = sumn M z.
Proof.
  unfold lp_value. cbn [lp_n lp_c lstabsdev_lp]. rewrite sumn_split. rewrite (sumn_0 N), Rplus_0_r.
  - apply sumn_ext. intros j Hj. rewrite (proj2 (Nat.ltb_lt j M) Hj). ring.
  - intros j _. rewrite (proj2 (Nat.ltb_ge (M + j) M) ltac:(lia)). ring.
Qed.
Lemma lp_max_row M N A b z i : (i < M)%nat ->
  (sumn (N + 1) (fun j => lp_A (lstmaxdev_lp M N A b) i j * z j) = - z O - sumn N (fun j => A i j * z (1 + j)%nat)) /\
  (sumn (N + 1) (fun j => lp_A (lstmaxdev_lp M N A b) (M + i) j * z j) = - z O + sumn N (fun j => A i j * z (1 + j)%nat)).
Proof.
  intros Hi. cbn [lstmaxdev_lp lp_A]. rewrite (proj2 (Nat.ltb_lt i M) Hi). rewrite (proj2 (Nat.ltb_ge (M + i) M) ltac:(lia)). replace (M + i - M)%nat with i by lia.
  replace (N + 1)%nat with (S N) by lia. split; rewrite sumn_first; cbn [Nat.eqb].
  - unfold Rminus at 1. f_equal; [ring|]. rewrite <- sumn_opp. apply sumn_ext. intros j _. replace (S j - 1)%nat with j by lia. change (1 + j)%nat with (S j). ring.
  - f_equal; [ring|]. apply sumn_ext. intros j _. replace (S j - 1)%nat with j by lia. change (1 + j)%nat with (S j). ring.
Qed.
Lemma lp_max_feasible M N A b z : lp_feasible (lstmaxdev_lp M N A b) z <-> forall i, (i < M)%nat -> Rabs (resid N A b (fun j => z (1 + j)%nat) i) <= z O.
Proof.
  unfold lp_feasible, resid. cbn [lp_m lp_n lstmaxdev_lp]. split.
  - intros H i Hi. destruct (lp_max_row M N A b z i Hi) as [E1 E2]. pose proof (H i ltac:(lia)) as H1. pose proof (H (M + i)%nat ltac:(lia)) as H2.
    cbn [lp_n lstmaxdev_lp] in H1, H2. rewrite E1 in H1. rewrite E2 in H2. cbn [lp_b lstmaxdev_lp] in H1, H2.
    rewrite (proj2 (Nat.ltb_lt i M) Hi) in H1. rewrite (proj2 (Nat.ltb_ge (M + i) M) ltac:(lia)) in H2. replace (M + i - M)%nat with i in H2 by lia. apply Rabs_le. lra.
  - intros H i Hi. destruct (Nat.ltb_spec i M) as [L|L].
    + destruct (lp_max_row M N A b z i L) as [E1 _]. rewrite E1. cbn [lp_b lstmaxdev_lp]. rewrite (proj2 (Nat.ltb_lt i M) L). specialize (H i L). pose proof (Rle_abs (- (sumn N (fun j => A i j * z (1 + j)%nat) - b i))) as Q. rewrite Rabs_Ropp in Q. lra.
    + assert (Hx : exists k, i = (M + k)%nat /\ (k < M)%nat) by (exists (i - M)%nat; lia). destruct Hx as (k & -> & Hk).
      destruct (lp_max_row M N A b z k Hk) as [_ E2]. rewrite E2. cbn [lp_b lstmaxdev_lp]. rewrite (proj2 (Nat.ltb_ge (M + k) M) L). replace (M + k - M)%nat with k by lia.
      specialize (H k Hk). pose proof (Rle_abs (sumn N (fun j => A k j * z (1 + j)%nat) - b k)). lra.
Qed.
Lemma lp_max_value M N A b z : lp_value (lstmaxdev_lp M N A b) z = z O.
Proof.
  unfold lp_value. cbn [lp_n lp_c lstmaxdev_lp]. replace (N + 1)%nat with (S N) by lia. rewrite sumn_first. rewrite (sumn_0 N); [cbn [Nat.eqb]; ring|]. intros j _. cbn [Nat.eqb]. ring.
Qed.
