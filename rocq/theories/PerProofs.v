Require Import Reals Arith Bool Lia Lra Psatz.
Require Import Verif.RVec Verif.PerModel Verif.PerSpec.
Local Open Scope R_scope.

(** ** The Gaussian filter *)
Lemma raw_pos k : 0 < raw k. Proof. apply exp_pos. Qed.
Lemma raws_pos : 0 < sumn 7 raw.
Proof. cbn [sumn]. pose proof raw_pos as P. pose proof (P 0%nat); pose proof (P 1%nat); pose proof (P 2%nat); pose proof (P 3%nat); pose proof (P 4%nat); pose proof (P 5%nat); pose proof (P 6%nat). lra. Qed.
Lemma weight_pos k : 0 < weight k.
Proof. unfold weight, Rdiv. apply Rmult_lt_0_compat; [apply raw_pos|apply Rinv_0_lt_compat, raws_pos]. Qed.
Lemma weight_sum : sumn 7 weight = 1.
Proof. unfold weight, Rdiv. rewrite sumn_scal_r. apply Rinv_r. pose proof raws_pos. lra. Qed.
Lemma weight_sym k : (k < 7)%nat -> weight (6 - k) = weight k.
Proof. intros H. unfold weight. f_equal. unfold raw. f_equal. rewrite minus_INR by lia. simpl (INR 6). ring. Qed.

Section Line.
Variables (N : nat) (e : nat -> R).
Hypothesis HN : (0 < N)%nat.
Let E := reflected N e.
Lemma E_lt p : (p < N)%nat -> E p = e p.
Proof. intros H. unfold E, reflected. rewrite Nat.mod_small by lia. destruct (Nat.ltb_spec p N); [reflexivity|lia]. Qed.
Lemma E_hi p : (p < N)%nat -> E (2 * N - 1 - p) = e p.
Proof.
  intros H. unfold E, reflected. rewrite Nat.mod_small by lia. destruct (Nat.ltb_spec (2 * N - 1 - p) N); [lia|]. f_equal. lia.
Qed.
Lemma E_per p m : E (p + m * (2 * N)) = E p.
Proof. unfold E, reflected. rewrite Nat.mod_add by lia. reflexivity. Qed.
Lemma E_mirror p m : (p < m * (2 * N))%nat -> E (m * (2 * N) - 1 - p) = E p.
Proof.
  intros H. set (r := (p mod (2 * N))%nat). set (q := (p / (2 * N))%nat).
  assert (Hp : p = (2 * N * q + r)%nat) by (apply Nat.div_mod; lia). assert (Hr : (r < 2 * N)%nat) by (apply Nat.mod_upper_bound; lia).
  assert (Hq : (q < m)%nat) by nia.
  replace (m * (2 * N) - 1 - p)%nat with ((2 * N - 1 - r) + (m - 1 - q) * (2 * N))%nat by nia. rewrite E_per.
  replace p with (r + q * (2 * N))%nat by nia. rewrite E_per.
  destruct (Nat.lt_ge_cases r N) as [L|G]; [rewrite E_hi, E_lt by lia; reflexivity|].
  assert (K : r = (2 * N - 1 - (2 * N - 1 - r))%nat) by lia. rewrite K at 2. rewrite (E_hi (2 * N - 1 - r)) by lia. apply E_lt. lia.
Qed.
Lemma per_shift (f : nat -> R) s : (forall p, f (p + 2 * N)%nat = f p) -> sumn (2 * N) (fun p => f (p + s)%nat) = sumn (2 * N) f.
Proof.
  intros Hf. induction s as [|s IH]; [apply sumn_ext; intros; f_equal; lia|]. rewrite <- IH.
  destruct (2 * N)%nat as [|n] eqn:En; [lia|]. rewrite (sumn_first n (fun p => f (p + s)%nat)). cbn [sumn].
  replace (n + S s)%nat with (s + S n)%nat by lia. rewrite Hf. cbn [Nat.add]. rewrite Rplus_comm. f_equal.
  apply sumn_ext. intros. f_equal. lia.
Qed.
Lemma halves (f : nat -> R) : (forall p, (p < N)%nat -> f (2 * N - 1 - p)%nat = f p) -> sumn (2 * N) f = 2 * sumn N f.
Proof.
  intros Hf. replace (2 * N)%nat with (N + N)%nat by lia. rewrite sumn_split.
  replace (sumn N (fun i => f (N + i)%nat)) with (sumn N f); [ring|].
  rewrite (sumn_rev N (fun i => f (N + i)%nat)). apply sumn_ext. intros i Hi. rewrite <- (Hf i Hi). f_equal. lia.
Qed.
Let F (p : nat) : R := sumn 7 (fun k => weight k * E (p + k + (6 * N - 3))).
Lemma F_mirror p : (p < N)%nat -> F (2 * N - 1 - p) = F p.
Proof.
  intros Hp. unfold F. rewrite (sumn_rev 7 (fun k => weight k * E (2 * N - 1 - p + k + (6 * N - 3)))). apply sumn_ext. intros k Hk.
  replace (7 - 1 - k)%nat with (6 - k)%nat by lia. rewrite (weight_sym k Hk). f_equal.
  replace (2 * N - 1 - p + (6 - k) + (6 * N - 3))%nat with (7 * (2 * N) - 1 - (p + k + (6 * N - 3)))%nat by lia.
  apply E_mirror. lia.
Qed.
Lemma jensen7 (x : nat -> R) : sumn 7 (fun k => weight k * x k) ^ 2 <= sumn 7 (fun k => weight k * x k ^ 2).
Proof.
  set (m := sumn 7 (fun k => weight k * x k)).
  assert (H : 0 <= sumn 7 (fun k => weight k * (x k - m) ^ 2)).
  { apply sumn_nonneg. intros k _. apply Rmult_le_pos; [left; apply weight_pos|apply pow2_ge_0]. }
  assert (K : forall t, sumn 7 (fun k => weight k * (x k - t) ^ 2) =
    sumn 7 (fun k => weight k * x k ^ 2) - 2 * t * sumn 7 (fun k => weight k * x k) + t * t * sumn 7 weight).
  { intros t. rewrite <- !sumn_scal, <- sumn_minus, <- sumn_plus. apply sumn_ext. intros; ring. }
  rewrite K, weight_sum in H. fold m in H. nra.
Qed.
Lemma filter1_le : sumn N (fun i => filter1 N e i ^ 2) <= sumn N (fun i => e i ^ 2).
Proof.
  assert (A : sumn (2 * N) (fun p => F p ^ 2) = 2 * sumn N (fun i => F i ^ 2)).
  { apply (halves (fun p => F p ^ 2)). intros p Hp. cbv beta. rewrite F_mirror by exact Hp. reflexivity. }
  assert (B : sumn (2 * N) (fun p => E p ^ 2) = 2 * sumn N (fun i => E i ^ 2)).
  { apply (halves (fun p => E p ^ 2)). intros p Hp. cbv beta. rewrite E_hi, E_lt by exact Hp. reflexivity. }
  assert (C : sumn (2 * N) (fun p => F p ^ 2) <= sumn (2 * N) (fun p => E p ^ 2)).
  { apply Rle_trans with (sumn (2 * N) (fun p => sumn 7 (fun k => weight k * E (p + k + (6 * N - 3)) ^ 2))).
    - apply sumn_le. intros p _. apply (jensen7 (fun k => E (p + k + (6 * N - 3)))).
    - rewrite sumn_swap. right. rewrite <- (Rmult_1_l (sumn (2 * N) (fun p => E p ^ 2))), <- weight_sum, <- sumn_scal_r.
      apply sumn_ext. intros k _. rewrite sumn_scal. f_equal.
      rewrite <- (per_shift (fun p => E p ^ 2) (k + (6 * N - 3))).
      + apply sumn_ext. intros p _. rewrite Nat.add_assoc. reflexivity.
      + intros p. cbv beta. replace (p + 2 * N)%nat with (p + 1 * (2 * N))%nat by lia. rewrite E_per. reflexivity. }
  assert (D : sumn N (fun i => E i ^ 2) = sumn N (fun i => e i ^ 2)) by (apply sumn_ext; intros; rewrite E_lt by assumption; reflexivity).
  change (sumn N (fun i => F i ^ 2) <= sumn N (fun i => e i ^ 2)). lra.
Qed.
End Line.
Lemma filter1_const N c i : filter1 N (fun _ => c) i = c.
Proof.
  unfold filter1. rewrite (sumn_ext 7 _ (fun k => weight k * c)).
  - rewrite sumn_scal_r, weight_sum. ring.
  - intros k _. unfold reflected. destruct (_ <? _)%nat; reflexivity.
Qed.
Lemma gaussian_le n0 n1 e : (0 < n0)%nat -> (0 < n1)%nat ->
  sumn n0 (fun i => sumn n1 (fun j => gaussian_filter n0 n1 e i j ^ 2)) <= sumn n0 (fun i => sumn n1 (fun j => e i j ^ 2)).
Proof.
  intros H0 H1. unfold gaussian_filter.
  apply Rle_trans with (sumn n0 (fun i => sumn n1 (fun j => filter1 n0 (fun i' => e i' j) i ^ 2))).
  - apply sumn_le. intros i _. apply (filter1_le n1 (fun j' => filter1 n0 (fun i' => e i' j') i) H1).
  - rewrite (sumn_swap n0 n1 (fun i j => filter1 n0 (fun i' => e i' j) i ^ 2)), (sumn_swap n0 n1 (fun i j => e i j ^ 2)).
    apply sumn_le. intros j _. apply (filter1_le n0 (fun i' => e i' j) H0).
Qed.
Lemma gaussian_const n0 n1 c i j : gaussian_filter n0 n1 (fun _ _ => c) i j = c.
Proof. 
  unfold gaussian_filter, filter1 at 1. rewrite (sumn_ext 7 _ (fun k => weight k * c)).
  - rewrite sumn_scal_r, weight_sum. ring.
  - intros k _. unfold reflected. destruct (_ <? _)%nat; rewrite filter1_const; reflexivity.
Qed.
Lemma reflected_ext N f g p : (0 < N)%nat -> (forall i, (i < N)%nat -> f i = g i) -> reflected N f p = reflected N g p.
Proof.
  intros HN H. unfold reflected. assert ((p mod (2 * N) < 2 * N)%nat) by (apply Nat.mod_upper_bound; lia).
  destruct (Nat.ltb_spec (p mod (2 * N)) N); apply H; lia.
Qed.
Lemma gaussian_ext n0 n1 f g i j : (0 < n0)%nat -> (0 < n1)%nat -> (forall i j, (i < n0)%nat -> (j < n1)%nat -> f i j = g i j) ->
  gaussian_filter n0 n1 f i j = gaussian_filter n0 n1 g i j.
Proof.
  intros H0 H1 H. unfold gaussian_filter, filter1 at 1 3. apply sumn_ext. intros k _. f_equal. apply reflected_ext; [exact H1|].
  intros j' Hj. unfold filter1. apply sumn_ext. intros k' _. f_equal. apply reflected_ext; [exact H0|]. intros i' Hi. apply H; assumption.
Qed.

(** ** Means, the largest entry *)
Lemma INR_pos n : (0 < n)%nat -> 0 < INR n. Proof. intros. apply lt_0_INR. lia. Qed.
Lemma mean_ext n0 n1 f g : (forall i j, (i < n0)%nat -> (j < n1)%nat -> f i j = g i j) -> mean n0 n1 f = mean n0 n1 g.
Proof. intros H. unfold mean. f_equal. apply sumn_ext. intros i Hi. apply sumn_ext. intros j Hj. apply H; assumption. Qed.
Lemma mean_const n0 n1 c : (0 < n0)%nat -> (0 < n1)%nat -> mean n0 n1 (fun _ _ => c) = c.
Proof.
  intros H0 H1. unfold mean. rewrite (sumn_ext n0 _ (fun _ => INR n1 * c)) by (intros; apply sumn_const). rewrite sumn_const.
  pose proof (INR_pos _ H0). pose proof (INR_pos _ H1). field. lra.
Qed.
Lemma mean_le n0 n1 f g : (0 < n0)%nat -> (0 < n1)%nat -> (forall i j, (i < n0)%nat -> (j < n1)%nat -> f i j <= g i j) -> mean n0 n1 f <= mean n0 n1 g.
Proof.
  intros H0 H1 H. unfold mean, Rdiv. apply Rmult_le_compat_r.
  - left. apply Rinv_0_lt_compat. pose proof (INR_pos _ H0). pose proof (INR_pos _ H1). nra.
  - apply sumn_le. intros i Hi. apply sumn_le. intros j Hj. apply H; assumption.
Qed.
Lemma mean_lin n0 n1 a f g : mean n0 n1 (fun i j => a * f i j + g i j) = a * mean n0 n1 f + mean n0 n1 g.
Proof.
  unfold mean. rewrite (sumn_ext n0 _ (fun i => a * sumn n1 (f i) + sumn n1 (g i))).
  - rewrite sumn_plus, sumn_scal. unfold Rdiv. ring.
  - intros i _. rewrite sumn_plus, sumn_scal. reflexivity.
Qed.
Lemma maxn_ge n f i : (i <= n)%nat -> f i <= maxn n f.
Proof.
  induction n as [|n IH]; intros H; simpl; [replace i with O by lia; lra|].
  destruct (Nat.eq_dec i (S n)); [subst; apply Rmax_r|]. eapply Rle_trans; [apply IH; lia|apply Rmax_l].
Qed.
Lemma maxn_in n f : exists i, (i <= n)%nat /\ maxn n f = f i.
Proof.
  induction n as [|n IH]; simpl; [exists O; auto|]. destruct IH as (i & Hi & E). 
  destruct (Rle_dec (maxn n f) (f (S n))); [exists (S n); rewrite Rmax_right by lra; auto|]. exists i. rewrite Rmax_left by lra. auto.
Qed.
Lemma imax_largest n0 n1 v : (0 < n0)%nat -> (0 < n1)%nat -> is_largest n0 n1 v (imax n0 n1 v).
Proof.
  intros H0 H1. unfold imax. split.
  - intros i j Hi Hj. eapply Rle_trans; [apply (maxn_ge (n1 - 1) (v i) j); lia|]. apply (maxn_ge (n0 - 1) (fun i => maxn (n1 - 1) (v i)) i). lia.
  - destruct (maxn_in (n0 - 1) (fun i => maxn (n1 - 1) (v i))) as (i & Hi & E). destruct (maxn_in (n1 - 1) (v i)) as (j & Hj & E').
    exists i, j. repeat split; try lia. rewrite E, E'. reflexivity.
Qed.
Lemma largest_unique n0 n1 v x y : is_largest n0 n1 v x -> is_largest n0 n1 v y -> x = y.
Proof.
  intros (A & i & j & Hi & Hj & E) (B & k & l & Hk & Hl & G). apply Rle_antisym; [rewrite <- E; apply B; assumption|rewrite <- G; apply A; assumption].
Qed.
Lemma imax_scale n0 n1 c v : (0 < n0)%nat -> (0 < n1)%nat -> 0 < c -> imax n0 n1 (fun i j => c * v i j) = c * imax n0 n1 v.
Proof.
  intros H0 H1 Hc. apply (largest_unique n0 n1 (fun i j => c * v i j)); [apply imax_largest; assumption|].
  destruct (imax_largest n0 n1 v H0 H1) as (A & i & j & Hi & Hj & E). split.
  - intros i' j' Hi' Hj'. apply Rmult_le_compat_l; [lra|]. apply A; assumption.
  - exists i, j. rewrite E. auto.
Qed.

(** ** The quality map *)
Lemma half_pos n : (0 < n)%nat -> (0 < half n)%nat.
Proof. intros H. unfold half. apply Nat.div_str_pos. lia. Qed.
Lemma conv3_ext n0 n1 v w krn i j : (forall i j, v i j = w i j) -> conv3 n0 n1 v krn i j = conv3 n0 n1 w krn i j.
Proof. intros H. unfold conv3. apply sumn_ext. intros a _. apply sumn_ext. intros b _. rewrite H. reflexivity. Qed.
Lemma grdMap_shift n0 n1 Y t i j : grdMap n0 n1 (fun i j => Y i j + t) i j = grdMap n0 n1 Y i j.
Proof.
  unfold grdMap. f_equal. f_equal; f_equal; unfold conv3, dy, dx; cbn [sumn]; field.
Qed.
Lemma grdMap_ext n0 n1 v w i j : (forall i j, v i j = w i j) -> grdMap n0 n1 v i j = grdMap n0 n1 w i j.
Proof. intros H. unfold grdMap. rewrite !(conv3_ext n0 n1 v w _ i j H). reflexivity. Qed.
Lemma down_affine c v t i j : down (fun i j => c * (v i j + t)) i j = down (fun i j => c * v i j) i j + c * t.
Proof. unfold down, conv2, ukrn. cbn [sumn]. field. Qed.
Lemma down_ext v w i j : (forall i j, v i j = w i j) -> down v i j = down w i j.
Proof. intros H. unfold down, conv2. apply sumn_ext. intros a _. apply sumn_ext. intros b _. rewrite H. reflexivity. Qed.
Lemma grd_nonneg n0 n1 Y i j : 0 <= grdMap n0 n1 Y i j. Proof. apply sqrt_pos. Qed.
Lemma quality_bounds rescale n0 n1 a b i j : 0 < quality_map rescale n0 n1 a b i j <= 1.
Proof.
  unfold quality_map. cbv zeta. set (g := grdMap _ _ _ i j). set (h := grdMap _ _ _ i j).
  assert (0 <= g) by apply grd_nonneg. assert (0 <= h) by apply grd_nonneg. unfold T.
  assert (P : 0 < g ^ 2 + h ^ 2 + 170) by nra. split.
  - unfold Rdiv. apply Rmult_lt_0_compat; [nra|apply Rinv_0_lt_compat; exact P].
  - apply (Rmult_le_reg_r (g ^ 2 + h ^ 2 + 170)); [exact P|]. unfold Rdiv. rewrite Rmult_assoc, Rinv_l by lra. pose proof (pow2_ge_0 (g - h)). nra.
Qed.
(** The standard deviation of values between 0 and 1 is at most 1/2. *)
Lemma std_half n0 n1 q : (0 < n0)%nat -> (0 < n1)%nat -> (forall i j, 0 <= q i j <= 1) -> 0 <= std n0 n1 q <= 1 / 2.
Proof.
  intros H0 H1 Hq. unfold std. split; [apply sqrt_pos|]. set (m := mean n0 n1 q).
  assert (E : mean n0 n1 (fun i j => (q i j - m) ^ 2) = mean n0 n1 (fun i j => (q i j - 1 / 2) ^ 2) - (m - 1 / 2) ^ 2).
  { rewrite (mean_ext n0 n1 (fun i j => (q i j - m) ^ 2) (fun i j => (1 - 2 * m) * q i j + (1 * (q i j - 1 / 2) ^ 2 + (m ^ 2 - 1 / 4)))) by (intros; field).
    rewrite (mean_lin n0 n1 (1 - 2 * m) q), (mean_lin n0 n1 1 (fun i j => (q i j - 1 / 2) ^ 2) (fun _ _ => m ^ 2 - 1 / 4)), mean_const by assumption.
    fold m. field. }
  assert (L : mean n0 n1 (fun i j => (q i j - 1 / 2) ^ 2) <= 1 / 4).
  { rewrite <- (mean_const n0 n1 (1 / 4)) by assumption. apply mean_le; [assumption|assumption|]. intros i j _ _. specialize (Hq i j). nra. }
  replace (1 / 2) with (sqrt (1 / 4)).
  - apply sqrt_le_1_alt. rewrite E. pose proof (pow2_ge_0 (m - 1 / 2)). lra.
  - replace (1 / 4) with ((1 / 2) * (1 / 2)) by field. apply sqrt_square. lra.
Qed.
Lemma std_const n0 n1 q c : (0 < n0)%nat -> (0 < n1)%nat -> (forall i j, (i < n0)%nat -> (j < n1)%nat -> q i j = c) -> std n0 n1 q = 0.
Proof.
  intros H0 H1 H. unfold std. rewrite (mean_ext n0 n1 q (fun _ _ => c)), mean_const by assumption.
  rewrite (mean_ext n0 n1 _ (fun _ _ => 0)), mean_const by (try assumption; intros i j Hi Hj; cbv beta; rewrite H by assumption; ring). apply sqrt_0.
Qed.
Lemma std_ext n0 n1 f g : (forall i j, (i < n0)%nat -> (j < n1)%nat -> f i j = g i j) -> std n0 n1 f = std n0 n1 g.
Proof. intros H. unfold std. f_equal. rewrite (mean_ext n0 n1 f g H). apply mean_ext. intros i j Hi Hj. rewrite H by assumption. reflexivity. Qed.
