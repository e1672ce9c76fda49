(** The regularisers of total variation deconvolution on vectors: sums of norms of groups, and the steps which minimise them. *)
Require Import List Arith Reals Bool Lia Lra FunctionalExtensionality.
Require Import Verif.RVec Verif.CscIterModel Verif.AdmmSpec Verif.AdmmModel Verif.AdmmProofs Verif.AdmmProps Verif.StepsSpec Verif.StepsProofs.
Require Import Verif.ProxModel Verif.ProxSpec Verif.ProxProofs Verif.ProxProps Verif.FftModel Verif.LimitProofs Verif.SplitConv Verif.TvdModel.
Import ListNotations.
Local Open Scope R_scope.
Local Notation vec := (nat -> R).

Definition col (Q : nat) (y : vec) (q : nat) : vec := fun r => y (r * Q + q)%nat.
Definition tvg (R1 Q : nat) (lam : R) (w y : vec) : R := lam * sumn Q (fun q => w q * nrm R1 (col Q y q)).
Definition tail1 (o n : nat) (wd y : vec) : R := sumn n (fun k => wd k * Rabs (y (o + k)%nat)).

Lemma nrm_seg n x y t : 0 <= t <= 1 -> nrm n (seg x y t) <= nrm n x + t * (nrm n y - nrm n x).
Proof.
  intros Ht. rewrite (nrm_ext n (seg x y t) (vadd (vscal (1 - t) x) (vscal t y))) by (intros; unfold seg, vadd, vscal; ring).
  eapply Rle_trans; [apply nrm_triang|]. rewrite !nrm_scal, !Rabs_pos_eq by lra. lra.
Qed.
Lemma nrm_diff n (x y : vec) : Rabs (nrm n x - nrm n y) <= nrm n (fun i => x i - y i).
Proof.
  assert (T : forall a b : vec, nrm n a - nrm n b <= nrm n (fun i => a i - b i)).
  { intros a b. rewrite (nrm_ext n a (vadd (fun i => a i - b i) b)) by (intros; unfold vadd; ring). pose proof (nrm_triang n (fun i => a i - b i) b). lra. }
  apply Rabs_le. split; [|apply T]. pose proof (T y x) as E. rewrite (nrm_ext n (fun i => y i - x i) (vscal (-1) (fun i => x i - y i))) in E by (intros; unfold vscal; ring).
  rewrite nrm_scal, Rabs_left in E by lra. lra.
Qed.
Lemma nrm2_cols R1 Q y : nrm2 (R1 * Q) y = sumn Q (fun q => nrm2 R1 (col Q y q)).
Proof.
  destruct Q as [|Q']; [rewrite Nat.mul_0_r; reflexivity|]. unfold nrm2, dot, col. rewrite sumn_flat by lia. apply sumn_swap.
Qed.
Lemma nrm2_head m n y : nrm2 (m + n) y = nrm2 m y + nrm2 n (fun k => y (m + k)%nat).
Proof. unfold nrm2, dot. apply sumn_split. Qed.
Lemma nrm_mono n m (x y : vec) : nrm2 n x <= nrm2 m y -> nrm n x <= nrm m y.
Proof. intros H. unfold nrm. apply sqrt_le_1_alt. exact H. Qed.
Lemma col_nrm R1 Q n y q : (q < Q)%nat -> nrm R1 (col Q y q) <= nrm (R1 * Q + n) y.
Proof.
  intros Hq. apply nrm_mono. rewrite nrm2_head, nrm2_cols. pose proof (nrm2_nonneg n (fun k => y (R1 * Q + k)%nat)).
  pose proof (sumn_ge_term Q (fun q => nrm2 R1 (col Q y q)) q ltac:(intros; apply nrm2_nonneg) Hq) as E. cbv beta in E. lra.
Qed.

Section reg.
Variables (R1 Q n : nat) (lam : R) (w wd : vec).
Hypothesis Hl : 0 <= lam.
Hypothesis Hw : forall q, (q < Q)%nat -> 0 <= w q.
Hypothesis Hwd : forall k, (k < n)%nat -> 0 <= wd k.
Lemma tvg_convex : convex_on (fun _ => True) (tvg R1 Q lam w).
Proof.
  intros x y t _ _ Ht. split; [exact I|]. unfold tvg. rewrite <- Rmult_minus_distr_l, <- Rmult_assoc, (Rmult_comm t lam), Rmult_assoc, <- Rmult_plus_distr_l.
  apply Rmult_le_compat_l; [exact Hl|]. rewrite <- sumn_minus, <- sumn_scal, <- sumn_plus. apply sumn_le. intros q Hq.
  pose proof (nrm_seg R1 (col Q x q) (col Q y q) t Ht) as E. pose proof (Rmult_le_compat_l (w q) _ _ (Hw q Hq) E) as E'. eapply Rle_trans; [exact E'|]. lra.
Qed.
Lemma tvg_nonneg y : 0 <= tvg R1 Q lam w y.
Proof. unfold tvg. apply Rmult_le_pos; [exact Hl|]. apply sumn_nonneg. intros q Hq. apply Rmult_le_pos; [apply Hw; exact Hq|apply nrm_nonneg]. Qed.
Lemma tvg_lip a b : Rabs (tvg R1 Q lam w a - tvg R1 Q lam w b) <= lam * sumn Q w * nrm (R1 * Q + n) (fun i => a i - b i).
Proof.
  unfold tvg. rewrite <- Rmult_minus_distr_l, Rabs_mult, (Rabs_pos_eq lam Hl), Rmult_assoc. apply Rmult_le_compat_l; [exact Hl|].
  rewrite <- sumn_minus. eapply Rle_trans; [apply sumn_abs|]. rewrite <- sumn_scal_r. apply sumn_le. intros q Hq. rewrite <- Rmult_minus_distr_l, Rabs_mult, (Rabs_pos_eq _ (Hw q Hq)).
  apply Rmult_le_compat_l; [apply Hw; exact Hq|]. eapply Rle_trans; [apply nrm_diff|]. exact (col_nrm R1 Q n (fun i => a i - b i) q Hq).
Qed.
Lemma tail1_convex o : convex_on (fun _ => True) (tail1 o n wd).
Proof.
  intros x y t _ _ Ht. split; [exact I|]. unfold tail1. rewrite <- sumn_minus, <- sumn_scal, <- sumn_plus. apply sumn_le. intros k Hk. specialize (Hwd k Hk).
  assert (E : Rabs (seg x y t (o + k)%nat) <= Rabs (x (o + k)%nat) + t * (Rabs (y (o + k)%nat) - Rabs (x (o + k)%nat))).
  { unfold seg. replace (x (o + k)%nat + t * (y (o + k)%nat - x (o + k)%nat)) with ((1 - t) * x (o + k)%nat + t * y (o + k)%nat) by ring.
    eapply Rle_trans; [apply Rabs_triang|]. rewrite !Rabs_mult, !(Rabs_pos_eq t), !(Rabs_pos_eq (1 - t)) by lra. lra. }
  pose proof (Rmult_le_compat_l _ _ _ Hwd E). lra.
Qed.
Lemma tail1_nonneg o y : 0 <= tail1 o n wd y.
Proof. unfold tail1. apply sumn_nonneg. intros k Hk. apply Rmult_le_pos; [apply Hwd; exact Hk|apply Rabs_pos]. Qed.
Lemma tail1_lip m a b : Rabs (tail1 m n wd a - tail1 m n wd b) <= sumn n wd * nrm (m + n) (fun i => a i - b i).
Proof.
  unfold tail1. rewrite <- sumn_minus. eapply Rle_trans; [apply sumn_abs|]. rewrite <- sumn_scal_r. apply sumn_le. intros k Hk. rewrite <- Rmult_minus_distr_l, Rabs_mult, (Rabs_pos_eq _ (Hwd k Hk)).
  apply Rmult_le_compat_l; [apply Hwd; exact Hk|]. eapply Rle_trans; [apply Rabs_triang_inv2|]. exact (abs_le_nrm (m + n) (fun i => a i - b i) (m + k) ltac:(lia)).
Qed.
End reg.

Lemma abs_sum_nrm n x : sumn n (fun i => Rabs (x i)) <= INR n * nrm n x.
Proof. rewrite <- sumn_const. apply sumn_le. intros i Hi. apply abs_le_nrm. exact Hi. Qed.
Lemma tvg_coercive R1 Q lam w : 0 < lam -> (forall q, (q < Q)%nat -> 0 < w q) -> exists a, 0 < a /\ forall y, a * sumn (R1 * Q) (fun i => Rabs (y i)) <= tvg R1 Q lam w y.
Proof.
  intros Hl Hw. destruct (min_weight Q w Hw) as (a & Ha & B). pose proof (pos_INR R1) as HR. exists (lam * (a / (INR R1 + 1))).
  assert (P1 : 0 < a / (INR R1 + 1)) by (apply Rdiv_lt_0_compat; lra). split; [apply Rmult_lt_0_compat; assumption|]. intros y. unfold tvg. rewrite Rmult_assoc. apply Rmult_le_compat_l; [lra|].
  assert (E : sumn (R1 * Q) (fun i => Rabs (y i)) = sumn Q (fun q => sumn R1 (fun r => Rabs (col Q y q r)))).
  { destruct Q as [|Q']; [rewrite Nat.mul_0_r; reflexivity|]. rewrite sumn_flat by lia. apply sumn_swap. }
  rewrite E, <- sumn_scal. apply sumn_le. intros q Hq. pose proof (abs_sum_nrm R1 (col Q y q)) as L. pose proof (nrm_nonneg R1 (col Q y q)) as Nn.
  apply Rle_trans with (a * nrm R1 (col Q y q)); [|apply Rmult_le_compat_r; [exact Nn|apply B; exact Hq]].
  apply Rle_trans with (a / (INR R1 + 1) * ((INR R1 + 1) * nrm R1 (col Q y q))); [apply Rmult_le_compat_l; [lra|]; lra|]. apply Req_le. field. lra.
Qed.
Lemma tail1_coercive o n wd : (forall k, (k < n)%nat -> 0 < wd k) -> exists a, 0 < a /\ forall y, a * sumn n (fun k => Rabs (y (o + k)%nat)) <= tail1 o n wd y.
Proof.
  intros Hw. destruct (min_weight n wd Hw) as (a & Ha & B). exists a. split; [exact Ha|]. intros y. unfold tail1. rewrite <- sumn_scal. apply sumn_le. intros k Hk.
  apply Rmult_le_compat_r; [apply Rabs_pos|apply B; exact Hk].
Qed.

(** ** The y steps *)
Lemma prox_l2_scaled n v lam rho (x : vec) : 0 <= lam -> 0 < rho ->
  lam * nrm n (prox_l2 n v (lam / rho)) + rho / 2 * nrm2 n (fun i => v i - prox_l2 n v (lam / rho) i) <= lam * nrm n x + rho / 2 * nrm2 n (fun i => v i - x i).
Proof.
  intros Hl Hr. destruct (C17_prox_l2_minimises n v (lam / rho)) as [M _]; [apply Rmult_le_pos; [exact Hl|left; apply Rinv_0_lt_compat; exact Hr]|].
  assert (E : forall z, lam * nrm n z + rho / 2 * nrm2 n (fun i => v i - z i) = rho * prox_obj n (fun x => lam / rho * nrm n x) v z).
  { intros z. unfold prox_obj. replace (nrm2 n (vsub z v)) with (nrm2 n (fun i => v i - z i)); [field; lra|]. unfold nrm2, dot, vsub. apply sumn_ext. intros; ring. }
  rewrite !E. apply Rmult_le_compat_l; [lra|]. apply M.
Qed.
Lemma ystep2_min R1 Q lam rho w ax u (y : vec) : 0 <= lam -> 0 < rho -> (forall q, (q < Q)%nat -> 0 <= w q) -> let p := tvl2_ystep R1 Q lam rho w ax u in
  tvg R1 Q lam w p + rho / 2 * nrm2 (R1 * Q) (fun i => ax i - p i + u i) <= tvg R1 Q lam w y + rho / 2 * nrm2 (R1 * Q) (fun i => ax i - y i + u i).
Proof.
  intros Hl Hr Hw p. unfold tvg. rewrite !nrm2_cols, <- !sumn_scal, <- !sumn_plus. apply sumn_le. intros q Hq.
  set (v := fun r => ax (r * Q + q)%nat + u (r * Q + q)%nat).
  assert (Ep : forall r, col Q p q r = prox_l2 R1 v (lam * w q / rho) r).
  { intros r. unfold col, p, tvl2_ystep. rewrite (div_at Q), (mod_at Q) by exact Hq. replace (lam * w q / rho) with (lam / rho * w q) by (field; lra). reflexivity. }
  pose proof (prox_l2_scaled R1 v (lam * w q) rho (col Q y q) ltac:(apply Rmult_le_pos; [exact Hl|apply Hw; exact Hq]) Hr) as M.
  rewrite (nrm_ext R1 (col Q p q) (prox_l2 R1 v (lam * w q / rho))) by (intros; apply Ep).
  rewrite (nrm2_ext R1 (col Q (fun i => ax i - p i + u i) q) (fun i => v i - prox_l2 R1 v (lam * w q / rho) i)) by (intros r _; rewrite <- Ep; unfold col, v; ring).
  rewrite (nrm2_ext R1 (col Q (fun i => ax i - y i + u i) q) (fun i => v i - col Q y q i)) by (intros r _; unfold col, v; ring).
  rewrite <- !Rmult_assoc. exact M.
Qed.
Lemma soft_min v a rho y : 0 <= a -> 0 < rho -> let p := prox_l1 (fun _ => v) (fun _ => a / rho) 0 in a * Rabs p + rho / 2 * ((v - p) * (v - p)) <= a * Rabs y + rho / 2 * ((v - y) * (v - y)).
Proof.
  intros Ha Hr p. assert (Hq : 0 <= a / rho) by (apply Rmult_le_pos; [exact Ha|left; apply Rinv_0_lt_compat; exact Hr]).
  destruct (C15_prox_l1_minimises 1 (fun _ => v) (fun _ => a / rho)) as [M _]; [intros; exact Hq|].
  assert (E : forall z : vec, a * Rabs (z O) + rho / 2 * ((v - z O) * (v - z O)) = rho * prox_obj 1 (wnrm1 1 (fun _ => a / rho)) (fun _ => v) z).
  { intros z. unfold prox_obj, wnrm1, nrm2, dot, vsub. cbn [sumn]. rewrite Rabs_mult, (Rabs_pos_eq _ Hq). field. lra. }
  specialize (M (fun _ => y)). apply (Rmult_le_compat_l rho) in M; [|lra]. rewrite <- !E in M. exact M.
Qed.
Lemma ystep1_min s axes S NS bases R1 Q n lam rho w wd ax u c (y : vec) : 0 <= lam -> 0 < rho -> (forall q, (q < Q)%nat -> 0 <= w q) -> (forall k, (k < n)%nat -> 0 <= wd k) ->
  (forall i, (i < R1 * Q)%nat -> c i = 0) -> (forall k, (k < n)%nat -> c (R1 * Q + k)%nat = at_flat s axes NS bases (fun _ => S) k) ->
  let p := tvl1_ystep s axes S NS bases R1 Q lam rho w wd ax u in
  tvg R1 Q lam w p + tail1 (R1 * Q) n wd p + rho / 2 * nrm2 (R1 * Q + n) (fun i => ax i - p i - c i + u i) <=
  tvg R1 Q lam w y + tail1 (R1 * Q) n wd y + rho / 2 * nrm2 (R1 * Q + n) (fun i => ax i - y i - c i + u i).
Proof.
  intros Hl Hr Hw Hwd C0 C1 p. rewrite !nrm2_head.
  pose proof (ystep2_min R1 Q lam rho w ax u y Hl Hr Hw) as M. cbv zeta in M. set (p2 := tvl2_ystep R1 Q lam rho w ax u) in *.
  assert (Ep : forall i, (i < R1 * Q)%nat -> p i = p2 i) by (intros i Hi; unfold p, tvl1_ystep; apply Nat.ltb_lt in Hi; rewrite Hi; reflexivity).
  assert (Et : tvg R1 Q lam w p = tvg R1 Q lam w p2).
  { unfold tvg. f_equal. apply sumn_ext. intros q Hq. f_equal. apply nrm_ext. intros r Hr1. unfold col. apply Ep. nia. }
  rewrite Et. rewrite (nrm2_ext (R1 * Q) (fun i => ax i - p i - c i + u i) (fun i => ax i - p2 i + u i)) by (intros i Hi; rewrite Ep, C0 by exact Hi; ring).
  rewrite (nrm2_ext (R1 * Q) (fun i => ax i - y i - c i + u i) (fun i => ax i - y i + u i)) by (intros i Hi; rewrite C0 by exact Hi; ring).
  enough (T : tail1 (R1 * Q) n wd p + rho / 2 * nrm2 n (fun k => ax (R1 * Q + k)%nat - p (R1 * Q + k)%nat - c (R1 * Q + k)%nat + u (R1 * Q + k)%nat) <=
              tail1 (R1 * Q) n wd y + rho / 2 * nrm2 n (fun k => ax (R1 * Q + k)%nat - y (R1 * Q + k)%nat - c (R1 * Q + k)%nat + u (R1 * Q + k)%nat)) by lra.
  clear M Et Ep. unfold tail1, nrm2, dot. rewrite <- !sumn_scal, <- !sumn_plus. apply sumn_le. intros k Hk. rewrite (C1 k Hk).
  pose proof (soft_min (ax (R1 * Q + k)%nat + u (R1 * Q + k)%nat - at_flat s axes NS bases (fun _ => S) k) (wd k) rho (y (R1 * Q + k)%nat) (Hwd k Hk) Hr) as M. cbv zeta in M.
  assert (Ek : p (R1 * Q + k)%nat = prox_l1 (fun _ => ax (R1 * Q + k)%nat + u (R1 * Q + k)%nat - at_flat s axes NS bases (fun _ => S) k) (fun _ => wd k / rho) 0).
  { unfold p, tvl1_ystep. assert (L : Nat.ltb (R1 * Q + k) (R1 * Q) = false) by (apply Nat.ltb_ge; lia). rewrite L. replace (R1 * Q + k - R1 * Q)%nat with k by lia.
    unfold prox_l1. replace (1 / rho * wd k) with (wd k / rho) by (field; lra). reflexivity. }
  rewrite Ek. set (pk := prox_l1 _ _ _) in *. clearbody pk. set (sk := at_flat s axes NS bases (fun _ => S) k) in *. clearbody sk.
  replace ((ax (R1 * Q + k)%nat - pk - sk + u (R1 * Q + k)%nat) * (ax (R1 * Q + k)%nat - pk - sk + u (R1 * Q + k)%nat)) with ((ax (R1 * Q + k)%nat + u (R1 * Q + k)%nat - sk - pk) * (ax (R1 * Q + k)%nat + u (R1 * Q + k)%nat - sk - pk)) by ring.
  replace ((ax (R1 * Q + k)%nat - y (R1 * Q + k)%nat - sk + u (R1 * Q + k)%nat) * (ax (R1 * Q + k)%nat - y (R1 * Q + k)%nat - sk + u (R1 * Q + k)%nat)) with ((ax (R1 * Q + k)%nat + u (R1 * Q + k)%nat - sk - y (R1 * Q + k)%nat) * (ax (R1 * Q + k)%nat + u (R1 * Q + k)%nat - sk - y (R1 * Q + k)%nat)) by ring.
  exact M.
Qed.
