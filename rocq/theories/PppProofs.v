(** Convergence of averaged non-expansive iterations in finite dimension, and of the Douglas-Rachford iteration of two firmly
    non-expansive operators. *)
Require Import List Arith Reals Bool Lia Lra FunctionalExtensionality.
Require Import Verif.RVec Verif.AdmmModel Verif.AdmmSpec Verif.AdmmProofs Verif.AdmmConv Verif.AdmmProps Verif.Compact Verif.AdmmLimit Verif.StepsSpec Verif.StepsProofs Verif.PppModel Verif.PppSpec.
Local Open Scope R_scope.
Local Notation vec := (nat -> R).

(** Weighted inner products. *)
Section weighted.
Variables (m : nat) (w : vec).
Hypothesis Hw : forall i, (i < m)%nat -> 0 < w i.
Definition wd (a b : vec) : R := sumn m (fun i => w i * (a i * b i)).
Definition wq (a : vec) : R := wd a a.
Lemma wd_ext a b a' b' : (forall i, (i < m)%nat -> a i = a' i) -> (forall i, (i < m)%nat -> b i = b' i) -> wd a b = wd a' b'.
Proof. intros Ha Hb. apply sumn_ext. intros i Hi. rewrite Ha, Hb by exact Hi. reflexivity. Qed.
Lemma wq_ext a b : (forall i, (i < m)%nat -> a i = b i) -> wq a = wq b. Proof. intros H. apply wd_ext; exact H. Qed.
Lemma wq_nonneg a : 0 <= wq a.
Proof. apply sumn_nonneg. intros i Hi. apply Rmult_le_pos; [left; apply Hw; exact Hi|apply Rle_0_sqr]. Qed.
Lemma wq_zero a : wq a <= 0 -> forall i, (i < m)%nat -> a i = 0.
Proof.
  intros H i Hi. assert (T : w i * (a i * a i) <= wq a). { apply (sumn_ge_term m (fun i => w i * (a i * a i)) i); [|exact Hi]. intros j Hj. apply Rmult_le_pos; [left; apply Hw; exact Hj|apply Rle_0_sqr]. }
  specialize (Hw i Hi). destruct (Req_dec (a i) 0) as [E|E]; [exact E|]. assert (0 < a i * a i) by (apply Rsqr_pos_lt; exact E). nra.
Qed.
(** The coordinates are bounded by the norm. *)
Lemma wq_coord a i : (i < m)%nat -> a i * a i <= / w i * wq a.
Proof.
  intros Hi. assert (T : w i * (a i * a i) <= wq a). { apply (sumn_ge_term m (fun i => w i * (a i * a i)) i); [|exact Hi]. intros j Hj. apply Rmult_le_pos; [left; apply Hw; exact Hj|apply Rle_0_sqr]. }
  specialize (Hw i Hi). apply (Rmult_le_reg_l (w i)); [exact Hw|]. replace (w i * (/ w i * wq a)) with (wq a) by (field; lra). exact T.
Qed.
Lemma wq_cv (a : nat -> vec) l : (forall i, (i < m)%nat -> Un_cv (fun k => a k i) (l i)) -> Un_cv (fun k => wq (fun i => a k i - l i)) 0.
Proof.
  intros H. replace 0 with (sumn m (fun i => w i * ((l i - l i) * (l i - l i)))) by (apply sumn_0; intros; ring).
  apply (cv_sumn m (fun k i => w i * ((a k i - l i) * (a k i - l i)))). intros i Hi.
  assert (C : Un_cv (fun k => a k i - l i) (l i - l i)) by (apply CV_minus; [apply H; exact Hi|apply cv_const]).
  apply (CV_mult (fun _ => w i) (fun k => (a k i - l i) * (a k i - l i))); [apply cv_const|]. apply (CV_mult (fun k => a k i - l i) (fun k => a k i - l i)); exact C.
Qed.
Lemma cv_wq (a : nat -> vec) l : Un_cv (fun k => wq (fun i => a k i - l i)) 0 -> forall i, (i < m)%nat -> Un_cv (fun k => a k i) (l i).
Proof.
  intros H i Hi. assert (Q : Un_cv (fun k => (a k i - l i) * (a k i - l i)) 0).
  { apply (squeeze_0 _ (fun k => / w i * wq (fun i => a k i - l i)) O); [|apply cv_scal_0; exact H]. intros k _. split; [apply Rle_0_sqr|]. apply (wq_coord (fun i => a k i - l i) i Hi). }
  intros e He. destruct (Q (e * e) ltac:(nra)) as [N HN]. exists N. intros k Hk. specialize (HN k Hk). unfold R_dist in *. rewrite Rminus_0_r in HN. rewrite Rabs_pos_eq in HN by apply Rle_0_sqr.
  apply Rabs_def1; nra.
Qed.
Definition nonexp (T : vec -> vec) : Prop := forall a b, wq (fun i => T a i - T b i) <= wq (fun i => a i - b i).
Definition wfirm (T : vec -> vec) : Prop := forall a b, wq (fun i => T a i - T b i) <= wd (fun i => T a i - T b i) (fun i => a i - b i).
Lemma nonexp_local T a b : nonexp T -> (forall i, (i < m)%nat -> a i = b i) -> forall i, (i < m)%nat -> T a i = T b i.
Proof.
  intros H E i Hi. specialize (H a b). assert (Z : wq (fun i => a i - b i) = 0) by (apply sumn_0; intros j Hj; rewrite (E j Hj); ring).
  rewrite Z in H. pose proof (wq_zero _ H i Hi) as Q. cbv beta in Q. lra.
Qed.
(** The reflection of a firmly non-expansive operator is non-expansive, and so is the operator. *)
Lemma firm_reflect T : wfirm T -> nonexp (fun a i => 2 * T a i - a i).
Proof.
  intros H a b. specialize (H a b).
  assert (E : wq (fun i => 2 * T a i - a i - (2 * T b i - b i)) = wq (fun i => a i - b i) + 4 * (wq (fun i => T a i - T b i) - wd (fun i => T a i - T b i) (fun i => a i - b i))).
  { unfold wq, wd. rewrite <- sumn_minus, <- sumn_scal, <- sumn_plus. apply sumn_ext. intros; ring. }
  rewrite E. lra.
Qed.
Lemma firm_nonexp T : wfirm T -> nonexp T.
Proof.
  intros H a b. specialize (H a b).
  assert (E : wq (fun i => (a i - b i) - (T a i - T b i)) = wq (fun i => a i - b i) - 2 * wd (fun i => T a i - T b i) (fun i => a i - b i) + wq (fun i => T a i - T b i)).
  { unfold wq, wd. rewrite <- sumn_scal, <- sumn_minus, <- sumn_plus. apply sumn_ext. intros; ring. }
  pose proof (wq_nonneg (fun i => (a i - b i) - (T a i - T b i))). lra.
Qed.
Lemma nonexp_cv T (a : nat -> vec) l : nonexp T -> (forall i, (i < m)%nat -> Un_cv (fun k => a k i) (l i)) -> forall i, (i < m)%nat -> Un_cv (fun k => T (a k) i) (T l i).
Proof.
  intros H C. apply (cv_wq (fun k => T (a k)) (T l)). apply (squeeze_0 _ (fun k => wq (fun i => a k i - l i)) O); [|apply wq_cv; exact C]. intros k _. split; [apply wq_nonneg|apply H].
Qed.

(** Krasnoselskii-Mann. *)
Section km.
Variables (T : vec -> vec) (lam : R) (z : nat -> vec) (p : vec).
Hypothesis HT : nonexp T.
Hypothesis Hlam : 0 < lam < 1.
Hypothesis Hz : forall k i, (i < m)%nat -> z (S k) i = z k i + lam * (T (z k) i - z k i).
Notation fixed q := (forall i, (i < m)%nat -> T q i = q i).
Lemma km_step q k : fixed q -> wq (fun i => z (S k) i - q i) + lam * (1 - lam) * wq (fun i => T (z k) i - z k i) <= wq (fun i => z k i - q i).
Proof.
  intros Hq. rewrite (wq_ext (fun i => z (S k) i - q i) (fun i => (1 - lam) * (z k i - q i) + lam * (T (z k) i - T q i))) by (intros i Hi; rewrite Hz, (Hq i Hi) by exact Hi; ring).
  rewrite (wq_ext (fun i => T (z k) i - z k i) (fun i => (T (z k) i - T q i) - (z k i - q i))) by (intros i Hi; rewrite (Hq i Hi); ring).
  specialize (HT (z k) q).
  assert (E : wq (fun i => (1 - lam) * (z k i - q i) + lam * (T (z k) i - T q i)) + lam * (1 - lam) * wq (fun i => (T (z k) i - T q i) - (z k i - q i)) = (1 - lam) * wq (fun i => z k i - q i) + lam * wq (fun i => T (z k) i - T q i)).
  { unfold wq, wd. rewrite <- !sumn_scal, <- !sumn_plus. apply sumn_ext. intros; ring. }
  rewrite E. nra.
Qed.
Lemma km_le q k j : fixed q -> (k <= j)%nat -> wq (fun i => z j i - q i) <= wq (fun i => z k i - q i).
Proof.
  intros Hq H. induction H as [|j H IH]; [apply Rle_refl|]. eapply Rle_trans; [|exact IH]. pose proof (km_step q j Hq). pose proof (wq_nonneg (fun i => T (z j) i - z j i)).
  assert (0 <= lam * (1 - lam)) by nra. assert (0 <= lam * (1 - lam) * wq (fun i => T (z j) i - z j i)) by (apply Rmult_le_pos; assumption). lra.
Qed.
Theorem km : fixed p -> exists q, fixed q /\ forall i, (i < m)%nat -> Un_cv (fun k => z k i) (q i).
Proof.
  intros Hp.
  assert (R0 : Un_cv (fun k => wq (fun i => T (z k) i - z k i)) 0).
  { assert (Q : Un_cv (fun k => lam * (1 - lam) * wq (fun i => T (z k) i - z k i)) 0).
    { apply (decrement_cv (fun k => wq (fun i => z k i - p i))); [intros; apply wq_nonneg|intros; apply Rmult_le_pos; [nra|apply wq_nonneg]|intros k; apply km_step; exact Hp]. }
    apply (cv_scal_0 _ (/ (lam * (1 - lam)))) in Q. revert Q. apply cv_ext. intros k. field. split; lra. }
  set (d0 := wq (fun i => z O i - p i)).
  assert (B : exists K, forall k i, (i < m)%nat -> Rabs (z k i) <= K).
  { exists (sumn m (fun i => 1 + / w i * d0 + Rabs (p i))). intros k i Hi.
    assert (P0 : forall j, (j < m)%nat -> 0 <= 1 + / w j * d0 + Rabs (p j)) by (intros j Hj; pose proof (Rinv_0_lt_compat _ (Hw j Hj)); pose proof (wq_nonneg (fun i => z O i - p i)) as N; fold d0 in N; pose proof (Rabs_pos (p j)); assert (0 <= / w j * d0) by (apply Rmult_le_pos; lra); lra).
    eapply Rle_trans; [|apply (sumn_ge_term m (fun i => 1 + / w i * d0 + Rabs (p i)) i P0 Hi)].
    pose proof (wq_coord (fun i => z k i - p i) i Hi) as Q. cbv beta in Q. pose proof (km_le p O k Hp ltac:(lia)) as L. fold d0 in L.
    assert (Iw : 0 < / w i) by (apply Rinv_0_lt_compat; apply Hw; exact Hi). assert (Q' : (z k i - p i) * (z k i - p i) <= / w i * d0) by (eapply Rle_trans; [exact Q|]; apply Rmult_le_compat_l; lra).
    pose proof (abs_of_sq (z k i - p i) (/ w i * d0) ltac:(pose proof (Rle_0_sqr (z k i - p i)) as S0; unfold Rsqr in S0; lra) Q') as A.
    replace (z k i) with ((z k i - p i) + p i) by ring. eapply Rle_trans; [apply Rabs_triang|]. lra. }
  destruct B as [K HK]. destruct (bwn m z K HK) as (phi & q & Hphi & Cq).
  assert (Hq : fixed q).
  { intros i Hi. pose proof (nonexp_cv T (fun k => z (phi k)) q HT Cq i Hi) as C1.
    assert (C2 : Un_cv (fun k => T (z (phi k)) i - z (phi k) i) 0).
    { apply (cv_sub (fun k => T (z k) i - z k i) 0 phi); [|exact Hphi]. pose proof (cv_wq (fun k i => T (z k) i - z k i) (fun _ => 0)) as Q. apply Q; [|exact Hi]. revert R0. apply cv_ext. intros k. apply wq_ext. intros; ring. }
    pose proof (CV_minus _ _ _ _ C1 (Cq i Hi)) as C3. pose proof (UL_sequence _ _ _ C2 C3). lra. }
  exists q. split; [exact Hq|]. apply cv_wq. intros e He. pose proof (wq_cv (fun k => z (phi k)) q Cq e He) as [N HN]. exists (phi N). intros k Hk.
  specialize (HN N ltac:(lia)). unfold R_dist in *. rewrite Rminus_0_r in *. rewrite Rabs_pos_eq in * by apply wq_nonneg. eapply Rle_lt_trans; [apply (km_le q (phi N) k Hq Hk)|exact HN].
Qed.
End km.

(** Douglas-Rachford. *)
Section dr.
Variables (F G : vec -> vec) (rlx : R) (z : nat -> vec).
Hypothesis HF : wfirm F.
Hypothesis HG : wfirm G.
Hypothesis Hrlx : 0 < rlx < 2.
Definition refl (w : vec) : vec := fun i => 2 * G w i - w i.
Hypothesis Hz : forall k i, (i < m)%nat -> z (S k) i = z k i + rlx * (F (refl (z k)) i - G (z k) i).
Definition drT (a : vec) : vec := fun i => 2 * F (refl a) i - refl a i.
Lemma dr_nonexp : nonexp drT.
Proof. intros a b. eapply Rle_trans; [apply (firm_reflect F HF (refl a) (refl b))|]. apply (firm_reflect G HG). Qed.
Lemma eq_fixed x u : equilibrium m F G x u -> forall i, (i < m)%nat -> drT (fun j => x j + u j) i = x i + u i.
Proof.
  intros [A B] i Hi. unfold drT.
  assert (R : forall i, (i < m)%nat -> refl (fun j => x j + u j) i = x i - u i) by (intros j Hj; unfold refl; rewrite (B j Hj); ring).
  rewrite (R i Hi). rewrite (nonexp_local F (refl (fun j => x j + u j)) (fun j => x j - u j) (firm_nonexp F HF) R i Hi), (A i Hi). ring.
Qed.
Lemma fixed_eq q : (forall i, (i < m)%nat -> drT q i = q i) -> equilibrium m F G (G q) (fun i => q i - G q i).
Proof.
  intros H. assert (E : forall i, (i < m)%nat -> F (refl q) i = G q i) by (intros i Hi; specialize (H i Hi); unfold drT, refl in H |- *; lra).
  split; intros i Hi.
  - rewrite <- (E i Hi). apply (nonexp_local F); [exact (firm_nonexp F HF)| |exact Hi]. intros j _. unfold refl. ring.
  - apply (nonexp_local G); [exact (firm_nonexp G HG)| |exact Hi]. intros j _. ring.
Qed.
Theorem dr_limit : (exists x u, equilibrium m F G x u) -> exists x u, equilibrium m F G x u /\ forall i, (i < m)%nat ->
  Un_cv (fun k => z k i) (x i + u i) /\ Un_cv (fun k => G (z k) i) (x i) /\ Un_cv (fun k => F (refl (z k)) i) (x i).
Proof.
  intros (x0 & u0 & H0).
  destruct (km drT (rlx / 2) z (fun j => x0 j + u0 j) dr_nonexp ltac:(lra) ltac:(intros k i Hi; rewrite (Hz k i Hi); unfold drT, refl; field) (eq_fixed x0 u0 H0)) as (q & Hq & Cq).
  pose proof (fixed_eq q Hq) as Eq. exists (G q), (fun i => q i - G q i). split; [exact Eq|]. intros i Hi. split; [|split].
  - replace (G q i + (q i - G q i)) with (q i) by ring. apply Cq. exact Hi.
  - apply (nonexp_cv G z q (firm_nonexp G HG) Cq i Hi).
  - destruct Eq as [Ef _]. assert (E : F (refl q) i = G q i) by (specialize (Hq i Hi); unfold drT, refl in Hq |- *; lra). rewrite <- E.
    apply (nonexp_cv F (fun k => refl (z k)) (refl q) (firm_nonexp F HF)); [|exact Hi]. apply (nonexp_cv refl z q (firm_reflect G HG) Cq).
Qed.
End dr.
End weighted.
