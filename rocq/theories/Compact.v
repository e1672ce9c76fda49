(** Compactness in finite dimension: bounded sequences of vectors have convergent subsequences, a Lipschitz function on a box
    attains its minimum, and a coercive one attains it on a closed product set. *)
Require Import Reals Lra Lia Arith Rtopology ConstructiveEpsilon.
Require Import Verif.RVec Verif.AdmmSpec Verif.AdmmConv.
Local Open Scope R_scope.
Local Notation vec := (nat -> R).

Definition increasing (phi : nat -> nat) : Prop := forall k, (phi k < phi (S k))%nat.
Lemma increasing_ge phi : increasing phi -> forall k, (k <= phi k)%nat.
Proof. intros H k. induction k as [|k IH]; [lia|]. specialize (H k). lia. Qed.
Lemma increasing_le phi : increasing phi -> forall j k, (j <= k)%nat -> (phi j <= phi k)%nat.
Proof. intros H j k L. induction L as [|k _ IH]; [lia|]. specialize (H k). lia. Qed.
Lemma increasing_comp p q : increasing p -> increasing q -> increasing (fun k => p (q k)).
Proof.
  intros Hp Hq k. specialize (Hq k). pose proof (increasing_le p Hp (S (q k)) (q (S k)) ltac:(lia)). specialize (Hp (q k)). lia.
Qed.
Lemma cv_sub u l phi : Un_cv u l -> increasing phi -> Un_cv (fun k => u (phi k)) l.
Proof. intros H Hp e He. destruct (H e He) as [N HN]. exists N. intros k Hk. apply HN. pose proof (increasing_ge phi Hp k). lia. Qed.

Section pick.
Variables (u : nat -> R) (l : R).
Hypothesis Ha : forall N e, 0 < e -> exists p, (N <= p)%nat /\ Rabs (u p - l) < e.
Lemma near_dec N n p : {(N <= p)%nat /\ Rabs (u p - l) < / (INR n + 1)} + {~ ((N <= p)%nat /\ Rabs (u p - l) < / (INR n + 1))}.
Proof.
  destruct (le_dec N p) as [A|A]; [|right; tauto]. destruct (Rlt_dec (Rabs (u p - l)) (/ (INR n + 1))) as [B|B]; [left|right]; tauto.
Qed.
Definition pick (N n : nat) : {p | (N <= p)%nat /\ Rabs (u p - l) < / (INR n + 1)}.
Proof.
  apply constructive_indefinite_ground_description_nat; [apply near_dec|]. apply Ha. apply Rinv_0_lt_compat. pose proof (pos_INR n). lra.
Qed.
Fixpoint extract (k : nat) : nat := match k with O => proj1_sig (pick O O) | S j => proj1_sig (pick (S (extract j)) k) end.
Lemma extract_inc : increasing extract.
Proof. intros k. cbn [extract]. pose proof (proj2_sig (pick (S (extract k)) (S k))). cbv beta in *. lia. Qed.
Lemma extract_near k : Rabs (u (extract k) - l) < / (INR k + 1).
Proof. destruct k as [|k]; cbn [extract]; [apply (proj2_sig (pick O O))|apply (proj2_sig (pick (S (extract k)) (S k)))]. Qed.
Lemma extract_cv : Un_cv (fun k => u (extract k)) l.
Proof.
  intros e He. destruct (archimed_cor1 e He) as [N [HN HN0]]. exists N. intros k Hk. unfold R_dist. eapply Rlt_trans; [apply extract_near|].
  eapply Rlt_trans; [|exact HN]. apply Rinv_lt_contravar.
  - apply Rmult_lt_0_compat; [apply lt_0_INR; lia|]. pose proof (pos_INR k). lra.
  - assert (INR N <= INR k) by (apply le_INR; lia). lra.
Qed.
End pick.

Lemma bw1 u K : (forall k, Rabs (u k) <= K) -> exists phi l, increasing phi /\ Un_cv (fun k => u (phi k)) l.
Proof.
  intros H. destruct (Bolzano_Weierstrass u (fun c => - K <= c <= K)) as [l Hl].
  - apply compact_P3.
  - intros k. specialize (H k). pose proof (Rle_abs (u k)). pose proof (Rle_abs (- u k)) as Q. rewrite Rabs_Ropp in Q. lra.
  - assert (Ha : forall N e, 0 < e -> exists p, (N <= p)%nat /\ Rabs (u p - l) < e).
    { intros N e He. destruct (Hl (disc l (mkposreal e He)) N) as [p [H1 H2]].
      - exists (mkposreal e He). intros x Hx. exact Hx.
      - exists p. split; [exact H1|exact H2]. }
    exists (extract u l Ha), l. split; [apply extract_inc|apply extract_cv].
Qed.
(** Bolzano-Weierstrass for the first [n] coordinates. *)
Lemma bwn n (X : nat -> vec) K : (forall k i, (i < n)%nat -> Rabs (X k i) <= K) ->
  exists phi (l : vec), increasing phi /\ forall i, (i < n)%nat -> Un_cv (fun k => X (phi k) i) (l i).
Proof.
  induction n as [|n IH]; intros H.
  - exists (fun k => k), (fun _ => 0). split; [intros k; lia|]. intros; lia.
  - destruct IH as (p & l & Hp & Hl); [intros; apply H; lia|].
    destruct (bw1 (fun k => X (p k) n) K) as (q & a & Hq & Ha); [intros; apply H; lia|].
    exists (fun k => p (q k)), (fun i => if Nat.eqb i n then a else l i). split; [apply increasing_comp; assumption|].
    intros i Hi. destruct (Nat.eqb_spec i n) as [->|N]; [exact Ha|]. apply (cv_sub (fun k => X (p k) i)); [apply Hl; lia|exact Hq].
Qed.

(** Limits of sums and of linear combinations. *)
Lemma cv_const a : Un_cv (fun _ => a) a.
Proof. intros e He. exists O. intros. unfold R_dist. rewrite Rminus_diag_eq by reflexivity. rewrite Rabs_R0. exact He. Qed.
Lemma cv_sumn n (a : nat -> nat -> R) l : (forall i, (i < n)%nat -> Un_cv (fun k => a k i) (l i)) -> Un_cv (fun k => sumn n (a k)) (sumn n l).
Proof.
  induction n as [|n IH]; intros H.
  - exact (cv_const 0).
  - cbn [sumn]. apply CV_plus; [apply IH; intros; apply H; lia|apply H; lia].
Qed.
Lemma cv_dot n (a b : nat -> vec) l m : (forall i, (i < n)%nat -> Un_cv (fun k => a k i) (l i)) -> (forall i, (i < n)%nat -> Un_cv (fun k => b k i) (m i)) ->
  Un_cv (fun k => dot n (a k) (b k)) (dot n l m).
Proof. intros Ha Hb. unfold dot. apply (cv_sumn n (fun k i => a k i * b k i) (fun i => l i * m i)). intros i Hi. apply CV_mult; auto. Qed.
Lemma cv_le a b la lb : (forall k, a k <= b k) -> Un_cv a la -> Un_cv b lb -> la <= lb.
Proof. intros H Ha Hb. exact (Rle_cv_lim H Ha Hb). Qed.
Lemma cv_nrm_coord n (a : nat -> vec) : Un_cv (fun k => nrm n (a k)) 0 -> forall i, (i < n)%nat -> Un_cv (fun k => a k i) 0.
Proof.
  intros H i Hi e He. destruct (H e He) as [N HN]. exists N. intros k Hk. specialize (HN k Hk). unfold R_dist in *. rewrite Rminus_0_r in *.
  rewrite Rabs_pos_eq in HN by apply nrm_nonneg. eapply Rle_lt_trans; [|exact HN]. rewrite <- sqrt_Rsqr_abs. unfold nrm. apply sqrt_le_1; [apply Rle_0_sqr|apply nrm2_nonneg|].
  unfold nrm2, dot, Rsqr. apply (sumn_ge_term n (fun j => a k j * a k j) i); [intros j _; apply Rle_0_sqr|exact Hi].
Qed.
Lemma cv_coord_nrm2 n (a : nat -> vec) l : (forall i, (i < n)%nat -> Un_cv (fun k => a k i) (l i)) -> Un_cv (fun k => nrm2 n (fun i => a k i - l i)) 0.
Proof.
  intros H. replace 0 with (sumn n (fun _ => 0)) by (induction n; cbn [sumn]; [reflexivity|rewrite IHn; [ring|intros; apply H; lia]]).
  unfold nrm2, dot. apply (cv_sumn n (fun k i => (a k i - l i) * (a k i - l i)) (fun _ => 0)). intros i Hi.
  replace 0 with ((l i - l i) * (l i - l i)) by ring. apply CV_mult; apply CV_minus; auto using cv_const.
Qed.

(** ** Minima on boxes *)
Definition box (n : nat) (lo hi : vec) (x : vec) : Prop := forall i, (i < n)%nat -> lo i <= x i <= hi i.
Definition lip (n : nat) (K : R) (P : vec -> Prop) (F : vec -> R) : Prop :=
  forall x y, P x -> P y -> Rabs (F x - F y) <= K * sumn n (fun i => Rabs (x i - y i)).
Definition put (n : nat) (t : R) (x : vec) : vec := fun i => if Nat.eqb i n then t else x i.
Definition clampR (a b t : R) : R := Rmax a (Rmin b t).
Lemma clampR_in a b t : a <= b -> a <= clampR a b t <= b.
Proof. intros H. unfold clampR. split; [apply Rmax_l|]. apply Rmax_lub; [exact H|apply Rmin_l]. Qed.
Lemma clampR_id a b t : a <= t <= b -> clampR a b t = t.
Proof. intros [H1 H2]. unfold clampR. rewrite Rmin_right, Rmax_right by lra. reflexivity. Qed.
Lemma clampR_lip a b t u : a <= b -> Rabs (clampR a b t - clampR a b u) <= Rabs (t - u).
Proof.
  intros H. unfold clampR, Rmax, Rmin. repeat destruct (Rle_dec _ _); unfold Rabs; repeat destruct (Rcase_abs _); lra.
Qed.
Lemma put_box n lo hi t x : box n lo hi x -> lo n <= t <= hi n -> box (S n) lo hi (put n t x).
Proof. intros H Ht i Hi. unfold put. destruct (Nat.eqb_spec i n) as [->|N]; [exact Ht|]. apply H. lia. Qed.
Lemma put_dist n t x y : sumn (S n) (fun i => Rabs (put n t x i - put n t y i)) = sumn n (fun i => Rabs (x i - y i)).
Proof.
  cbn [sumn]. unfold put at 3 4. rewrite Nat.eqb_refl. rewrite Rminus_diag_eq by reflexivity. rewrite Rabs_R0, Rplus_0_r.
  apply sumn_ext. intros i Hi. unfold put. destruct (Nat.eqb_spec i n); [lia|reflexivity].
Qed.
Lemma put_dist2 n t u x : sumn (S n) (fun i => Rabs (put n t x i - put n u x i)) = Rabs (t - u).
Proof.
  cbn [sumn]. unfold put at 3 4. rewrite Nat.eqb_refl. rewrite (sumn_ext n _ (fun _ => 0)).
  - assert (Z : forall k, sumn k (fun _ => 0) = 0) by (intros k; induction k as [|k IH]; cbn [sumn]; [reflexivity|rewrite IH; ring]). rewrite Z. ring.
  - intros i Hi. unfold put. destruct (Nat.eqb_spec i n); [lia|]. rewrite Rminus_diag_eq by reflexivity. apply Rabs_R0.
Qed.
Lemma lip_ext n K lo hi F x y : lip n K (box n lo hi) F -> box n lo hi x -> (forall i, (i < n)%nat -> x i = y i) -> F x = F y.
Proof.
  intros L Hx E. assert (Hy : box n lo hi y) by (intros i Hi; rewrite <- E by exact Hi; apply Hx; exact Hi).
  pose proof (L x y Hx Hy) as Q. rewrite (sumn_ext n _ (fun _ => 0)) in Q.
  - assert (Z : forall k, sumn k (fun _ => 0) = 0) by (intros k; induction k as [|k IH]; cbn [sumn]; [reflexivity|rewrite IH; ring]). rewrite Z, Rmult_0_r in Q.
    pose proof (Rabs_pos (F x - F y)). assert (R0 : Rabs (F x - F y) = 0) by lra. destruct (Req_dec (F x - F y) 0) as [D0|D0]; [lra|]. apply Rabs_no_R0 in D0. contradiction.
  - intros i Hi. rewrite E by exact Hi. rewrite Rminus_diag_eq by reflexivity. apply Rabs_R0.
Qed.

Lemma lipschitz_continuous (m : R -> R) K : 0 <= K -> (forall t u, Rabs (m t - m u) <= K * Rabs (t - u)) -> continuity m.
Proof.
  intros HK H t e He. exists (e / (K + 1)). split; [apply Rdiv_lt_0_compat; lra|]. intros u [_ Hu]. simpl in *. unfold R_dist in *.
  eapply Rle_lt_trans; [apply H|]. apply Rle_lt_trans with (K * (e / (K + 1))); [apply Rmult_le_compat_l; lra|].
  apply (Rmult_lt_reg_r (K + 1)); [lra|]. replace (K * (e / (K + 1)) * (K + 1)) with (K * e) by (field; lra). nra.
Qed.

(** A Lipschitz function on a box attains its minimum. *)
Lemma box_min n : forall lo hi K F, 0 <= K -> (forall i, (i < n)%nat -> lo i <= hi i) -> lip n K (box n lo hi) F -> exists p, argmin (box n lo hi) F p.
Proof.
  induction n as [|n IH]; intros lo hi K F HK Hb L.
  - exists lo. split; [intros i Hi; lia|]. intros x Hx. rewrite (lip_ext O K lo hi F lo x L); [lra| |]; intros i Hi; lia.
  - set (cl := clampR (lo n) (hi n)). assert (Hn : lo n <= hi n) by (apply Hb; lia).
    assert (Hc : forall t, lo n <= cl t <= hi n) by (intros; apply clampR_in; exact Hn).
    assert (Ex : forall t, exists p, argmin (box n lo hi) (fun x => F (put n (cl t) x)) p).
    { intros t. apply (IH lo hi K _ HK); [intros; apply Hb; lia|]. intros x y Hx Hy. rewrite <- (put_dist n (cl t)). apply L; apply put_box; auto. }
    set (V := fun t v => exists x, box n lo hi x /\ v = - F (put n (cl t) x)).
    assert (Bd : forall t, bound (V t)).
    { intros t. destruct (Ex t) as [p [_ Hp]]. exists (- F (put n (cl t) p)). intros v [x [Hx ->]]. specialize (Hp x Hx). lra. }
    assert (Ne : forall t, exists v, V t v).
    { intros t. exists (- F (put n (cl t) lo)). exists lo. split; [|reflexivity]. intros i Hi. split; [lra|apply Hb; lia]. }
    set (m := fun t => - proj1_sig (completeness (V t) (Bd t) (Ne t))).
    assert (Hm : forall t p, argmin (box n lo hi) (fun x => F (put n (cl t) x)) p -> m t = F (put n (cl t) p)).
    { intros t p [Bp Mp]. unfold m. destruct (completeness (V t) (Bd t) (Ne t)) as [s [U1 U2]]. cbn [proj1_sig].
      assert (A1 : - F (put n (cl t) p) <= s) by (apply U1; exists p; split; [exact Bp|reflexivity]).
      assert (A2 : s <= - F (put n (cl t) p)) by (apply U2; intros v [x [Hx ->]]; specialize (Mp x Hx); lra). lra. }
    assert (Lm : forall t u, m t - m u <= K * Rabs (t - u)).
    { intros t u. destruct (Ex t) as [p Hp]. destruct (Ex u) as [q Hq]. rewrite (Hm t p Hp), (Hm u q Hq). destruct Hp as [_ Hp]. destruct Hq as [Bq _]. specialize (Hp q Bq).
      pose proof (L (put n (cl t) q) (put n (cl u) q) (put_box _ _ _ _ _ Bq (Hc t)) (put_box _ _ _ _ _ Bq (Hc u))) as Q. rewrite put_dist2 in Q.
      pose proof (clampR_lip (lo n) (hi n) t u Hn) as Q2. fold cl in Q2. pose proof (Rle_abs (F (put n (cl t) q) - F (put n (cl u) q))).
      assert (K * Rabs (cl t - cl u) <= K * Rabs (t - u)) by (apply Rmult_le_compat_l; assumption). lra. }
    destruct (continuity_ab_min m (lo n) (hi n) Hn) as [t [Ht1 Ht2]].
    { intros c _. apply (lipschitz_continuous m K HK). intros a b. apply Rabs_le. pose proof (Lm a b). pose proof (Lm b a) as Q. rewrite Rabs_minus_sym in Q. lra. }
    destruct (Ex t) as [p Hp]. exists (put n (cl t) p). split; [apply put_box; [apply Hp|apply Hc]|]. rewrite <- (Hm t p Hp). intros x Hx.
    assert (Bx : box n lo hi x) by (intros i Hi; apply Hx; lia). specialize (Ht1 (x n) (Hx n ltac:(lia))).
    destruct (Ex (x n)) as [q Hq]. rewrite (Hm _ q Hq) in Ht1. destruct Hq as [_ Hq]. specialize (Hq x Bx). unfold cl in Hq at 2. rewrite clampR_id in Hq by (apply Hx; lia).
    rewrite (lip_ext (S n) K lo hi F x (put n (x n) x) L Hx); [lra|]. intros i Hi. unfold put. destruct (Nat.eqb_spec i n) as [->|N]; reflexivity.
Qed.
