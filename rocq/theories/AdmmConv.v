(** Convergence of the ADMM iteration: limits along the sequence of iterates. *)
Require Import Reals Lra Lia.
Require Import Verif.RVec Verif.AdmmModel Verif.AdmmSpec Verif.AdmmProofs.
Local Open Scope R_scope.

Lemma squeeze_0 (a b : nat -> R) N : (forall k, (N <= k)%nat -> 0 <= a k <= b k) -> Un_cv b 0 -> Un_cv a 0.
Proof.
  intros H Hb e He. destruct (Hb e He) as [M HM]. exists (Nat.max N M). intros k Hk.
  specialize (HM k ltac:(lia)). specialize (H k ltac:(lia)). unfold R_dist in *. rewrite Rminus_0_r in *.
  rewrite Rabs_pos_eq by lra. rewrite Rabs_pos_eq in HM by lra. lra.
Qed.
Lemma cv_scal_0 a C : Un_cv a 0 -> Un_cv (fun k => C * a k) 0.
Proof. intros H. replace 0 with (C * 0) by ring. apply CV_mult; [|exact H]. intros e He. exists O. intros. unfold R_dist. rewrite Rminus_diag_eq by reflexivity. rewrite Rabs_R0. exact He. Qed.
Lemma cv_plus_0 a b : Un_cv a 0 -> Un_cv b 0 -> Un_cv (fun k => a k + b k) 0.
Proof. intros H1 H2. replace 0 with (0 + 0) by ring. apply CV_plus; assumption. Qed.
Lemma cv_ext a b l : (forall k, a k = b k) -> Un_cv a l -> Un_cv b l.
Proof. intros H Ha e He. destruct (Ha e He) as [N HN]. exists N. intros k Hk. rewrite <- H. apply HN. exact Hk. Qed.
Lemma cv_shift_S a l : Un_cv (fun k => a (S k)) l -> Un_cv a l.
Proof. intros H e He. destruct (H e He) as [N HN]. exists (S N). intros [|k] Hk; [lia|]. apply HN. lia. Qed.
Lemma cv_S a l : Un_cv a l -> Un_cv (fun k => a (S k)) l.
Proof. intros H e He. destruct (H e He) as [N HN]. exists N. intros k Hk. apply HN. lia. Qed.
Lemma cv_sqrt_0 a : (forall k, 0 <= a k) -> Un_cv a 0 -> Un_cv (fun k => sqrt (a k)) 0.
Proof.
  intros Hp H e He. destruct (H (e * e) ltac:(nra)) as [N HN]. exists N. intros k Hk. specialize (HN k Hk). unfold R_dist in *.
  rewrite Rminus_0_r in *. rewrite Rabs_pos_eq by apply sqrt_pos. rewrite Rabs_pos_eq in HN by apply Hp.
  rewrite <- (sqrt_square e) by lra. apply sqrt_lt_1; [apply Hp|nra|exact HN].
Qed.
(** A decreasing Lyapunov function forces the decrements to zero. *)
Lemma decrement_cv (d a : nat -> R) : (forall k, 0 <= d k) -> (forall k, 0 <= a k) -> (forall k, d (S k) + a k <= d k) -> Un_cv a 0.
Proof.
  intros Hd Ha H. destruct (decreasing_cv d) as [l Hl].
  - intros k. specialize (H k). specialize (Ha k). lra.
  - exists 0. intros x [k ->]. unfold opp_seq. specialize (Hd k). lra.
  - apply (squeeze_0 a (fun k => d k - d (S k)) O).
    + intros k _. specialize (H k). specialize (Ha k). lra.
    + replace 0 with (l - l) by ring. apply CV_minus; [exact Hl|apply cv_S; exact Hl].
Qed.

Lemma nrm2_le_nrm n x y : nrm2 n x <= nrm2 n y -> nrm n x <= nrm n y.
Proof. intros H. unfold nrm. apply sqrt_le_1; [apply nrm2_nonneg|apply nrm2_nonneg|exact H]. Qed.
Lemma nrm_sub_le n x y z : nrm n (fun i => x i - z i) <= nrm n (fun i => x i - y i) + nrm n (fun i => y i - z i).
Proof.
  rewrite (nrm_ext n (fun i => x i - z i) (vadd (fun i => x i - y i) (fun i => y i - z i))) by (intros; unfold vadd; ring).
  apply nrm_triang.
Qed.

Section seq.
Variables (m : nat) (A B : (nat -> R) -> nat -> R) (c : nat -> R) (rlx rho : R).
Variables (D E : (nat -> R) -> Prop) (f g : (nat -> R) -> R).
Variables (xstep ystep : (nat -> R) -> (nat -> R) -> nat -> R).
Hypothesis HA : affine m A.
Hypothesis HB : affine m B.
Hypothesis Hf : convex_on D f.
Hypothesis Hg : convex_on E g.
Hypothesis Hrho : 0 < rho.
Hypothesis HX : forall y u, argmin D (fun x => auglag m A B c rho f g x y u) (xstep y u).
Hypothesis HY : forall ax u, argmin E (fun y => auglag m (fun _ => ax) B c rho (fun _ => 0) g ax y u) (ystep ax u).

Lemma HX' y u : argmin D (fun x => f x + rho / 2 * nrm2 m (fun i => A x i + (B y i - c i + u i))) (xstep y u).
Proof.
  destruct (HX y u) as [H1 H2]. split; [exact H1|]. intros x Hx. specialize (H2 x Hx). unfold auglag in H2.
  rewrite (nrm2_ext m (fun i => A (xstep y u) i + (B y i - c i + u i)) (fun i => A (xstep y u) i + B y i - c i + u i)) by (intros; ring).
  rewrite (nrm2_ext m (fun i => A x i + (B y i - c i + u i)) (fun i => A x i + B y i - c i + u i)) by (intros; ring). lra.
Qed.
Lemma HY' ax u : argmin E (fun v => g v + rho / 2 * nrm2 m (fun i => B v i + (ax i - c i + u i))) (ystep ax u).
Proof.
  destruct (HY ax u) as [H1 H2]. split; [exact H1|]. intros v Hv. specialize (H2 v Hv). unfold auglag in H2.
  rewrite (nrm2_ext m (fun i => B (ystep ax u) i + (ax i - c i + u i)) (fun i => ax i + B (ystep ax u) i - c i + u i)) by (intros; ring).
  rewrite (nrm2_ext m (fun i => B v i + (ax i - c i + u i)) (fun i => ax i + B v i - c i + u i)) by (intros; ring). lra.
Qed.

Variable st : state.
Definition it (k : nat) : state := iterate A B c rlx xstep ystep k st.
Definition AXk (k : nat) : nat -> R := relax_AX A B c rlx (sX (it (S k))) (sY (it k)).
Lemma it_x k : argmin D (fun x => f x + rho / 2 * nrm2 m (fun i => A x i + (B (sY (it k)) i - c i + sU (it k) i))) (sX (it (S k))).
Proof. apply HX'. Qed.
Lemma it_ax k i : AXk k i = rlx * A (sX (it (S k))) i - (1 - rlx) * (B (sY (it k)) i - c i).
Proof. apply relax_eq. Qed.
Lemma it_y k : argmin E (fun v => g v + rho / 2 * nrm2 m (fun i => B v i + (AXk k i - c i + sU (it k) i))) (sY (it (S k))).
Proof. apply HY'. Qed.
Lemma it_u k i : sU (it (S k)) i = sU (it k) i + (AXk k i + B (sY (it (S k))) i - c i).
Proof. reflexivity. Qed.

(** Optimality of y left by an iteration. *)
Lemma it_vi k : E (sY (it (S k))) /\ forall v, E v -> 0 <= g v - g (sY (it (S k))) + rho * dot m (sU (it (S k))) (fun i => B v i - B (sY (it (S k))) i).
Proof.
  split; [apply it_y|]. intros v Hv. apply (y_vi m B c rho E g HB Hg Hrho (sY (it (S k))) (sU (it k)) (sU (it (S k))) (AXk k)); [apply it_y|intros; apply it_u|exact Hv].
Qed.

Section saddle_.
Variables xs ys us : nat -> R.
Hypothesis Hs : saddle m A B c rho D E f g xs ys us.

Definition dyu (k : nat) : R := nrm2 m (fun i => sU (it k) i - us i) + nrm2 m (fun i => B (sY (it k)) i - B ys i).
Definition dz (k : nat) : R := nrm2 m (fun i => (sU (it k) i - (B (sY (it k)) i - c i)) - (us i - (B ys i - c i))).
Definition mid (k : nat) : nat -> R := gap A B c (sX (it (S k))) (sY (it k)).
Definition pri (k : nat) : nat -> R := gap A B c (sX (it k)) (sY (it k)).
Definition dy (k : nat) : nat -> R := fun i => B (sY (it (S k))) i - B (sY (it k)) i.

Lemma dyu_step k : rlx = 1 -> dyu (S k) + nrm2 m (fun i => pri (S k) i - dy k i) <= dyu k.
Proof.
  intros Hr. apply (lyapunov m A B c rlx rho D E f g HA HB Hf Hg Hrho _ _ _ _ _ (AXk k) (it_x k) (fun i _ => it_ax k i) (it_y k) (fun i _ => it_u k i) xs ys us Hr Hs).
Qed.
Lemma dz_step k : 0 <= rlx -> dz (S (S k)) + rlx * (2 - rlx) * nrm2 m (mid (S k)) <= dz (S k).
Proof.
  intros Hr. destruct (it_vi k) as [Ey Vy].
  apply (fejer_relaxed m A B c rlx rho D E f g HA Hf Hrho _ _ _ _ _ (AXk (S k)) (it_x (S k)) (fun i _ => it_ax (S k) i) (fun i _ => it_u (S k) i) xs ys us Hr Hs Ey Vy).
Qed.
Lemma dy_bound k : nrm2 m (dy (S k)) + nrm2 m (fun i => sU (it (S (S k))) i - sU (it (S k)) i) <= rlx * rlx * nrm2 m (mid (S k)).
Proof.
  destruct (it_vi k) as [Ey Vy].
  apply (step_bound m A B c rlx rho E g HB Hg Hrho _ _ _ _ _ (AXk (S k)) (fun i _ => it_ax (S k) i) (it_y (S k)) (fun i _ => it_u (S k) i) Ey Vy).
Qed.
Lemma bound_dz k : nrm2 m (fun i => sU (it (S k)) i - us i) + nrm2 m (fun i => B (sY (it (S k))) i - B ys i) <= dz (S k).
Proof.
  destruct (it_vi k) as [Ey Vy]. destruct Hs as [(Sx & Sy & Sg) Hm]. specialize (Vy ys Sy). specialize (Hm xs (sY (it (S k))) Sx Ey).
  set (y := sY (it (S k))) in *. set (u := sU (it (S k))) in *. set (q := fun i => B y i - B ys i) in *. set (w := fun i => u i - us i).
  assert (E1 : dot m us (gap A B c xs y) = dot m us q).
  { apply dot_ext; [reflexivity|]. intros i Hi. pose proof (Sg i Hi) as Gi. unfold gap, q in *. lra. }
  assert (E2 : dot m u (fun i => B ys i - B y i) = - dot m u q).
  { unfold dot. rewrite <- sumn_opp. apply sumn_ext. intros. unfold q. ring. }
  assert (S : 0 <= - dot m w q).
  { apply (Rmult_le_reg_l rho); [exact Hrho|]. assert (E3 : dot m w q = dot m u q - dot m us q) by apply dot_sub_l. rewrite E1 in Hm. rewrite E2 in Vy. rewrite E3. nra. }
  unfold dz. fold y u. rewrite (nrm2_ext m (fun i => u i - (B y i - c i) - (us i - (B ys i - c i))) (vsub w q)) by (intros; unfold vsub, w, q; ring).
  rewrite nrm2_sub. lra.
Qed.

Hypothesis Hrlx : 0 < rlx < 2.
Lemma mid_cv : Un_cv (fun k => nrm2 m (mid k)) 0.
Proof.
  apply cv_shift_S.
  assert (P : 0 < rlx * (2 - rlx)) by nra.
  assert (C : Un_cv (fun k => rlx * (2 - rlx) * nrm2 m (mid (S k))) 0).
  { apply (decrement_cv (fun k => dz (S k))).
    - intros. apply nrm2_nonneg.
    - intros. pose proof (nrm2_nonneg m (mid (S k))). nra.
    - intros. apply dz_step. lra. }
  apply (cv_scal_0 _ (/ (rlx * (2 - rlx)))) in C. revert C. apply cv_ext. intros. field. lra.
Qed.
Lemma dy_cv : Un_cv (fun k => nrm2 m (dy k)) 0 /\ Un_cv (fun k => nrm2 m (fun i => sU (it (S k)) i - sU (it k) i)) 0.
Proof.
  assert (M : Un_cv (fun k => rlx * rlx * nrm2 m (mid (S k))) 0) by (apply cv_scal_0; apply (cv_S _ _ mid_cv)).
  split; apply cv_shift_S; (apply (squeeze_0 _ (fun k => rlx * rlx * nrm2 m (mid (S k))) O); [|exact M]); intros k _;
    pose proof (dy_bound k) as H; pose proof (nrm2_nonneg m (dy (S k))); pose proof (nrm2_nonneg m (fun i => sU (it (S (S k))) i - sU (it (S k)) i)); lra.
Qed.
Lemma pri_cv : Un_cv (fun k => nrm m (pri k)) 0.
Proof.
  apply cv_shift_S. apply (squeeze_0 _ (fun k => nrm m (mid k) + nrm m (dy k)) O).
  - intros k _. split; [apply nrm_nonneg|].
    rewrite (nrm_ext m (pri (S k)) (vadd (mid k) (dy k))) by (intros; unfold vadd, pri, mid, dy, gap; ring). apply nrm_triang.
  - apply cv_plus_0; apply cv_sqrt_0; try (intros; apply nrm2_nonneg); [apply mid_cv|apply dy_cv].
Qed.

Lemma dz_bounded k : dz (S k) <= dz 1.
Proof.
  induction k as [|k IH]; [lra|]. pose proof (dz_step k ltac:(lra)). pose proof (nrm2_nonneg m (mid (S k))). assert (0 < rlx * (2 - rlx)) by nra. nra.
Qed.
Lemma objective_cv : Un_cv (fun k => f (sX (it k)) + g (sY (it k))) (f xs + g ys).
Proof.
  set (K := nrm m (fun i => us i) + sqrt (dz 1)).
  assert (Bq : forall k, nrm m (fun i => B (sY (it (S k))) i - B ys i) <= sqrt (dz 1)).
  { intros k. unfold nrm. apply sqrt_le_1; [apply nrm2_nonneg|apply nrm2_nonneg|]. pose proof (bound_dz k). pose proof (dz_bounded k).
    pose proof (nrm2_nonneg m (fun i => sU (it (S k)) i - us i)). lra. }
  assert (Bu : forall k, nrm m (sU (it (S k))) <= K).
  { intros k. rewrite (nrm_ext m _ (vadd us (fun i => sU (it (S k)) i - us i))) by (intros; unfold vadd; ring). eapply Rle_trans; [apply nrm_triang|].
    unfold K. apply Rplus_le_compat_l. unfold nrm. apply sqrt_le_1; [apply nrm2_nonneg|apply nrm2_nonneg|].
    pose proof (bound_dz k). pose proof (dz_bounded k). pose proof (nrm2_nonneg m (fun i => B (sY (it (S k))) i - B ys i)). lra. }
  (* bound on the gap of step k+2 *)
  set (bd := fun k => rho * (nrm m us * nrm m (pri (S (S k))) + ((nrm m (mid (S k)) + K) * nrm m (pri (S (S k))) +
     (nrm m (mid (S k)) + nrm m (fun i => sU (it (S (S k))) i - sU (it (S k)) i)) * sqrt (dz 1)))).
  assert (Hb : forall k, Rabs (f (sX (it (S (S k)))) + g (sY (it (S (S k)))) - (f xs + g ys)) <= bd k).
  { intros k. set (x' := sX (it (S (S k)))). set (y' := sY (it (S (S k)))). set (u' := sU (it (S (S k)))). set (u := sU (it (S k))).
    pose proof (objective_upper m A B c rho D E f g HA HB Hf Hg Hrho _ _ _ _ _ (AXk (S k)) (it_x (S k)) (it_y (S k)) (fun i _ => it_u (S k) i) xs ys us Hs) as Up.
    pose proof (objective_lower m A B c rho D E f g _ _ _ _ (AXk (S k)) (it_x (S k)) (it_y (S k)) xs ys us Hs) as Lo.
    fold x' y' u' u in Up, Lo. change (gap A B c x' y') with (pri (S (S k))) in Lo. set (p := pri (S (S k))) in *.
    change (gap A B c x' (sY (it (S k)))) with (mid (S k)) in Up. set (r := mid (S k)) in *.
    destruct Hs as [(Sx & Sy & Sg) _]. set (q := fun i => B y' i - B ys i).
    assert (EU : dot m (fun i => r i + u i) (fun i => A xs i - A x' i) + dot m u' (fun i => B ys i - B y' i) =
      - dot m (vadd r u) p + dot m (vsub r (fun i => u' i - u i)) q).
    { unfold dot. rewrite <- !sumn_opp, <- !sumn_plus. apply sumn_ext. intros i Hi.
      assert (E3 : A xs i - A x' i = - p i + q i) by (pose proof (Sg i Hi) as Gi; unfold p, pri, q, x', y', gap in *; lra).
      rewrite E3. unfold vadd, vsub, q. ring. }
    change (dot m (fun i => mid (S k) i + u i)) with (dot m (fun i => r i + u i)) in Up. rewrite EU in Up.
    pose proof (cauchy_schwarz m (vadd r u) p) as C1. pose proof (cauchy_schwarz m (vsub r (fun i => u' i - u i)) q) as C2.
    pose proof (cauchy_schwarz m us p) as C3.
    assert (N1 : nrm m (vadd r u) <= nrm m r + K) by (eapply Rle_trans; [apply nrm_triang|]; apply Rplus_le_compat_l; apply Bu).
    assert (N2 : nrm m (vsub r (fun i => u' i - u i)) <= nrm m r + nrm m (fun i => u' i - u i)).
    { rewrite (nrm_ext m _ (vadd r (vscal (-1) (fun i => u' i - u i)))) by (intros; unfold vadd, vsub, vscal; ring).
      eapply Rle_trans; [apply nrm_triang|]. rewrite nrm_scal. replace (Rabs (-1)) with 1 by (rewrite Rabs_left; lra). lra. }
    assert (N3 : nrm m q <= sqrt (dz 1)) by apply (Bq (S k)).
    pose proof (nrm_nonneg m p). pose proof (nrm_nonneg m q). pose proof (nrm_nonneg m r). pose proof (nrm_nonneg m us). pose proof (nrm_nonneg m (fun i => u' i - u i)).
    assert (Q1 : nrm m (vadd r u) * nrm m p <= (nrm m r + K) * nrm m p) by (apply Rmult_le_compat_r; assumption).
    assert (Q2 : nrm m (vsub r (fun i => u' i - u i)) * nrm m q <= (nrm m r + nrm m (fun i => u' i - u i)) * sqrt (dz 1)).
    { apply Rmult_le_compat; [apply nrm_nonneg|assumption|assumption|assumption]. }
    assert (Q0 : 0 <= nrm m us * nrm m p) by (apply Rmult_le_pos; assumption).
    pose proof (nrm_nonneg m (vadd r u)). pose proof (nrm_nonneg m (vsub r (fun i => u' i - u i))).
    assert (Q3 : 0 <= nrm m (vadd r u) * nrm m p) by (apply Rmult_le_pos; assumption).
    assert (Q4 : 0 <= nrm m (vsub r (fun i => u' i - u i)) * nrm m q) by (apply Rmult_le_pos; assumption).
    apply Rabs_le. unfold bd. fold p r u u'.
    set (a1 := dot m (vadd r u) p) in *. set (a2 := dot m (vsub r (fun i => u' i - u i)) q) in *. set (a3 := dot m us p) in *.
    pose proof (Rle_abs a1). pose proof (Rle_abs a2). pose proof (Rle_abs a3). pose proof (Rle_abs (- a1)) as F1. rewrite Rabs_Ropp in F1.
    split.
    - apply Rle_trans with (- rho * a3); [|exact Lo]. rewrite Ropp_mult_distr_l_reverse. apply Ropp_le_contravar. apply Rmult_le_compat_l; [lra|]. lra.
    - eapply Rle_trans; [exact Up|]. apply Rmult_le_compat_l; [lra|]. lra. }
  assert (Cb : Un_cv bd 0).
  { unfold bd. apply cv_scal_0.
    assert (Cp : Un_cv (fun k => nrm m (pri (S (S k)))) 0) by (apply (cv_S (fun k => nrm m (pri (S k)))); apply (cv_S (fun k => nrm m (pri k))); apply pri_cv).
    assert (Cm : Un_cv (fun k => nrm m (mid (S k))) 0) by (apply (cv_S (fun k => nrm m (mid k))); apply cv_sqrt_0; [intros; apply nrm2_nonneg|apply mid_cv]).
    assert (Cu : Un_cv (fun k => nrm m (fun i => sU (it (S (S k))) i - sU (it (S k)) i)) 0).
    { apply (cv_S (fun k => nrm m (fun i => sU (it (S k)) i - sU (it k) i))). apply cv_sqrt_0; [intros; apply nrm2_nonneg|apply dy_cv]. }
    apply cv_plus_0; [apply cv_scal_0; exact Cp|]. apply cv_plus_0.
    - assert (C1 : Un_cv (fun k => nrm m (mid (S k)) * nrm m (pri (S (S k)))) 0) by (replace 0 with (0 * 0) by ring; apply CV_mult; assumption).
      assert (C2 : Un_cv (fun k => K * nrm m (pri (S (S k)))) 0) by (apply cv_scal_0; exact Cp).
      generalize (cv_plus_0 _ _ C1 C2). apply cv_ext. intros. ring.
    - generalize (cv_scal_0 _ (sqrt (dz 1)) (cv_plus_0 _ _ Cm Cu)). apply cv_ext. intros. ring. }
  apply cv_shift_S, cv_shift_S. intros e He. destruct (Cb e He) as [N HN]. exists N. intros k Hk. specialize (HN k Hk). unfold R_dist in *.
  rewrite Rminus_0_r in HN. eapply Rle_lt_trans; [apply Hb|]. eapply Rle_lt_trans; [apply Rle_abs|exact HN].
Qed.
End saddle_.
End seq.
