(** Proofs for PgmModel: descent lemma, proximal gradient inequality, line searches, accelerated rates. *)
Require Import Reals Lra Lia List Bool FunctionalExtensionality.
Require Import Verif.RVec Verif.ProxModel Verif.ProxSpec Verif.ProxProofs Verif.AdmmSpec Verif.AdmmProofs Verif.PgmModel Verif.PgmSpec.
Local Open Scope R_scope.

Lemma gradient_at n f grad x d s : is_gradient n f grad ->
  derivable_pt_lim (fun t => f (fun i => x i + t * d i)) s (dot n (grad (fun i => x i + s * d i)) d).
Proof.
  intros H eps He. destruct (H (fun i => x i + s * d i) d eps He) as [delta Hd]. exists delta. intros h Hh Hl.
  specialize (Hd h Hh Hl). cbv beta in Hd.
  replace (f (fun i => x i + s * d i + (0 + h) * d i)) with (f (fun i => x i + (s + h) * d i)) in Hd by (f_equal; extensionality i; ring).
  replace (f (fun i => x i + s * d i + 0 * d i)) with (f (fun i => x i + s * d i)) in Hd by (f_equal; extensionality i; ring).
  exact Hd.
Qed.
Lemma descent n f grad Lf : is_gradient n f grad -> lipschitz n grad Lf -> forall x y, majorises n f grad Lf x y.
Proof.
  intros Hg Hl x y. set (d := fun i => x i - y i). set (c0 := dot n (grad y) d). set (q := nrm2 n d).
  destruct (MVT_cor2 (fun t => f (fun i => y i + t * d i) - c0 * t - Lf / 2 * q * (t * t)) (fun t => dot n (grad (fun i => y i + t * d i)) d - c0 * 1 - Lf / 2 * q * (1 * t + t * 1)) 0 1 ltac:(lra)) as (c & Hc & Hb).
  - intros t Ht. apply derivable_pt_lim_minus with (f1 := fun t => f (fun i => y i + t * d i) - c0 * t) (f2 := fun t => Lf / 2 * q * (t * t)).
    + apply derivable_pt_lim_minus with (f1 := fun t => f (fun i => y i + t * d i)) (f2 := fun t => c0 * t).
      * apply gradient_at. exact Hg.
      * apply derivable_pt_lim_scal with (f := fun t => t). apply derivable_pt_lim_id.
    + apply derivable_pt_lim_scal with (f := fun t => t * t). apply derivable_pt_lim_mult with (f1 := fun t => t) (f2 := fun t => t); apply derivable_pt_lim_id.
  - assert (E1 : f (fun i => y i + 1 * d i) = f x) by (f_equal; extensionality i; unfold d; ring).
    assert (E0 : f (fun i => y i + 0 * d i) = f y) by (f_equal; extensionality i; unfold d; ring).
    rewrite E1, E0 in Hc. unfold majorises. fold d c0 q.
    assert (B : dot n (grad (fun i => y i + c * d i)) d - c0 <= Lf * c * q).
    { assert (E : dot n (grad (fun i => y i + c * d i)) d - c0 = dot n (fun i => grad (fun i => y i + c * d i) i - grad y i) d).
      { unfold c0, dot. rewrite <- sumn_minus. apply sumn_ext. intros. ring. }
      rewrite E. eapply Rle_trans; [apply dot_le|]. specialize (Hl (fun i => y i + c * d i) y).
      assert (E2 : nrm n (fun i => y i + c * d i - y i) = c * nrm n d).
      { rewrite (nrm_ext n _ (vscal c d)) by (intros; unfold vscal; ring). rewrite nrm_scal, Rabs_pos_eq by lra. reflexivity. }
      cbv beta in Hl. rewrite E2 in Hl. apply (Rmult_le_compat_r (nrm n d)) in Hl; [|apply nrm_nonneg]. unfold q. rewrite <- nrm_sqr. lra. }
    nra.
Qed.
Lemma gradient_below n f grad : convex_on (fun _ => True) f -> is_gradient n f grad ->
  forall x u, f x + dot n (grad x) (fun i => u i - x i) <= f u.
Proof.
  intros Hc Hg x u. set (l := dot n (grad x) (fun i => u i - x i)). apply Rnot_lt_le. intros Hlt.
  destruct (Hg x (fun i => u i - x i) ((f x + l - f u) / 2) ltac:(lra)) as [delta Hd]. fold l in Hd.
  pose proof (cond_pos delta) as Dp. set (h := Rmin (delta / 2) 1).
  assert (Hh : 0 < h <= 1 /\ h < delta).
  { unfold h. pose proof (Rmin_l (delta / 2) 1). pose proof (Rmin_r (delta / 2) 1). pose proof (Rmin_glb_lt (delta / 2) 1 0 ltac:(lra) ltac:(lra)). lra. }
  specialize (Hd h ltac:(lra) ltac:(rewrite Rabs_pos_eq; lra)). cbv beta in Hd.
  replace (f (fun i => x i + 0 * (u i - x i))) with (f x) in Hd by (f_equal; extensionality i; ring).
  destruct (Hc x u h I I ltac:(lra)) as [_ C]. change (f (seg x u h)) with (f (fun i => x i + h * (u i - x i))) in C.
  replace (f (fun i => x i + (0 + h) * (u i - x i))) with (f (fun i => x i + h * (u i - x i))) in Hd by (f_equal; extensionality i; ring).
  set (fh := f (fun i => x i + h * (u i - x i))) in *. apply Rabs_def2 in Hd. destruct Hd as [_ Hd].
  assert (K : (fh - f x) / h <= f u - f x).
  { apply (Rmult_le_reg_r h); [lra|]. unfold Rdiv. rewrite Rmult_assoc, Rinv_l, Rmult_1_r by lra. lra. }
  lra.
Qed.

(** ** The proximal gradient inequality *)
Section key.
Variables (n : nat) (E : vec -> Prop) (f g : vec -> R) (grad : vec -> vec) (prox_g : R -> vec -> vec).
Hypothesis Cf : convex_on (fun _ => True) f.
Hypothesis Gf : is_gradient n f grad.
Hypothesis Cg : convex_on E g.
Hypothesis Hprox : forall L V, 0 < L -> argmin E (fun x => g x + L / 2 * nrm2 n (fun i => x i - V i)) (prox_g L V).
Let F x := f x + g x.
Definition pstep (L : R) (y : vec) : vec := prox_g L (fun i => y i - 1 / L * grad y i).
Lemma pstep_in L y : 0 < L -> E (pstep L y).
Proof. intros HL. apply (Hprox L _ HL). Qed.
Lemma pstep_vi L y u : 0 < L -> E u ->
  0 <= g u - g (pstep L y) + L * dot n (fun i => pstep L y i - y i) (fun i => u i - pstep L y i) + dot n (grad y) (fun i => u i - pstep L y i).
Proof.
  intros HL Hu. set (p := pstep L y). set (V := fun i => y i - 1 / L * grad y i).
  assert (Af : affine n (fun z : vec => z)) by (intros a b t i _; reflexivity).
  pose proof (argmin_vi n E g (fun z : vec => z) (fun i => - V i) L p Cg Af ltac:(lra) (Hprox L V HL) u Hu) as H. cbv beta in H.
  assert (Q : L * dot n (fun i => p i + - V i) (fun i => u i - p i) = L * dot n (fun i => p i - y i) (fun i => u i - p i) + dot n (grad y) (fun i => u i - p i)).
  { unfold dot. rewrite <- !sumn_scal, <- sumn_plus. apply sumn_ext. intros i _. unfold V. field. lra. }
  lra.
Qed.
Lemma key_ineq L y u : 0 < L -> E u -> majorises n f grad L (pstep L y) y ->
  F (pstep L y) + L * dot n (fun i => y i - pstep L y i) (fun i => u i - y i) + L / 2 * nrm2 n (fun i => y i - pstep L y i) <= F u.
Proof.
  intros HL Hu Hm. pose proof (pstep_vi L y u HL Hu) as V. set (p := pstep L y) in *.
  pose proof (gradient_below n f grad Cf Gf y u) as B. unfold majorises in Hm.
  assert (Q1 : dot n (grad y) (fun i => u i - p i) = dot n (grad y) (fun i => u i - y i) - dot n (grad y) (fun i => p i - y i)).
  { unfold dot. rewrite <- sumn_minus. apply sumn_ext. intros. ring. }
  assert (Q2 : dot n (fun i => p i - y i) (fun i => u i - p i) = - dot n (fun i => y i - p i) (fun i => u i - y i) - nrm2 n (fun i => p i - y i)).
  { unfold nrm2, dot. rewrite <- sumn_opp, <- sumn_minus. apply sumn_ext. intros. ring. }
  assert (Q3 : nrm2 n (fun i => y i - p i) = nrm2 n (fun i => p i - y i)) by (unfold nrm2, dot; apply sumn_ext; intros; ring).
  unfold F. rewrite Q3. rewrite Q1, Q2 in V. lra.
Qed.
End key.

Lemma sqrt_sq_sum n d : sqrt (sumn n (fun i => d i * d i)) ^ 2 = nrm2 n d.
Proof. change (sumn n (fun i => d i * d i)) with (nrm2 n d). rewrite <- Rsqr_pow2. apply Rsqr_sqrt, nrm2_nonneg. Qed.
Lemma quad_spec n f s G : quad n f s G = f (pY s) + dot n G (fun i => pX s i - pY s i) + pL s / 2 * nrm2 n (fun i => pX s i - pY s i).
Proof. unfold quad. rewrite sqrt_sq_sum. f_equal. f_equal. unfold dot. apply sumn_ext. intros. ring. Qed.

(** ** Line searches *)
Section search.
Variables (n : nat) (f g : vec -> R) (grad hess : vec -> vec) (prox_g : R -> vec -> vec) (mono fast : bool) (mom : momentum).
Notation XS := (xstep n f g hess prox_g mono).
Notation cand s G := (prox_g (pL s) (fun i => pY s i - 1 / pL s * G i)).
Lemma xstep_frame s G : ppol s = NoPolicy ->
  pY (XS s G) = pY s /\ pXprv (XS s G) = pXprv s /\ pL (XS s G) = pL s /\ pt (XS s G) = pt s /\ pk (XS s G) = pk s /\ pbt (XS s G) = pbt s /\ ppol (XS s G) = NoPolicy /\
  pobjprev (XS s G) = pobjprev s /\ pYprv (XS s G) = pYprv s.
Proof.
  intros Hp. unfold xstep, policy_step. rewrite Hp. destruct (mono && Nat.ltb 0 (pk s))%bool; [destruct (ltb _ _)|]; cbn; repeat split; reflexivity.
Qed.
Lemma xstep_X s G : ppol s = NoPolicy ->
  pX (XS s G) = cand s G \/
  (mono = true /\ (0 < pk s)%nat /\ pX (XS s G) = pXprv s /\ pobjprev s < f (cand s G) + g (cand s G)).
Proof.
  intros Hp. unfold xstep, policy_step. rewrite Hp. destruct mono; cbn [andb]; [|left; reflexivity].
  destruct (Nat.ltb_spec 0 (pk s)); cbn; [|left; reflexivity]. destruct (ltb _ _) eqn:Et; cbn; [|left; reflexivity].
  right. apply ltb_true in Et. repeat split; assumption.
Qed.
(** States that differ in L and in the outcome of trials only. *)
Definition same_trial (s s' : pstate) : Prop :=
  pY s' = pY s /\ pXprv s' = pXprv s /\ pt s' = pt s /\ pk s' = pk s /\ pbt s' = pbt s /\ ppol s' = NoPolicy /\ pobjprev s' = pobjprev s /\ pYprv s' = pYprv s.
Lemma std_loop_spec gu G : forall m it last s s' last' it', 1 <= gu -> 0 < pL s -> ppol s = NoPolicy ->
  std_loop n f g hess prox_g mono gu G m it last s = (s', last', it') ->
  (it <= it' <= it + m)%nat /\ same_trial s s' /\ pL s <= pL s' /\
  match last' with
  | None => m = O /\ last = None
  | Some (fv, Q) => (m = O /\ s' = s /\ last = Some (fv, Q) /\ it' = it) \/
     ((it < it')%nat /\ exists s0 L0, same_trial s s0 /\ pL s0 = L0 /\ s' = (if Rle_dec fv Q then XS s0 G else setL (XS s0 G) (L0 * gu)) /\
       fv = f (pX (XS s0 G)) /\ Q = quad n f (XS s0 G) G /\ pL s <= L0 /\ (fv <= Q \/ it' = (it + m)%nat))
  end /\
  (forall Lf, (forall L x, Lf <= L -> f x <= f (pY s) + dot n G (fun i => x i - pY s i) + L / 2 * nrm2 n (fun i => x i - pY s i)) -> pL s' <= Rmax (pL s) (gu * Lf)) /\
  (forall Lf fv Q, (forall L x, Lf <= L -> f x <= f (pY s) + dot n G (fun i => x i - pY s i) + L / 2 * nrm2 n (fun i => x i - pY s i)) -> (0 < m)%nat -> Lf <= pL s * gu ^ (m - 1) ->
     last' = Some (fv, Q) -> fv <= Q).
Proof.
  induction m as [|m IH]; intros it last s s' last' it' Hgu HL Hp.
  - cbn. intros [= <- <- <-]. split; [lia|]. split; [unfold same_trial; tauto|]. split; [lra|]. split; [|split].
    + destruct last as [[fv Q]|]; [left; repeat split|]; tauto.
    + intros Lf _. apply Rmax_l.
    + intros. lia.
  - cbn [std_loop]. destruct (xstep_frame s G Hp) as (F1 & F2 & F3 & F4 & F5 & F6 & F7 & F8 & F9).
    set (s1 := XS s G) in *. destruct (leb (f (pX s1)) (quad n f s1 G)) eqn:El.
    + intros [= <- <- <-]. apply leb_true in El. split; [lia|]. split; [unfold same_trial; tauto|]. split; [lra|]. split; [|split].
      * right. split; [lia|]. exists s, (pL s). split; [unfold same_trial; tauto|]. split; [reflexivity|]. fold s1.
        destruct (Rle_dec (f (pX s1)) (quad n f s1 G)); [|contradiction]. split; [reflexivity|]. split; [reflexivity|]. split; [reflexivity|]. split; [lra|]. left. exact El.
      * intros Lf _. rewrite F3. apply Rmax_l.
      * intros Lf fv Q _ _ _ [= <- <-]. exact El.
    + apply leb_false in El. intros Hloop. set (s2 := setL s1 (pL s1 * gu)) in *.
      assert (HL2 : pL s <= pL s2) by (cbn; rewrite F3; nra).
      assert (Hp2 : ppol s2 = NoPolicy) by exact F7.
      assert (S2 : same_trial s s2) by (unfold same_trial; cbn; tauto).
      destruct (IH (S it) _ s2 s' last' it' Hgu ltac:(lra) Hp2 Hloop) as (I1 & I2 & I3 & I4 & I5 & I6).
      assert (ST : forall s0, same_trial s2 s0 -> same_trial s s0).
      { intros s0 (T1 & T2 & T3 & T4 & T5 & T6 & T7 & T8). destruct S2 as (U1 & U2 & U3 & U4 & U5 & U6 & U7 & U8). unfold same_trial. rewrite T1, T2, T3, T4, T5, T7, T8. tauto. }
      split; [lia|]. split; [apply ST; exact I2|]. split; [lra|]. split; [|split].
      * destruct last' as [[fv Q]|]; [|destruct I4 as [_ I4]; discriminate I4].
        destruct I4 as [(M0 & -> & [= <- <-] & ->)|(J1 & s0 & L0 & J2 & J3 & J4 & J5 & J6 & J7 & J8)].
        -- right. split; [lia|]. exists s, (pL s). split; [unfold same_trial; tauto|]. split; [reflexivity|]. fold s1.
           destruct (Rle_dec (f (pX s1)) (quad n f s1 G)); [lra|]. unfold s2. rewrite F3. repeat split; try lra. right. lia.
        -- right. split; [lia|]. exists s0, L0. split; [apply ST; exact J2|]. split; [exact J3|]. split; [exact J4|]. split; [exact J5|]. split; [exact J6|]. split; [lra|].
           destruct J8 as [J8|J8]; [left; exact J8|right; lia].
      * intros Lf HLf. assert (Y2 : pY s2 = pY s) by exact F1. specialize (I5 Lf). rewrite Y2 in I5. specialize (I5 HLf).
        assert (Hlt : pL s < Lf).
        { apply Rnot_le_lt. intros K. pose proof (HLf (pL s) (pX s1) K) as Q. rewrite quad_spec in El. rewrite F1, F3 in El. lra. }
        assert (B2 : pL s2 <= gu * Lf) by (cbn; rewrite F3; nra).
        eapply Rle_trans; [exact I5|]. apply Rmax_lub; [|apply Rmax_r]. eapply Rle_trans; [exact B2|apply Rmax_r].
      * intros Lf fv Q HLf _ Hpow Hlast. assert (Y2 : pY s2 = pY s) by exact F1.
        assert (Hlt : pL s < Lf).
        { apply Rnot_le_lt. intros K. pose proof (HLf (pL s) (pX s1) K) as Q'. rewrite quad_spec in El. rewrite F1, F3 in El. lra. }
        destruct m as [|m].
        -- cbn in Hpow. lra.
        -- apply (I6 Lf fv Q); [rewrite Y2; exact HLf|lia| |exact Hlast].
           cbn [pL s2 setL]. unfold s2. cbn [pL setL]. rewrite F3. replace (S (S m) - 1)%nat with (S m) in Hpow by lia. replace (S m - 1)%nat with m by lia. cbn [pow] in Hpow. lra.
Qed.
(** The same for the robust variant. *)
Definition same_rob (s s' : pstate) : Prop :=
  pXprv s' = pXprv s /\ pt s' = pt s /\ pk s' = pk s /\ pbt s' = pbt s /\ ppol s' = NoPolicy /\ pobjprev s' = pobjprev s /\ pYprv s' = pYprv s.
Definition rob_y (Tk : R) (Z : vec) (s : pstate) : pstate :=
  setY s (fun i => (Tk * pXprv s i + rob_t (pL s) Tk * Z i) / (Tk + rob_t (pL s) Tk)).
Lemma rob_loop_spec gu Tk Z : forall m it last s s' last' it', 1 <= gu -> 0 < pL s -> ppol s = NoPolicy ->
  rob_loop n f g grad hess prox_g mono gu Tk Z m it last s = (s', last', it') ->
  (it <= it' <= it + m)%nat /\ same_rob s s' /\ pL s <= pL s' /\
  match last' with
  | None => m = O /\ last = None
  | Some (fv, Q, t, T) => (m = O /\ s' = s /\ last = Some (fv, Q, t, T) /\ it' = it) \/
     ((it < it')%nat /\ exists s0 L0, same_rob s s0 /\ pL s0 = L0 /\ pL s <= L0 /\ t = rob_t L0 Tk /\ T = Tk + t /\
       (let s1 := XS (rob_y Tk Z s0) (grad (pY (rob_y Tk Z s0))) in
        s' = (if Rle_dec fv Q then s1 else setL s1 (L0 * gu)) /\ fv = f (pX s1) /\ Q = quad n f s1 (grad (pY s1)) /\ (fv <= Q \/ it' = (it + m)%nat)))
  end /\
  (forall Lf, (forall L x y, Lf <= L -> majorises n f grad L x y) -> pL s' <= Rmax (pL s) (gu * Lf)) /\
  (forall Lf fv Q t T, (forall L x y, Lf <= L -> majorises n f grad L x y) -> (0 < m)%nat -> Lf <= pL s * gu ^ (m - 1) -> last' = Some (fv, Q, t, T) -> fv <= Q).
Proof.
  induction m as [|m IH]; intros it last s s' last' it' Hgu HL Hp.
  - cbn. intros [= <- <- <-]. split; [lia|]. split; [unfold same_rob; tauto|]. split; [lra|]. split; [|split].
    + destruct last as [[[[fv Q] t] T]|]; [left; repeat split|]; tauto.
    + intros Lf _. apply Rmax_l.
    + intros. lia.
  - cbn [rob_loop]. change (setY s _) with (rob_y Tk Z s). set (s0 := rob_y Tk Z s).
    assert (Hp0 : ppol s0 = NoPolicy) by exact Hp.
    destruct (xstep_frame s0 (grad (pY s0)) Hp0) as (F1 & F2 & F3 & F4 & F5 & F6 & F7 & F8 & F9).
    set (s1 := XS s0 (grad (pY s0))) in *. change (pL s0) with (pL s) in F3.
    assert (S1 : same_rob s s1) by (unfold same_rob; cbn in *; tauto).
    destruct (leb (f (pX s1)) (quad n f s1 (grad (pY s0)))) eqn:El.
    + intros [= <- <- <-]. apply leb_true in El. split; [lia|]. split; [exact S1|]. split; [lra|]. split; [|split].
      * right. split; [lia|]. exists s, (pL s). split; [unfold same_rob; tauto|]. split; [reflexivity|]. split; [lra|]. split; [reflexivity|]. split; [reflexivity|].
        fold s0. fold s1. cbv zeta. match goal with |- context [Rle_dec ?a ?b] => destruct (Rle_dec a b) as [_|N]; [|exfalso; apply N; exact El] end. rewrite F1. split; [reflexivity|]. split; [reflexivity|]. split; [reflexivity|]. left. exact El.
      * intros Lf _. rewrite F3. apply Rmax_l.
      * intros Lf fv Q t T _ _ _ [= <- <- _ _]. exact El.
    + apply leb_false in El. intros Hloop. set (s2 := setL s1 (pL s1 * gu)) in *.
      assert (HL2 : pL s <= pL s2) by (cbn; rewrite F3; nra).
      assert (Hp2 : ppol s2 = NoPolicy) by exact F7.
      assert (S2 : same_rob s s2) by exact S1.
      destruct (IH (S it) _ s2 s' last' it' Hgu ltac:(lra) Hp2 Hloop) as (I1 & I2 & I3 & I4 & I5 & I6).
      assert (ST : forall s3, same_rob s2 s3 -> same_rob s s3).
      { intros s3 (T1 & T2 & T3 & T4 & T5 & T6 & T7). destruct S2 as (U1 & U2 & U3 & U4 & U5 & U6 & U7). unfold same_rob. rewrite T1, T2, T3, T4, T6, T7. tauto. }
      split; [lia|]. split; [apply ST; exact I2|]. split; [lra|]. split; [|split].
      * destruct last' as [[[[fv Q] t] T]|]; [|destruct I4 as [_ I4]; discriminate I4].
        destruct I4 as [(M0 & -> & [= <- <- <- <-] & ->)|(J1 & s3 & L0 & J2 & J3 & J4 & J5 & J6 & J7 & J8 & J9 & J10)].
        -- right. split; [lia|]. exists s, (pL s). split; [unfold same_rob; tauto|]. split; [reflexivity|]. split; [lra|]. split; [reflexivity|]. split; [reflexivity|].
           fold s0. fold s1. cbv zeta. match goal with |- context [Rle_dec ?a ?b] => destruct (Rle_dec a b) as [N|_]; [exfalso; apply (Rlt_not_le _ _ El); exact N|] end. unfold s2. rewrite F3, F1. split; [reflexivity|]. split; [reflexivity|]. split; [reflexivity|]. right. lia.
        -- right. split; [lia|]. exists s3, L0. split; [apply ST; exact J2|]. split; [exact J3|]. split; [lra|]. split; [exact J5|]. split; [exact J6|].
           cbv zeta. split; [exact J7|]. split; [exact J8|]. split; [exact J9|]. destruct J10 as [J10|J10]; [left; exact J10|right; lia].
      * intros Lf HLf. specialize (I5 Lf HLf).
        assert (Hlt : pL s < Lf).
        { apply Rnot_le_lt. intros K. pose proof (HLf (pL s) (pX s1) (pY s0) K) as Q. unfold majorises in Q. rewrite quad_spec in El. rewrite F1, F3 in El. lra. }
        assert (B2 : pL s2 <= gu * Lf) by (cbn; rewrite F3; nra).
        eapply Rle_trans; [exact I5|]. apply Rmax_lub; [|apply Rmax_r]. eapply Rle_trans; [exact B2|apply Rmax_r].
      * intros Lf fv Q t T HLf _ Hpow Hlast.
        assert (Hlt : pL s < Lf).
        { apply Rnot_le_lt. intros K. pose proof (HLf (pL s) (pX s1) (pY s0) K) as Q'. unfold majorises in Q'. rewrite quad_spec in El. rewrite F1, F3 in El. lra. }
        destruct m as [|m].
        -- cbn in Hpow. lra.
        -- apply (I6 Lf fv Q t T); [exact HLf|lia| |exact Hlast].
           unfold s2. cbn [pL setL]. rewrite F3. replace (S (S m) - 1)%nat with (S m) in Hpow by lia. replace (S m - 1)%nat with m by lia. cbn [pow] in Hpow. lra.
Qed.
End search.
