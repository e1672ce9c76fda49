(** C39-C42: the proximal gradient solvers. *)
Require Import Reals Lra Lia List Bool FunctionalExtensionality.
Require Import Verif.RVec Verif.ProxModel Verif.ProxSpec Verif.ProxProofs Verif.AdmmSpec Verif.AdmmProofs Verif.PgmModel Verif.PgmSpec Verif.PgmProofs Verif.PgmRate.
Local Open Scope R_scope.

(** ** C41: momentum coefficients *)
Theorem C41_nesterov k : mseq Nesterov (S k) ^ 2 - mseq Nesterov (S k) = mseq Nesterov k ^ 2.
Proof.
  cbn [mseq mom_update]. set (t := mseq Nesterov k). set (q := sqrt (1 + 4 * t ^ 2)).
  assert (Q : q * q = 1 + 4 * t ^ 2) by (apply sqrt_sqrt; pose proof (pow2_ge_0 t); lra). simpl in *. lra.
Qed.
Theorem C41_nesterov_growth k : (INR k + 2) / 2 <= mseq Nesterov k.
Proof.
  induction k as [|k IH]; [cbn; lra|]. rewrite S_INR. cbn [mseq mom_update]. set (t := mseq Nesterov k) in *.
  assert (T0 : 0 <= t) by (pose proof (pos_INR k); lra).
  assert (Q : 2 * t <= sqrt (1 + 4 * t ^ 2)).
  { rewrite <- (sqrt_square (2 * t)) by lra. apply sqrt_le_1; [nra|pose proof (pow2_ge_0 t); lra|]. simpl. lra. }
  lra.
Qed.
(** What acceleration needs of a sequence of coefficients. *)
Definition accelerates (m : momentum) : Prop := forall k, 1 <= mseq m k /\ mseq m (S k) ^ 2 - mseq m (S k) <= mseq m k ^ 2.
Theorem C41_nesterov_accelerates : accelerates Nesterov.
Proof. intros k. split; [|rewrite C41_nesterov; lra]. pose proof (C41_nesterov_growth k). pose proof (pos_INR k). lra. Qed.
Theorem C41_linear_accelerates b : 2 <= b -> accelerates (Linear b).
Proof.
  intros Hb. assert (G : forall k, mseq (Linear b) (S k) = (INR k + b) / b) by reflexivity.
  assert (B : forall k, 1 <= (INR k + b) / b).
  { intros k. pose proof (pos_INR k). apply (Rmult_le_reg_r b); [lra|]. unfold Rdiv. rewrite Rmult_assoc, Rinv_l by lra. lra. }
  intros [|k]; split; rewrite ?G; try (cbn; lra); [cbn [mseq INR]; replace ((0 + b) / b) with 1 by (field; lra); lra|apply B|].
  rewrite S_INR. set (x := INR k). pose proof (pos_INR k) as Hx. fold x in Hx.
  replace (((x + 1 + b) / b) ^ 2 - (x + 1 + b) / b) with (((x + 1 + b) * (x + 1)) / (b * b)) by (field; lra).
  replace (((x + b) / b) ^ 2) with (((x + b) * (x + b)) / (b * b)) by (field; lra).
  unfold Rdiv. apply Rmult_le_compat_r; [apply Rlt_le, Rinv_0_lt_compat; nra|]. nra.
Qed.
(** MomentumGenLinear: the inequality holds from the second coefficient on... *)
Theorem C41_genlinear_tail a b k : 2 <= b -> 0 <= a -> mseq (GenLinear a b) (S (S k)) ^ 2 - mseq (GenLinear a b) (S (S k)) <= mseq (GenLinear a b) (S k) ^ 2.
Proof.
  intros Hb Ha. change (mseq (GenLinear a b) (S (S k))) with ((INR (S k) + a) / b). change (mseq (GenLinear a b) (S k)) with ((INR k + a) / b).
  rewrite S_INR. set (x := INR k + a). assert (Hx : 0 <= x) by (unfold x; pose proof (pos_INR k); lra).
  replace (INR k + 1 + a) with (x + 1) by (unfold x; ring).
  replace (((x + 1) / b) ^ 2 - (x + 1) / b) with (((x + 1) * (x + 1 - b)) / (b * b)) by (field; lra).
  replace ((x / b) ^ 2) with ((x * x) / (b * b)) by (field; lra).
  unfold Rdiv. apply Rmult_le_compat_r; [apply Rlt_le, Rinv_0_lt_compat; nra|]. nra.
Qed.
(** ... but fails between the fixed first coefficient 1 and the second, with the default parameters. *)
Theorem C41_genlinear_refuted : exists a b, 2 <= b /\ b - 1 <= a /\ ~ accelerates (GenLinear a b).
Proof. exists 50, 2. split; [lra|]. split; [lra|]. intros H. destruct (H 0%nat) as [_ H1]. cbn in H1. lra. Qed.

(** ** C39: the monotone option *)
Section obj.
Variables (n : nat) (f g : vec -> R) (grad hess : vec -> vec) (prox_g : R -> vec -> vec) (fast : bool) (mom : momentum).
Notation PI := (piter n f g grad hess prox_g true fast mom).
Notation PR := (prun n f g grad hess prox_g true fast mom).
Definition obj_ok (s s' : pstate) : Prop := pobj s' <= pobjprev s' /\ pobjprev s' = pobjprev s.
Lemma xstep_obj s G : pobj s <= pobjprev s -> obj_ok s (xstep n f g hess prox_g true s G).
Proof.
  intros H. unfold obj_ok, xstep. destruct (policy_step n hess s G) as [L pol]. cbn [andb].
  destruct (Nat.ltb 0 (pk s)); [|cp; split; [exact H|reflexivity]]. destruct (ltb _ _) eqn:E; cp; split; try reflexivity; [lra|]. apply ltb_false in E. exact E.
Qed.
Lemma std_obj gu G : forall m it last s, pobj s <= pobjprev s -> obj_ok s (fst (fst (std_loop n f g hess prox_g true gu G m it last s))).
Proof.
  induction m as [|m IH]; intros it last s H; [split; [exact H|reflexivity]|]. cbn [std_loop].
  destruct (xstep_obj s G H) as [H1 H2]. destruct (leb _ _); [split; assumption|].
  destruct (IH (S it) (Some (f (pX (xstep n f g hess prox_g true s G)), quad n f (xstep n f g hess prox_g true s G) G)) (setL (xstep n f g hess prox_g true s G) (pL (xstep n f g hess prox_g true s G) * gu)) H1) as [H3 H4].
  split; [exact H3|]. rewrite H4. exact H2.
Qed.
Lemma rob_obj gu Tk Z : forall m it last s, pobj s <= pobjprev s -> obj_ok s (fst (fst (rob_loop n f g grad hess prox_g true gu Tk Z m it last s))).
Proof.
  induction m as [|m IH]; intros it last s H; [split; [exact H|reflexivity]|]. cbn [rob_loop].
  set (s0 := setY s _). destruct (xstep_obj s0 (grad (pY s0)) H) as [H1 H2]. destruct (leb _ _); [split; assumption|].
  match goal with |- obj_ok _ (fst (fst (rob_loop _ _ _ _ _ _ _ _ _ _ _ ?i ?l ?t))) => destruct (IH i l t H1) as [H3 H4] end.
  split; [exact H3|]. rewrite H4. exact H2.
Qed.
Lemma iter_obj s s' : PI s = Some s' -> pobj s' <= (if Nat.eqb (pk s) 0 then eval_objfn f g (pX s) else pobj s).
Proof.
  unfold piter, pbody. destruct (start_fields f g true fast s) as (A1 & A2 & A3 & A4 & A5 & A6 & A7 & A8 & A9). destruct (A9 eq_refl) as [B1 B2].
  set (s0 := on_iteration_start f g true fast s) in *. assert (H0 : pobj s0 <= pobjprev s0) by lra.
  destruct (pbt s0) as [|gu m|gd gu m Tk Z].
  - intros [= <-]. destruct (xstep_obj s0 (grad (pY s0)) H0) as [H1 H2]. cp. unfold ystep. cp. rewrite <- B1, <- H2. exact H1.
  - unfold std_update. pose proof (std_obj gu (grad (pY s0)) m 0 None s0 H0) as H. destruct (std_loop _ _ _ _ _ _ _ _ _ _ _ _) as [[s1 last] it].
    destruct last as [[fv Q]|]; [|discriminate]. intros [= <-]. destruct H as [H1 H2]. cbn [fst] in *. unfold ystep. cp. rewrite <- B1, <- H2. exact H1.
  - unfold rob_update. set (z := match Z with None => pX s0 | Some z => z end). pose proof (rob_obj gu Tk z m 0 None (setL s0 (pL s0 * gd)) H0) as H. destruct (rob_loop _ _ _ _ _ _ _ _ _ _ _ _ _) as [[s1 last] it].
    destruct last as [[[[fv Q] t] T]|]; [|discriminate]. intros [= <-]. destruct H as [H1 H2]. cbn [fst] in *. cp. rewrite <- B1. cbn [pobjprev setL] in H2. rewrite <- H2. exact H1.
Qed.
Lemma xstep_k mono s G : pk (xstep n f g hess prox_g mono s G) = pk s.
Proof. unfold xstep. destruct (policy_step n hess s G). destruct (mono && _)%bool; [destruct (ltb _ _)|]; reflexivity. Qed.
Lemma std_k mono gu G : forall m it last s, pk (fst (fst (std_loop n f g hess prox_g mono gu G m it last s))) = pk s.
Proof.
  induction m as [|m IH]; intros it last s; [reflexivity|]. cbn [std_loop]. destruct (leb _ _); [apply xstep_k|]. rewrite IH. apply xstep_k.
Qed.
Lemma rob_k mono gu Tk Z : forall m it last s, pk (fst (fst (rob_loop n f g grad hess prox_g mono gu Tk Z m it last s))) = pk s.
Proof.
  induction m as [|m IH]; intros it last s; [reflexivity|]. cbn [rob_loop]. destruct (leb _ _); cbn [fst]; [rewrite xstep_k; reflexivity|]. rewrite IH. cbn [pk setL]. rewrite xstep_k. reflexivity.
Qed.
Lemma iter_k mono s s' : piter n f g grad hess prox_g mono fast mom s = Some s' -> pk s' = S (pk s).
Proof.
  unfold piter, pbody. destruct (start_fields f g mono fast s) as (_ & _ & _ & _ & _ & A6 & _). set (s0 := on_iteration_start f g mono fast s) in *.
  destruct (pbt s0) as [|gu m|gd gu m Tk Z].
  - intros [= <-]. unfold ystep. cp. rewrite xstep_k. congruence.
  - unfold std_update. pose proof (std_k mono gu (grad (pY s0)) m 0 None s0) as H. destruct (std_loop _ _ _ _ _ _ _ _ _ _ _ _) as [[s1 last] it].
    destruct last as [[fv Q]|]; [|discriminate]. intros [= <-]. unfold ystep. cp. cbn [fst] in H. congruence.
  - unfold rob_update. set (z := match Z with None => pX s0 | Some z => z end). pose proof (rob_k mono gu Tk z m 0 None (setL s0 (pL s0 * gd))) as H. destruct (rob_loop _ _ _ _ _ _ _ _ _ _ _ _ _) as [[s1 last] it].
    destruct last as [[[[fv Q] t] T]|]; [|discriminate]. intros [= <-]. cp. cbn [fst pk setL] in H. congruence.
Qed.
Lemma run_k mono : forall N s s', prun n f g grad hess prox_g mono fast mom N s = Some s' -> pk s' = (N + pk s)%nat.
Proof.
  induction N as [|N IH]; intros s s'; cbn [prun]; [intros [= <-]; reflexivity|].
  destruct (prun _ _ _ _ _ _ _ _ _ N s) as [s1|] eqn:E; [|discriminate]. intros H. rewrite (iter_k mono s1 s' H), (IH s s1 E). lia.
Qed.
(** The recorded objective never increases, whatever the line search, step size policy and step parameter; and the first
    recorded value is the objective at the starting point (or below). *)
Theorem C39_recorded X0 L pol bt N s s' : PR N (pinit X0 L pol bt) = Some s -> PI s = Some s' ->
  match N with O => recorded f g true s' <= eval_objfn f g X0 | S _ => recorded f g true s' <= recorded f g true s end.
Proof.
  intros HR HI. pose proof (iter_obj s s' HI) as H. pose proof (run_k true N _ _ HR) as Hk. cbn [pk pinit] in Hk. rewrite Nat.add_0_r in Hk. rewrite Hk in H.
  destruct N as [|N]; cbn [Nat.eqb] in H; unfold recorded.
  - cbn [prun] in HR. injection HR as <-. exact H.
  - exact H.
Qed.
End obj.

(** ** Runs with a fixed step parameter or with the standard line search *)
Section runs.
Variables (n : nat) (E : vec -> Prop) (f g : vec -> R) (grad hess : vec -> vec) (prox_g : R -> vec -> vec) (mono fast : bool) (mom : momentum).
Hypothesis Cf : convex_on (fun _ => True) f.
Hypothesis Gf : is_gradient n f grad.
Hypothesis Cg : convex_on E g.
(** Contract of the method prox_g of the derived class, see C15 and the instances below. *)
Hypothesis Hprox : forall L V, 0 < L -> argmin E (fun x => g x + L / 2 * nrm2 n (fun i => x i - V i)) (prox_g L V).
Notation F := (eval_objfn f g).
Notation PI := (piter n f g grad hess prox_g mono fast mom).
Notation PR := (prun n f g grad hess prox_g mono fast mom).
Notation PS L y := (pstep grad prox_g L y).

Lemma f_local x z : (forall i, (i < n)%nat -> x i = z i) -> f x = f z.
Proof.
  intros H. pose proof (gradient_below n f grad Cf Gf x z) as A. pose proof (gradient_below n f grad Cf Gf z x) as B.
  assert (A0 : dot n (grad x) (fun i => z i - x i) = 0) by (apply sumn_0; intros i Hi; rewrite (H i Hi); ring).
  assert (B0 : dot n (grad z) (fun i => x i - z i) = 0) by (apply sumn_0; intros i Hi; rewrite (H i Hi); ring). lra.
Qed.
(** *** C42: a point is unchanged by the proximal gradient step exactly when it is optimal; and the step never increases the objective *)
Theorem C42_fixed_optimal L y : 0 < L -> (forall i, (i < n)%nat -> PS L y i = y i) -> argmin E F (PS L y).
Proof.
  intros HL Hy. split; [apply (pstep_in n E g grad prox_g Hprox); exact HL|]. intros u Hu.
  pose proof (pstep_vi n E g grad prox_g Cg Hprox L y u HL Hu) as V. set (p := PS L y) in *.
  assert (Z : dot n (fun i => p i - y i) (fun i => u i - p i) = 0) by (unfold dot; apply sumn_0; intros i Hi; rewrite (Hy i Hi); ring).
  rewrite Z in V. pose proof (gradient_below n f grad Cf Gf y u) as B.
  assert (D : dot n (grad y) (fun i => u i - p i) = dot n (grad y) (fun i => u i - y i)) by (apply sumn_ext; intros i Hi; rewrite (Hy i Hi); reflexivity).
  unfold eval_objfn. rewrite (f_local p y Hy). lra.
Qed.
Theorem C42_optimal_fixed L y : 0 < L -> argmin E F y -> majorises n f grad L (PS L y) y -> forall i, (i < n)%nat -> PS L y i = y i.
Proof.
  intros HL [Ey My] Hm i Hi. pose proof (key_ineq n E f g grad prox_g Cf Gf Cg Hprox L y y HL Ey Hm) as K. cbv beta in K.
  pose proof (My _ (pstep_in n E g grad prox_g Hprox L y HL)) as M. unfold eval_objfn in M. set (p := PS L y) in *.
  assert (Z : dot n (fun i => y i - p i) (fun i => y i - y i) = 0) by (unfold dot; apply sumn_0; intros j _; ring). rewrite Z in K.
  assert (Q : nrm2 n (fun j => y j - p j) <= 0) by (assert (0 <= L / 2 * (- nrm2 n (fun j => y j - p j))) by lra; apply Rnot_lt_le; intros G; assert (0 < L / 2 * nrm2 n (fun j => y j - p j)) by (apply Rmult_lt_0_compat; lra); lra).
  assert (G : (y i - p i) * (y i - p i) <= nrm2 n (fun j => y j - p j)).
  { unfold nrm2. apply (sumn_ge_term n (fun j => (y j - p j) * (y j - p j))); [intros j _; apply Rle_0_sqr|exact Hi]. }
  pose proof (Rle_0_sqr (y i - p i)) as S. unfold Rsqr in S. assert (T : (y i - p i) * (y i - p i) = 0) by lra. apply Rmult_integral in T. destruct T; lra.
Qed.
Theorem C42_descent L y : 0 < L -> E y -> majorises n f grad L (PS L y) y -> F (PS L y) <= F y.
Proof. apply (descent_step n f g grad prox_g E Cf Gf Cg Hprox). Qed.

(** *** Bookkeeping of a run *)
Lemma fixed_run X0 L N s : PR N (pinit X0 L NoPolicy NoBacktrack) = Some s -> pk s = N /\ pt s = mseq mom N /\ ppol s = NoPolicy /\ pbt s = NoBacktrack /\ pL s = L.
Proof.
  revert s. induction N as [|N IH]; intros s; cbn [prun]; [intros [= <-]; cbn; tauto|].
  destruct (PR N _) as [s1|]; [|discriminate]. destruct (IH s1 eq_refl) as (K & T & P & B & HL). intros H.
  destruct (fixed_rel n f g grad hess prox_g mono fast mom s1 s P B H) as [(_ & R2 & R3 & R4 & R5 & _) RL].
  rewrite R2, R3, R4, R5, RL, K, T. cbn [mseq]. tauto.
Qed.
Lemma std_run gu m X0 L N s : 1 <= gu -> 0 < L -> PR N (pinit X0 L NoPolicy (Standard gu m)) = Some s ->
  pk s = N /\ pt s = mseq mom N /\ ppol s = NoPolicy /\ pbt s = Standard gu m /\ L <= pL s.
Proof.
  intros Hg H0. revert s. induction N as [|N IH]; intros s; cbn [prun]; [intros [= <-]; cbn; repeat split; lra|].
  destruct (PR N _) as [s1|]; [|discriminate]. destruct (IH s1 eq_refl) as (K & T & P & B & HL). intros H.
  destruct (std_rel n f g grad hess prox_g mono fast mom gu m s1 s Hg ltac:(lra) P B H) as (L0 & (_ & R2 & R3 & R4 & R5 & _) & _ & RL & _).
  rewrite R2, R3, R4, R5, K, T. cbn [mseq]. repeat split; try assumption. lra.
Qed.

(** *** C39: with a step parameter for which the quadratic bound holds, the objective of the iterates never increases, and from the second
    iteration on the recorded value is the objective of the solution returned *)
Lemma mono_run X0 L N s : mono = true -> 0 < L -> E X0 -> (forall x y, majorises n f grad L x y) -> PR N (pinit X0 L NoPolicy NoBacktrack) = Some s ->
  E (pX s) /\ ((1 <= N)%nat -> F (pX s) <= pobj s) /\ (N = 1%nat -> pY s = pX s) /\ ((2 <= N)%nat -> F (pX s) = pobj s).
Proof.
  intros Hm HL HE Hmaj. revert s. induction N as [|N IH]; intros s; [cbn [prun]; intros [= <-]; cbn; split; [exact HE|]; split; [|split]; intros; try lia|].
  intros HR. pose proof HR as HR'. cbn [prun] in HR. destruct (PR N _) as [s1|] eqn:E1; [|discriminate].
  destruct (fixed_run X0 L N s1 E1) as (K & T & P & B & L1). destruct (IH s1 eq_refl) as (I1 & I2 & I3 & I4). clear IH.
  destruct (fixed_rel n f g grad hess prox_g mono fast mom s1 s P B HR) as [(R1 & R2 & R3 & R4 & R5 & R6 & R7) RL].
  rewrite Hm, K in R6. rewrite Hm, K in R7. cbn [andb] in R6, R7. rewrite L1 in *.
  assert (EP : E (PS L (pY s1))) by (apply (pstep_in n E g grad prox_g Hprox); exact HL).
  destruct N as [|N].
  - cbn [Nat.ltb Nat.leb] in R6, R7. destruct R6 as [RX RO]. specialize (RO eq_refl). cbn [prun] in E1. injection E1 as <-. cbn [pX pY pt pinit] in *.
    assert (D : F (PS L X0) <= F X0) by (apply C42_descent; auto).
    rewrite RX, RO in *. split; [exact EP|]. split; [intros _; exact D|]. split; [|lia].
    intros _. rewrite R7. extensionality i. unfold Rdiv. ring.
  - change (Nat.ltb 0 (S N)) with true in R6, R7. cbn [andb] in R6, R7. destruct R6 as [(RX & RF & RO)|(RX & RF & RO)].
    + rewrite RX, RO. split; [exact EP|]. split; [intros _; lra|]. split; [lia|]. intros _. reflexivity.
    + rewrite RX, RO. specialize (I2 ltac:(lia)). split; [exact I1|]. split; [intros _; exact I2|]. split; [lia|]. intros _.
      destruct N as [|N]; [|apply I4; lia]. exfalso. specialize (I3 eq_refl). rewrite I3 in RF.
      pose proof (C42_descent L (pX s1) HL I1 (Hmaj _ _)). lra.
Qed.
Theorem C39_exact X0 L N s s' : mono = true -> 0 < L -> E X0 -> (forall x y, majorises n f grad L x y) ->
  PR N (pinit X0 L NoPolicy NoBacktrack) = Some s -> PI s = Some s' ->
  F (getmin s') <= F (getmin s) /\ F (getmin s') <= recorded f g mono s' /\ ((1 <= N)%nat -> recorded f g mono s' = F (getmin s')).
Proof.
  intros Hm HL HE Hmaj HR HI. unfold getmin, recorded. rewrite Hm at 1 2.
  assert (HR' : PR (S N) (pinit X0 L NoPolicy NoBacktrack) = Some s') by (cbn [prun]; rewrite HR; exact HI).
  destruct (mono_run X0 L N s Hm HL HE Hmaj HR) as (I1 & I2 & I3 & I4). destruct (mono_run X0 L (S N) s' Hm HL HE Hmaj HR') as (J1 & J2 & J3 & J4).
  split; [|split; [apply J2; lia|intros HN; symmetry; apply J4; lia]].
  destruct (fixed_run X0 L N s HR) as (K & T & P & B & L1).
  destruct (fixed_rel n f g grad hess prox_g mono fast mom s s' P B HI) as [(R1 & R2 & R3 & R4 & R5 & R6 & R7) RL]. rewrite Hm, K, L1 in R6. cbn [andb] in R6.
  destruct N as [|N].
  - cbn [Nat.ltb Nat.leb] in R6. destruct R6 as [RX _]. rewrite RX. cbn [prun] in HR. injection HR as <-. cbn [pY pX pinit]. apply C42_descent; auto.
  - change (Nat.ltb 0 (S N)) with true in R6. cbn [andb] in R6. destruct R6 as [(RX & RF & RO)|(RX & RF & RO)]; [|rewrite RX; lra].
    rewrite RX. destruct N as [|N]; [rewrite (I3 eq_refl); apply C42_descent; auto|]. rewrite (I4 ltac:(lia)). exact RF.
Qed.

(** *** C42: rates *)
Variable xs : vec.
Hypothesis Hxs : argmin E F xs.
Notation energy := (energy n f g xs).
Lemma energy_init X0 L bt : energy (pinit X0 L NoPolicy bt) = nrm2 n (fun i => X0 i - xs i).
Proof.
  unfold PgmRate.energy. cbn [pinit pt pL pX pY].
  assert (Q : nrm2 n (fun i => 1 * X0 i - (1 - 1) * X0 i - xs i) = nrm2 n (fun i => X0 i - xs i)) by (apply sumn_ext; intros i _; ring).
  rewrite Q. unfold Rdiv. ring.
Qed.
Lemma gap_le L T G D : 0 < L -> 1 <= T -> 2 / L * T ^ 2 * G <= D -> G <= L * D / (2 * T ^ 2).
Proof.
  intros HL HT H. assert (T2 : 0 < T ^ 2) by (apply pow_lt; lra). apply (Rmult_le_compat_l (L / (2 * T ^ 2))) in H; [|apply Rlt_le, Rdiv_lt_0_compat; lra].
  replace (L / (2 * T ^ 2) * (2 / L * T ^ 2 * G)) with G in H by (field; lra). replace (L * D / (2 * T ^ 2)) with (L / (2 * T ^ 2) * D) by (field; lra). exact H.
Qed.
Lemma fixed_energy X0 L N s : 0 < L -> (mono = true -> E X0) -> (forall x y, majorises n f grad L x y) -> accelerates mom ->
  PR N (pinit X0 L NoPolicy NoBacktrack) = Some s -> energy s <= nrm2 n (fun i => X0 i - xs i) /\ (N = O \/ E (pX s)).
Proof.
  intros HL HE Hmaj Ha. revert s. induction N as [|N IH]; intros s.
  - cbn [prun]. intros [= <-]. rewrite energy_init. split; [lra|tauto].
  - intros HR. cbn [prun] in HR. destruct (PR N _) as [s1|] eqn:E1; [|discriminate].
    destruct (fixed_run X0 L N s1 E1) as (K & T & P & B & L1). destruct (IH s1 eq_refl) as (I1 & I2). clear IH.
    destruct (fixed_rel n f g grad hess prox_g mono fast mom s1 s P B HR) as [RR RL].
    destruct (Ha N) as [A1 A2]. destruct (Ha (S N)) as [A3 _].
    destruct (energy_step n f g grad prox_g mono mom E Cf Gf Cg Hprox xs Hxs s1 s (pL s1) RR ltac:(lra) RL ltac:(lra) ltac:(rewrite L1; apply Hmaj)) as (Q1 & Q2 & Q3).
    + rewrite T; exact A1.
    + rewrite (proj1 (proj2 (proj2 RR))), T, K. exact A3.
    + rewrite (proj1 (proj2 (proj2 RR))), T, K. exact A2.
    + destruct I2 as [->|I2]; [left; rewrite T; reflexivity|right; exact I2].
    + intros HM. apply andb_true_iff in HM as [HM1 HM2]. apply Nat.ltb_lt in HM2.
      destruct (mono_run X0 L N s1 HM1 HL (HE HM1) Hmaj E1) as (M1 & M2 & _). split; [apply M2; lia|exact M1].
    + split; [lra|right; exact Q3].
Qed.
Theorem C42_rate_fixed X0 L N s : 0 < L -> (mono = true -> E X0) -> (forall x y, majorises n f grad L x y) -> accelerates mom ->
  PR (S N) (pinit X0 L NoPolicy NoBacktrack) = Some s ->
  F (getmin s) - F xs <= L * nrm2 n (fun i => X0 i - xs i) / (2 * mseq mom N ^ 2).
Proof.
  intros HL HE Hmaj Ha HR. pose proof HR as HR'. cbn [prun] in HR. destruct (PR N _) as [s1|] eqn:E1; [|discriminate].
  destruct (fixed_run X0 L N s1 E1) as (K & T & P & B & L1). destruct (fixed_energy X0 L N s1 HL HE Hmaj Ha E1) as (I1 & I2).
  destruct (fixed_rel n f g grad hess prox_g mono fast mom s1 s P B HR) as [RR RL].
  destruct (Ha N) as [A1 A2]. destruct (Ha (S N)) as [A3 _].
  destruct (energy_step n f g grad prox_g mono mom E Cf Gf Cg Hprox xs Hxs s1 s (pL s1) RR ltac:(lra) RL ltac:(lra) ltac:(rewrite L1; apply Hmaj)) as (Q1 & Q2 & Q3).
  + rewrite T; exact A1.
  + rewrite (proj1 (proj2 (proj2 RR))), T, K. exact A3.
  + rewrite (proj1 (proj2 (proj2 RR))), T, K. exact A2.
  + destruct I2 as [->|I2]; [left; rewrite T; reflexivity|right; exact I2].
  + intros HM. apply andb_true_iff in HM as [HM1 HM2]. apply Nat.ltb_lt in HM2.
    destruct (mono_run X0 L N s1 HM1 HL (HE HM1) Hmaj E1) as (M1 & M2 & _). split; [apply M2; lia|exact M1].
  + rewrite T, L1 in Q2. apply gap_le; [exact HL|exact A1|]. unfold getmin. lra.
Qed.
Lemma nesterov_rate C N : 0 <= C -> C / (2 * mseq Nesterov N ^ 2) <= 2 * C / (INR N + 2) ^ 2.
Proof.
  intros HC. pose proof (C41_nesterov_growth N) as G. pose proof (pos_INR N) as P. set (t := mseq Nesterov N) in *. set (a := INR N + 2) in *.
  assert (A2 : 0 < a ^ 2) by (apply pow_lt; unfold a; lra). assert (T2 : 0 < t ^ 2) by (apply pow_lt; unfold a in *; lra).
  assert (Q : (a / 2) ^ 2 <= t ^ 2) by (apply pow_incr; unfold a in *; lra). replace ((a / 2) ^ 2) with (a ^ 2 / 4) in Q by (simpl; field).
  replace (2 * C / a ^ 2) with (C / (2 * (a ^ 2 / 4))) by (field; unfold a; lra). apply Rmult_le_compat_l; [exact HC|]. apply Rinv_le_contravar; lra.
Qed.
(** The FISTA bound: after K = N + 1 iterations, 2 L |x0 - x*|^2 / (K + 1)^2. *)
Theorem C42_fista X0 L Lf N s : 0 < L -> Lf <= L -> (mono = true -> E X0) -> lipschitz n grad Lf -> mom = Nesterov ->
  PR (S N) (pinit X0 L NoPolicy NoBacktrack) = Some s ->
  F (getmin s) - F xs <= 2 * L * nrm2 n (fun i => X0 i - xs i) / (INR (S N) + 1) ^ 2.
Proof.
  intros HL HLf HE Hlip Hmom HR. assert (Hmaj : forall x y, majorises n f grad L x y).
  { intros x y. pose proof (descent n f grad Lf Gf Hlip x y) as D. unfold majorises in *. pose proof (nrm2_nonneg n (fun i => x i - y i)) as Q.
    assert (Lf / 2 * nrm2 n (fun i => x i - y i) <= L / 2 * nrm2 n (fun i => x i - y i)) by (apply Rmult_le_compat_r; lra). lra. }
  pose proof (C42_rate_fixed X0 L N s HL HE Hmaj ltac:(rewrite Hmom; exact C41_nesterov_accelerates) HR) as H. rewrite Hmom in H.
  pose proof (nesterov_rate (L * nrm2 n (fun i => X0 i - xs i)) N ltac:(apply Rmult_le_pos; [lra|apply nrm2_nonneg])) as H2.
  rewrite S_INR. replace (INR N + 1 + 1) with (INR N + 2) by ring. rewrite <- Rmult_assoc in H2. lra.
Qed.
End runs.

(** *** The line searches: rates without the monotone option *)
Section searches.
Variables (n : nat) (E : vec -> Prop) (f g : vec -> R) (grad hess : vec -> vec) (prox_g : R -> vec -> vec) (fast : bool) (mom : momentum).
Hypothesis Cf : convex_on (fun _ => True) f.
Hypothesis Gf : is_gradient n f grad.
Hypothesis Cg : convex_on E g.
Hypothesis Hprox : forall L V, 0 < L -> argmin E (fun x => g x + L / 2 * nrm2 n (fun i => x i - V i)) (prox_g L V).
Variable xs : vec.
Notation F := (eval_objfn f g).
Hypothesis Hxs : argmin E F xs.
Notation PI := (piter n f g grad hess prox_g false fast mom).
Notation PR := (prun n f g grad hess prox_g false fast mom).
Notation PS L y := (pstep grad prox_g L y).
(** The statistics F_Btrack and Q_Btrack of the first N iterations show that no search was cut off. *)
Definition searched (s0 : pstate) (N : nat) : Prop := forall j s, (1 <= j <= N)%nat -> PR j s0 = Some s -> pF s <= pQ s.
Lemma searched_S s0 N : searched s0 (S N) -> searched s0 N.
Proof. intros H j s Hj. apply H. lia. Qed.
Lemma std_energy gu m X0 L N s : 1 <= gu -> 0 < L -> accelerates mom -> searched (pinit X0 L NoPolicy (Standard gu m)) N ->
  PR N (pinit X0 L NoPolicy (Standard gu m)) = Some s ->
  energy n f g xs s <= nrm2 n (fun i => X0 i - xs i) /\ (N = O \/ E (pX s)) /\
  match N with O => True | S N' => 2 / pL s * mseq mom N' ^ 2 * (F (pX s) - F xs) <= nrm2 n (fun i => X0 i - xs i) end.
Proof.
  intros Hg HL Ha Hs. revert s. induction N as [|N IH]; intros s.
  - cbn [prun]. intros [= <-]. rewrite energy_init. split; [lra|tauto].
  - intros HR. pose proof (Hs (S N) s ltac:(lia) HR) as HFQ. cbn [prun] in HR. destruct (PR N _) as [s1|] eqn:E1; [|discriminate].
    destruct (std_run n f g grad hess prox_g false fast mom gu m X0 L N s1 Hg HL E1) as (K & T & P & B & L1). destruct (IH (searched_S _ _ Hs) s1 eq_refl) as (I1 & I2 & _). clear IH.
    destruct (std_rel n f g grad hess prox_g false fast mom gu m s1 s Hg ltac:(lra) P B HR) as (L0 & RR & RL0 & RL & _ & RL1 & _ & (RF & RQ) & _).
    specialize (RL1 HFQ). destruct (Ha N) as [A1 A2]. destruct (Ha (S N)) as [A3 _].
    assert (HM : majorises n f grad L0 (PS L0 (pY s1)) (pY s1)).
    { destruct RR as (_ & _ & _ & _ & _ & (RX & _) & _). unfold majorises. rewrite <- RX, <- RQ, <- RF. exact HFQ. }
    destruct (energy_step n f g grad prox_g false mom E Cf Gf Cg Hprox xs Hxs s1 s L0 RR RL0 RL1 ltac:(lra) HM) as (Q1 & Q2 & Q3).
    + rewrite T; exact A1.
    + rewrite (proj1 (proj2 (proj2 RR))), T, K. exact A3.
    + rewrite (proj1 (proj2 (proj2 RR))), T, K. exact A2.
    + destruct I2 as [->|I2]; [left; rewrite T; reflexivity|right; exact I2].
    + discriminate.
    + split; [lra|]. split; [right; exact Q3|]. rewrite RL1, <- T. lra.
Qed.
Theorem C42_rate_standard gu m X0 L N s : 1 <= gu -> 0 < L -> accelerates mom -> searched (pinit X0 L NoPolicy (Standard gu m)) (S N) ->
  PR (S N) (pinit X0 L NoPolicy (Standard gu m)) = Some s ->
  F (getmin s) - F xs <= pL s * nrm2 n (fun i => X0 i - xs i) / (2 * mseq mom N ^ 2).
Proof.
  intros Hg HL Ha Hs HR. destruct (std_energy gu m X0 L (S N) s Hg HL Ha Hs HR) as (_ & _ & H).
  destruct (std_run n f g grad hess prox_g false fast mom gu m X0 L (S N) s Hg HL HR) as (_ & _ & _ & _ & L1).
  apply gap_le; [lra|apply Ha|exact H].
Qed.
End searches.

(** ** One iteration of the robust line search *)
Section robust.
Variables (n : nat) (f g : vec -> R) (grad hess : vec -> vec) (prox_g : R -> vec -> vec) (mono fast : bool) (mom : momentum).
Notation PI := (piter n f g grad hess prox_g mono fast mom).
Notation PS L y := (pstep grad prox_g L y).
Definition rob_z (Z : option vec) (s : pstate) : vec := match Z with None => pX s | Some z => z end.
Lemma rob_rel gd gu m Tk Z s s' : 1 <= gu -> 0 < gd -> 0 < pL s -> ppol s = NoPolicy -> pbt s = Robust gd gu m Tk Z -> PI s = Some s' ->
  exists L0, gd * pL s <= L0 /\ gd * pL s <= pL s' /\ (1 <= pit s' <= m)%nat /\ ppol s' = NoPolicy /\
  let t := rob_t L0 Tk in let y := (fun i => (Tk * pX s i + t * rob_z Z s i) / (Tk + t)) in
  pY s' = y /\ (mono = false -> pX s' = PS L0 y) /\
  pbt s' = Robust gd gu m (Tk + t) (Some (fun i => rob_z Z s i + t * pL s' * (pX s' i - y i))) /\
  (pF s' <= pQ s' -> pL s' = L0) /\ (pF s' <= pQ s' \/ pit s' = m) /\
  (pF s' = f (pX s') /\ pQ s' = f y + dot n (grad y) (fun i => pX s' i - y i) + L0 / 2 * nrm2 n (fun i => pX s' i - y i)) /\
  (forall Lf, (forall L x y, Lf <= L -> majorises n f grad L x y) -> pL s' <= Rmax (gd * pL s) (gu * Lf)) /\
  (forall Lf, (forall L x y, Lf <= L -> majorises n f grad L x y) -> Lf <= gd * pL s * gu ^ (m - 1) -> pF s' <= pQ s').
Proof.
  intros Hgu Hgd HL Hp Hb. unfold piter, pbody. destruct (start_fields f g mono fast s) as (A1 & A2 & A3 & A4 & A5 & A6 & A7 & A8 & _).
  set (s0 := on_iteration_start f g mono fast s) in *. rewrite A8, Hb. unfold rob_update. rewrite A1. fold (rob_z Z s).
  destruct (rob_loop _ _ _ _ _ _ _ _ _ _ _ _ _) as [[s1 last] it] eqn:EL. 
  assert (Hpos : 0 < pL (setL s0 (pL s0 * gd))) by (cbn [pL setL]; rewrite A5; apply Rmult_lt_0_compat; lra).
  pose proof (rob_loop_spec n f g grad hess prox_g mono gu Tk (rob_z Z s) m 0 None (setL s0 (pL s0 * gd)) s1 last it Hgu Hpos ltac:(cbn [ppol setL]; congruence) EL) as (I & SR & LL & M & B1 & B2).
  destruct last as [[[[fv Q] t] T]|]; [|discriminate]. intros [= <-]. destruct M as [(_ & _ & D & _)|(I0 & s2 & L0 & S0 & EL0 & LL0 & -> & -> & M)]; [discriminate|].
  cbn [pL setL] in LL, LL0, B1, B2. rewrite A5, (Rmult_comm (pL s)) in *.
  set (sy := rob_y Tk (rob_z Z s) s2) in *. cbv zeta in M. set (sx := xstep n f g hess prox_g mono sy (grad (pY sy))) in *. destruct M as (E1 & Ef & EQ & ME).
  destruct SR as (R1 & R2 & R3 & R4 & R5 & R6 & R7). destruct S0 as (S1 & S2 & S3 & S4 & S5 & S6 & S7).
  cbn [pXprv setL] in S1. rewrite A3 in S1.
  assert (Py : ppol sy = NoPolicy) by exact S5.
  destruct (xstep_frame n f g hess prox_g mono sy (grad (pY sy)) Py) as (F1 & F2 & F3 & F4 & F5 & F6 & F7 & F8 & F9).
  fold sx in F1, F2, F3, F4, F5, F6, F7, F8, F9.
  assert (Lx : pL sx = L0) by (unfold sx, xstep, policy_step; rewrite Py; destruct (mono && _)%bool; [destruct (ltb _ _)|]; exact EL0).
  assert (Yx : pY sx = pY sy) by (unfold sx, xstep, policy_step; rewrite Py; destruct (mono && _)%bool; [destruct (ltb _ _)|]; reflexivity).
  assert (Ys : pY sy = (fun i => (Tk * pX s i + rob_t L0 Tk * rob_z Z s i) / (Tk + rob_t L0 Tk))) by (unfold sy, rob_y; cbn [pY setY]; rewrite S1, EL0; reflexivity).
  assert (X1 : pX s1 = pX sx) by (rewrite E1; destruct (Rle_dec fv Q); reflexivity).
  assert (Y1 : pY s1 = pY sx) by (rewrite E1; destruct (Rle_dec fv Q); reflexivity).
  exists L0. cp. split; [exact LL0|]. split; [exact LL|]. split; [lia|]. split; [exact R5|]. cbv zeta. rewrite X1, Y1, Yx, Ys.
  split; [reflexivity|]. split.
  { intros Hm. rewrite <- Ys. unfold sx, xstep, policy_step. rewrite Py, Hm. cbn [andb]. cp. unfold pstep. replace (pL sy) with L0 by (symmetry; exact EL0). reflexivity. }
  split; [reflexivity|]. split.
  { intros H. rewrite E1. destruct (Rle_dec fv Q); [exact Lx|lra]. }
  split; [exact ME|]. split.
  { split; [exact Ef|]. rewrite EQ, quad_spec, Lx, Yx, Ys. reflexivity. }
  split; [exact B1|]. intros Lf H1 H2. apply (B2 Lf fv Q (rob_t L0 Tk) (Tk + rob_t L0 Tk) H1 ltac:(lia) H2 eq_refl).
Qed.
End robust.
(** ** C42: rate of the robust line search *)
Section robust_rate.
Variables (n : nat) (E : vec -> Prop) (f g : vec -> R) (grad hess : vec -> vec) (prox_g : R -> vec -> vec) (fast : bool) (mom : momentum).
Hypothesis Cf : convex_on (fun _ => True) f.
Hypothesis Gf : is_gradient n f grad.
Hypothesis Cg : convex_on E g.
Hypothesis Hprox : forall L V, 0 < L -> argmin E (fun x => g x + L / 2 * nrm2 n (fun i => x i - V i)) (prox_g L V).
Variable xs : vec.
Notation F := (eval_objfn f g).
Hypothesis Hxs : argmin E F xs.
Notation PR := (prun n f g grad hess prox_g false fast mom).
Notation PS L y := (pstep grad prox_g L y).
Lemma rob_run gd gu m X0 L Lm N s : 1 <= gu -> 0 < gd -> 0 < L ->
  let s0 := pinit X0 L NoPolicy (Robust gd gu m 0 None) in
  searched n f g grad hess prox_g fast mom s0 N -> (forall j s, (j <= N)%nat -> PR j s0 = Some s -> pL s <= Lm) ->
  PR N s0 = Some s ->
  exists T Z, pbt s = Robust gd gu m T Z /\ ppol s = NoPolicy /\ 0 < pL s /\ 0 <= T /\ (T = 0 \/ E (pX s)) /\
    T * (F (pX s) - F xs) + / 2 * nrm2 n (fun i => rob_z Z s i - xs i) <= / 2 * nrm2 n (fun i => X0 i - xs i) /\
    INR N / (2 * sqrt Lm) <= sqrt T.
Proof.
  intros Hgu Hgd HL s0. revert s. induction N as [|N IH]; intros s Hs Hb.
  - cbn [prun]. intros [= <-]. exists 0, None. cbn [s0 pinit pbt ppol pL pX rob_z INR]. split; [reflexivity|]. split; [reflexivity|]. split; [exact HL|]. split; [lra|]. split; [left; reflexivity|]. split; [lra|].
    rewrite sqrt_0. unfold Rdiv. lra.
  - intros HR. pose proof (Hs (S N) s ltac:(lia) HR) as HFQ. pose proof (Hb (S N) s ltac:(lia) HR) as HLm. cbn [prun] in HR. destruct (PR N s0) as [s1|] eqn:E1; [|discriminate].
    destruct (IH s1 (searched_S _ _ _ _ _ _ _ _ _ _ Hs) (fun j t Hj => Hb j t ltac:(lia)) eq_refl) as (T & Z & B & P & L1 & HT & HEx & En & Gr). clear IH.
    destruct (rob_rel n f g grad hess prox_g false fast mom gd gu m T Z s1 s Hgu Hgd L1 P B HR) as (L0 & Q1 & Q2 & Q3 & Q4 & Q5 & Q6 & Q7 & Q8 & Q9 & (Q10 & Q11) & _ & _).
    specialize (Q6 eq_refl). specialize (Q8 HFQ). assert (L0p : 0 < L0) by (assert (0 < gd * pL s1) by (apply Rmult_lt_0_compat; lra); lra).
    set (t := rob_t L0 T) in *. set (y := fun i => (T * pX s1 i + t * rob_z Z s1 i) / (T + t)) in *.
    assert (HM : majorises n f grad L0 (PS L0 y) y) by (unfold majorises; rewrite <- Q6, <- Q10; eapply Rle_trans; [exact HFQ|right; exact Q11]).
    destruct (rob_t_eq L0 T L0p HT) as [Tp _]. fold t in Tp.
    pose proof (rob_energy n f g grad prox_g E Cf Gf Cg Hprox xs Hxs L0 T (pX s1) (rob_z Z s1) L0p HT HEx HM) as RE. cbv zeta in RE. fold t y in RE.
    exists (T + t), (Some (fun i => rob_z Z s1 i + t * pL s * (pX s i - y i))). split; [exact Q7|]. split; [exact Q4|]. split; [lra|]. split; [lra|]. split.
    + right. rewrite Q6. apply (pstep_in n E g grad prox_g Hprox); exact L0p.
    + split; [cbn [rob_z]; rewrite Q6, Q8; lra|]. rewrite S_INR.
      pose proof (rob_growth L0 Lm T ltac:(lra) HT) as G. fold t in G. assert (0 < sqrt Lm) by (apply sqrt_lt_R0; lra).
      replace ((INR N + 1) / (2 * sqrt Lm)) with (INR N / (2 * sqrt Lm) + / (2 * sqrt Lm)) by (field; lra). lra.
Qed.
(** With L bounded by [Lm] during the run, the gap after N iterations is at most 2 Lm |x0 - x*|^2 / N^2. *)
Theorem C42_rate_robust gd gu m X0 L Lm N s : 1 <= gu -> 0 < gd -> 0 < L ->
  let s0 := pinit X0 L NoPolicy (Robust gd gu m 0 None) in
  searched n f g grad hess prox_g fast mom s0 N -> (forall j s, (j <= N)%nat -> PR j s0 = Some s -> pL s <= Lm) -> (0 < N)%nat ->
  PR N s0 = Some s -> F (getmin s) - F xs <= 2 * Lm * nrm2 n (fun i => X0 i - xs i) / INR N ^ 2.
Proof.
  intros Hgu Hgd HL s0 Hs Hb HN HR. destruct (rob_run gd gu m X0 L Lm N s Hgu Hgd HL Hs Hb HR) as (T & Z & _ & _ & L1 & HT & _ & En & Gr).
  pose proof (Hb N s ltac:(lia) HR) as HLm. assert (NP : 0 < INR N) by (apply lt_0_INR; exact HN). assert (SP : 0 < sqrt Lm) by (apply sqrt_lt_R0; lra).
  pose proof (nrm2_nonneg n (fun i => rob_z Z s i - xs i)) as P1. set (D := nrm2 n (fun i => X0 i - xs i)) in *.
  assert (TB : INR N ^ 2 / (4 * Lm) <= T).
  { rewrite <- (sqrt_sqrt T HT). apply Rle_trans with ((INR N / (2 * sqrt Lm)) * (INR N / (2 * sqrt Lm))).
    - replace (INR N / (2 * sqrt Lm) * (INR N / (2 * sqrt Lm))) with (INR N ^ 2 / (4 * (sqrt Lm * sqrt Lm))) by (field; lra). rewrite (sqrt_sqrt Lm) by lra. lra.
    - assert (0 <= INR N / (2 * sqrt Lm)) by (apply Rlt_le, Rdiv_lt_0_compat; lra). apply Rmult_le_compat; lra. }
  unfold getmin. set (G := F (pX s) - F xs) in *. assert (TG : T * G <= D / 2) by lra.
  assert (N2 : 0 < INR N ^ 2) by (apply pow_lt; exact NP).
  destruct (Rle_lt_dec G 0) as [G0|G0].
  - apply Rle_trans with 0; [exact G0|]. apply Rmult_le_pos; [apply Rmult_le_pos; [lra|apply nrm2_nonneg]|apply Rlt_le, Rinv_0_lt_compat; exact N2].
  - assert (K : INR N ^ 2 / (4 * Lm) * G <= D / 2) by (apply Rle_trans with (T * G); [apply Rmult_le_compat_r; lra|exact TG]).
    apply (Rmult_le_compat_l (4 * Lm / INR N ^ 2)) in K; [|apply Rlt_le, Rdiv_lt_0_compat; lra].
    replace (4 * Lm / INR N ^ 2 * (INR N ^ 2 / (4 * Lm) * G)) with G in K by (field; split; lra).
    replace (4 * Lm / INR N ^ 2 * (D / 2)) with (2 * Lm * D / INR N ^ 2) in K by (field; lra). exact K.
Qed.
End robust_rate.

(** ** C40: line searches *)
Section c40.
Variables (n : nat) (f g : vec -> R) (grad hess : vec -> vec) (prox_g : R -> vec -> vec) (mono fast : bool) (mom : momentum).
Notation PI := (piter n f g grad hess prox_g mono fast mom).
Notation PR := (prun n f g grad hess prox_g mono fast mom).
Lemma lip_maj Lf L x y : is_gradient n f grad -> lipschitz n grad Lf -> Lf <= L -> majorises n f grad L x y.
Proof.
  intros Gf Hlip HLf. pose proof (descent n f grad Lf Gf Hlip x y) as D. unfold majorises in *. pose proof (nrm2_nonneg n (fun i => x i - y i)) as Q.
  assert (Lf / 2 * nrm2 n (fun i => x i - y i) <= L / 2 * nrm2 n (fun i => x i - y i)) by (apply Rmult_le_compat_r; lra). lra.
Qed.
(** In every iteration of every run with the standard line search: at least one and at most maxiter trials, L does not decrease, and on
    exit the quadratic bound holds at the new iterate with the final L, unless the limit was reached. *)
Theorem C40_standard gu m X0 L N s s' : 1 <= gu -> 0 < L -> PR N (pinit X0 L NoPolicy (Standard gu m)) = Some s -> PI s = Some s' ->
  (1 <= pit s' <= m)%nat /\ L <= pL s <= pL s' /\ (majorises n f grad (pL s') (pX s') (pY s) \/ pit s' = m).
Proof.
  intros Hg HL HR HI. destruct (std_run n f g grad hess prox_g mono fast mom gu m X0 L N s Hg HL HR) as (K & T & P & B & L1).
  destruct (std_rel n f g grad hess prox_g mono fast mom gu m s s' Hg ltac:(lra) P B HI) as (L0 & _ & _ & Q1 & Q2 & Q3 & Q4 & (Q5 & Q6) & _).
  split; [exact Q2|]. split; [lra|]. destruct Q4 as [Q4|Q4]; [left|right; exact Q4]. unfold majorises. rewrite (Q3 Q4), <- Q5, <- Q6. exact Q4.
Qed.
(** L stays below max (L0, gamma_u Lf), and enough trials make every search succeed. *)
Theorem C40_standard_limit gu m X0 L Lf N s : 1 <= gu -> 0 < L -> is_gradient n f grad -> lipschitz n grad Lf ->
  PR N (pinit X0 L NoPolicy (Standard gu m)) = Some s -> pL s <= Rmax L (gu * Lf).
Proof.
  intros Hg HL Gf Hlip. revert s. induction N as [|N IH]; intros s; [cbn [prun]; intros [= <-]; cbn [pL pinit]; apply Rmax_l|].
  intros HR. cbn [prun] in HR. destruct (PR N _) as [s1|] eqn:E1; [|discriminate]. specialize (IH s1 eq_refl).
  destruct (std_run n f g grad hess prox_g mono fast mom gu m X0 L N s1 Hg HL E1) as (K & T & P & B & L1).
  destruct (std_rel n f g grad hess prox_g mono fast mom gu m s1 s Hg ltac:(lra) P B HR) as (L0 & _ & _ & Q1 & Q2 & Q3 & Q4 & (Q5 & Q6) & Q7 & _).
  specialize (Q7 Lf (fun L' x H => lip_maj Lf L' x (pY s1) Gf Hlip H)). eapply Rle_trans; [exact Q7|]. apply Rmax_lub; [exact IH|apply Rmax_r].
Qed.
Theorem C40_standard_enough gu m X0 L Lf N s s' : 1 <= gu -> 0 < L -> is_gradient n f grad -> lipschitz n grad Lf -> Lf <= L * gu ^ (m - 1) ->
  PR N (pinit X0 L NoPolicy (Standard gu m)) = Some s -> PI s = Some s' -> majorises n f grad (pL s') (pX s') (pY s) /\ pF s' <= pQ s'.
Proof.
  intros Hg HL Gf Hlip Hm HR HI. destruct (std_run n f g grad hess prox_g mono fast mom gu m X0 L N s Hg HL HR) as (K & T & P & B & L1).
  destruct (std_rel n f g grad hess prox_g mono fast mom gu m s s' Hg ltac:(lra) P B HI) as (L0 & _ & _ & Q1 & Q2 & Q3 & _ & (Q5 & Q6) & _ & Q8).
  assert (Q4 : pF s' <= pQ s').
  { apply (Q8 Lf (fun L' x H => lip_maj Lf L' x (pY s) Gf Hlip H)). eapply Rle_trans; [exact Hm|]. apply Rmult_le_compat_r; [apply pow_le; lra|exact L1]. }
  split; [|exact Q4]. unfold majorises. rewrite (Q3 Q4), <- Q5, <- Q6. exact Q4.
Qed.
(** The robust variant: L shrinks by gamma_d at most before the trials of an iteration. *)
Lemma rob_fields gd gu m X0 L N s : 1 <= gu -> 0 < gd -> 0 < L -> PR N (pinit X0 L NoPolicy (Robust gd gu m 0 None)) = Some s ->
  ppol s = NoPolicy /\ 0 < pL s /\ exists T Z, pbt s = Robust gd gu m T Z.
Proof.
  intros Hg Hd HL. revert s. induction N as [|N IH]; intros s; [cbn [prun]; intros [= <-]; cbn; repeat split; [exact HL|]; exists 0, None; reflexivity|].
  intros HR. cbn [prun] in HR. destruct (PR N _) as [s1|] eqn:E1; [|discriminate]. destruct (IH s1 eq_refl) as (P & L1 & T & Z & B).
  destruct (rob_rel n f g grad hess prox_g mono fast mom gd gu m T Z s1 s Hg Hd L1 P B HR) as (L0 & Q1 & Q2 & Q3 & Q4 & Q5 & Q6 & Q7 & _).
  split; [exact Q4|]. split; [assert (0 < gd * pL s1) by (apply Rmult_lt_0_compat; lra); lra|]. eexists _, _. exact Q7.
Qed.
Theorem C40_robust gd gu m X0 L N s s' : 1 <= gu -> 0 < gd -> 0 < L -> PR N (pinit X0 L NoPolicy (Robust gd gu m 0 None)) = Some s -> PI s = Some s' ->
  (1 <= pit s' <= m)%nat /\ gd * pL s <= pL s' /\ (majorises n f grad (pL s') (pX s') (pY s') \/ pit s' = m).
Proof.
  intros Hg Hd HL HR HI. destruct (rob_fields gd gu m X0 L N s Hg Hd HL HR) as (P & L1 & T & Z & B).
  destruct (rob_rel n f g grad hess prox_g mono fast mom gd gu m T Z s s' Hg Hd L1 P B HI) as (L0 & Q1 & Q2 & Q3 & Q4 & Q5 & Q6 & Q7 & Q8 & Q9 & (Q10 & Q11) & _).
  split; [exact Q3|]. split; [exact Q2|]. destruct Q9 as [Q9|Q9]; [left|right; exact Q9]. unfold majorises. rewrite Q5, (Q8 Q9), <- Q10. eapply Rle_trans; [exact Q9|right; exact Q11].
Qed.
Theorem C40_robust_limit gd gu m X0 L Lf N s : 1 <= gu -> 0 < gd <= 1 -> 0 < L -> is_gradient n f grad -> lipschitz n grad Lf ->
  PR N (pinit X0 L NoPolicy (Robust gd gu m 0 None)) = Some s -> pL s <= Rmax L (gu * Lf).
Proof.
  intros Hg Hd HL Gf Hlip. revert s. induction N as [|N IH]; intros s; [cbn [prun]; intros [= <-]; cbn [pL pinit]; apply Rmax_l|].
  intros HR. cbn [prun] in HR. destruct (PR N _) as [s1|] eqn:E1; [|discriminate]. specialize (IH s1 eq_refl).
  destruct (rob_fields gd gu m X0 L N s1 Hg ltac:(lra) HL E1) as (P & L1 & T & Z & B).
  destruct (rob_rel n f g grad hess prox_g mono fast mom gd gu m T Z s1 s Hg ltac:(lra) L1 P B HR) as (L0 & Q1 & Q2 & Q3 & Q4 & Q5 & Q6 & Q7 & Q8 & Q9 & _ & Q12 & _).
  specialize (Q12 Lf (fun L' x y H => lip_maj Lf L' x y Gf Hlip H)). eapply Rle_trans; [exact Q12|]. apply Rmax_lub; [|apply Rmax_r].
  eapply Rle_trans; [|exact IH]. assert (0 <= (1 - gd) * pL s1) by (apply Rmult_le_pos; lra). lra.
Qed.
(** With at least one trial no iteration fails, whatever the functions. *)
Lemma std_some gu G : forall m it p s, exists s' p' it', std_loop n f g hess prox_g mono gu G m it (Some p) s = (s', Some p', it').
Proof. induction m as [|m IH]; intros it p s; cbn [std_loop]; [eexists _, _, _; reflexivity|]. destruct (leb _ _); [eexists _, _, _; reflexivity|apply IH]. Qed.
Lemma rob_some gu Tk Z : forall m it p s, exists s' p' it', rob_loop n f g grad hess prox_g mono gu Tk Z m it (Some p) s = (s', Some p', it').
Proof. induction m as [|m IH]; intros it p s; cbn [rob_loop]; [eexists _, _, _; reflexivity|]. destruct (leb _ _); [eexists _, _, _; reflexivity|apply IH]. Qed.
Lemma std_bt gu G : forall m it last s, pbt (fst (fst (std_loop n f g hess prox_g mono gu G m it last s))) = pbt s.
Proof.
  assert (X : forall s, pbt (xstep n f g hess prox_g mono s G) = pbt s) by (intros s; unfold xstep; destruct (policy_step n hess s G); destruct (mono && _)%bool; [destruct (ltb _ _)|]; reflexivity).
  induction m as [|m IH]; intros it last s; [reflexivity|]. cbn [std_loop]. destruct (leb _ _); [apply X|]. rewrite IH. apply X.
Qed.
Definition trials (b : backtrack) : Prop := match b with NoBacktrack => True | Standard _ m => (0 < m)%nat | Robust _ _ m _ _ => (0 < m)%nat end.
Lemma iter_total s : trials (pbt s) -> exists s', PI s = Some s' /\ trials (pbt s').
Proof.
  intros H. unfold piter, pbody. destruct (start_fields f g mono fast s) as (_ & _ & _ & _ & _ & _ & _ & A8 & _). set (s0 := on_iteration_start f g mono fast s) in *.
  rewrite A8. destruct (pbt s) as [|gu m|gd gu m Tk Z] eqn:B.
  - eexists. split; [reflexivity|]. unfold ystep. cp.
    replace (pbt (xstep n f g hess prox_g mono s0 (grad (pY s0)))) with (pbt s0) by (unfold xstep; destruct (policy_step n hess s0 _); destruct (mono && _)%bool; [destruct (ltb _ _)|]; reflexivity). rewrite A8. exact I.
  - destruct m as [|m]; [cbn in H; lia|]. unfold std_update. pose proof (std_bt gu (grad (pY s0)) (S m) 0 None s0) as Hb.
    assert (E : exists s' p' it', std_loop n f g hess prox_g mono gu (grad (pY s0)) (S m) 0 None s0 = (s', Some p', it')).
    { cbn [std_loop]. destruct (leb _ _); [eexists _, _, _; reflexivity|apply std_some]. }
    destruct E as (s1 & [fv Q] & it & E). rewrite E in *. eexists. split; [reflexivity|]. unfold ystep. cp. cbn [fst] in Hb. rewrite Hb, A8. exact H.
  - destruct m as [|m]; [cbn in H; lia|]. unfold rob_update. set (z := match Z with None => pX s0 | Some z => z end).
    assert (E : exists s' p' it', rob_loop n f g grad hess prox_g mono gu Tk z (S m) 0 None (setL s0 (pL s0 * gd)) = (s', Some p', it')).
    { cbn [rob_loop]. destruct (leb _ _); [eexists _, _, _; reflexivity|apply rob_some]. }
    destruct E as (s1 & [[[fv Q] t] T] & it & E). rewrite E. eexists. split; [reflexivity|]. cp. exact H.
Qed.
Theorem C40_no_failure X0 L pol bt N : trials bt -> exists s, PR N (pinit X0 L pol bt) = Some s.
Proof.
  intros H. assert (K : exists s, PR N (pinit X0 L pol bt) = Some s /\ trials (pbt s)).
  { induction N as [|N (s & E & B)]; [eexists; split; [reflexivity|exact H]|]. destruct (iter_total s B) as (s' & E' & B'). exists s'. cbn [prun]. rewrite E. split; assumption. }
  destruct K as (s & E & _). exists s. exact E.
Qed.
(** A limit of zero trials is not rejected: the first iteration fails with an unbound variable. *)
Theorem C40_maxiter_zero_refuted gu gd X0 L : PI (pinit X0 L NoPolicy (Standard gu 0)) = None /\ PI (pinit X0 L NoPolicy (Robust gd gu 0 0 None)) = None.
Proof. split; reflexivity. Qed.
End c40.

(** ** C39: what the monotone option does not give *)
Definition sq1 (x : vec) : R := / 2 * x 0%nat ^ 2.
Definition zero_g (_ : vec) : R := 0.
Definition id_grad (x : vec) : vec := x.
Definition id_prox (_ : R) (V : vec) : vec := V.
Lemma sq1_convex : convex_on (fun _ => True) sq1.
Proof.
  intros x y t _ _ Ht. split; [exact I|]. unfold sq1, seg. assert (0 <= t * (1 - t) * ((x 0%nat - y 0%nat) * (x 0%nat - y 0%nat))).
  { apply Rmult_le_pos; [apply Rmult_le_pos; lra|apply Rle_0_sqr]. } simpl. nra.
Qed.
Lemma sq1_gradient : is_gradient 1 sq1 id_grad.
Proof.
  intros x d. unfold sq1, id_grad, dot, sumn. set (a := x 0%nat). set (b := d 0%nat).
  replace (0 + a * b) with (a * b + 0) by ring.
  intros eps He. assert (Hd : 0 < eps / (Rabs (b * b) + 1)) by (apply Rdiv_lt_0_compat; [exact He|pose proof (Rabs_pos (b * b)); lra]).
  exists (mkposreal _ Hd). cbn [pos]. intros h Hh Hlt.
  replace ((/ 2 * (a + (0 + h) * b) ^ 2 - / 2 * (a + 0 * b) ^ 2) / h - (a * b + 0)) with (h * (b * b) / 2) by (simpl; field; exact Hh).
  unfold Rdiv. rewrite !Rabs_mult, (Rabs_pos_eq (/ 2)) by lra. rewrite <- Rabs_mult.
  assert (K : Rabs h * (Rabs (b * b) + 1) < eps).
  { apply (Rmult_lt_compat_r (Rabs (b * b) + 1)) in Hlt; [|pose proof (Rabs_pos (b * b)); lra]. unfold Rdiv in Hlt. rewrite Rmult_assoc, Rinv_l in Hlt by (pose proof (Rabs_pos (b * b)); lra). lra. }
  pose proof (Rabs_pos h) as P1. pose proof (Rabs_pos (b * b)) as P2. assert (0 <= Rabs h * Rabs (b * b)) by (apply Rmult_le_pos; assumption). nra.
Qed.
Lemma sq1_prox L V : 0 < L -> argmin (fun _ => True) (fun x => zero_g x + L / 2 * nrm2 1 (fun i => x i - V i)) (id_prox L V).
Proof.
  intros HL. split; [exact I|]. intros x _. unfold zero_g, id_prox. pose proof (nrm2_nonneg 1 (fun i => x i - V i)).
  assert (Z : nrm2 1 (fun i => V i - V i) = 0) by (unfold nrm2; apply sumn_0; intros; ring). rewrite Z. assert (0 <= L / 2 * nrm2 1 (fun i => x i - V i)) by (apply Rmult_le_pos; lra). lra.
Qed.
(** Even when the bound holds (here L is the Lipschitz constant) the value recorded for the first iteration is the objective at the
    starting point, not that of the solution returned after it. *)
Theorem C39_first_value_refuted : exists X0 s, prun 1 sq1 zero_g id_grad id_grad id_prox true false Nesterov 1 (pinit X0 1 NoPolicy NoBacktrack) = Some s /\
  recorded sq1 zero_g true s <> eval_objfn sq1 zero_g (getmin s).
Proof.
  exists (fun _ => 1). eexists. split; [reflexivity|]. cbn. unfold eval_objfn, sq1, zero_g, id_prox, id_grad. cbn. lra.
Qed.
(** With L too small, the value recorded is smaller than the objective of the solution returned. *)
Theorem C39_small_L_refuted : exists X0 L s, 0 < L /\ prun 1 sq1 zero_g id_grad id_grad id_prox true false Nesterov 2 (pinit X0 L NoPolicy NoBacktrack) = Some s /\
  recorded sq1 zero_g true s < eval_objfn sq1 zero_g (getmin s).
Proof.
  exists (fun _ => 1), (1 / 10). set (s0 := pinit _ _ _ _). 
  assert (exists s1, piter 1 sq1 zero_g id_grad id_grad id_prox true false Nesterov s0 = Some s1) as [s1 E1] by (eexists; reflexivity).
  destruct (fixed_rel 1 sq1 zero_g id_grad id_grad id_prox true false Nesterov s0 s1 eq_refl eq_refl E1) as [(R1 & R2 & R3 & R4 & R5 & R6 & R7) RL].
  cbn [pk s0 pinit andb Nat.ltb Nat.leb] in R6, R7, R2. destruct R6 as [RX RO]. specialize (RO eq_refl). cbn [pX pY pL pt s0 pinit] in *.
  assert (exists s2, piter 1 sq1 zero_g id_grad id_grad id_prox true false Nesterov s1 = Some s2) as [s2 E2].
  { unfold piter, pbody. destruct (start_fields sq1 zero_g true false s1) as (_ & _ & _ & _ & _ & _ & _ & A8 & _). rewrite A8, R5. eexists. reflexivity. }
  exists s2. split; [lra|]. split; [cbn [prun]; change (piter 1 sq1 zero_g id_grad id_grad id_prox true false Nesterov s0) with (piter 1 sq1 zero_g id_grad id_grad id_prox true false Nesterov s0); rewrite E1; exact E2|].
  destruct (fixed_rel 1 sq1 zero_g id_grad id_grad id_prox true false Nesterov s1 s2 R4 R5 E2) as [(T1 & T2 & T3 & T4 & T5 & T6 & T7) TL].
  rewrite R2 in T6. cbn [andb Nat.ltb Nat.leb] in T6. rewrite RL in T6.
  assert (X1 : forall i, pX s1 i = -9) by (intros i; rewrite RX; unfold pstep, id_prox, id_grad; lra).
  assert (Y1 : forall i, pY s1 i = -9) by (intros i; rewrite R7, X1; lra).
  assert (O1 : pobj s1 = / 2) by (rewrite RO; unfold eval_objfn, sq1, zero_g; lra).
  unfold recorded, getmin. destruct T6 as [(TX & TF & TO)|(TX & TF & TO)].
  - exfalso. rewrite O1 in TF. unfold eval_objfn, sq1, zero_g, pstep, id_prox, id_grad in TF. rewrite Y1 in TF. lra.
  - rewrite TO, O1, TX. unfold eval_objfn, sq1, zero_g. rewrite X1. lra.
Qed.

Section dft_case.
Definition q_dfd (w : R) : R := / 5 * w ^ 2.
Definition q_grad (w : R) : R := 2 / 5 * w.
Notation DI := (diter R Rplus Rmult (fun x => x 0%nat) (fun w _ => w) q_dfd zero_g q_grad id_prox true (GenLinear 50 2)).
Notation DR := (drun R Rplus Rmult (fun x => x 0%nat) (fun w _ => w) q_dfd zero_g q_grad id_prox true (GenLinear 50 2)).
Lemma acc X xf yf xp zz t k o op : (0 < k)%nat -> q_dfd (3 / 5 * yf) <= o ->
  let x' := 3 / 5 * yf in let t' := (INR k + 50) / 2 in
  DI (mkD R X xf yf xp zz t 1 k o op) = mkD R (fun _ => x') x' (x' + t / t' * (x' - x') + (t - 1) / t' * (x' - xf)) xf x' t' 1 (S k) (q_dfd x') o.
Proof.
  intros Hk Ho. cbv zeta. unfold diter, dystep, dxstep, dstart, deval, wsub, id_prox, zero_g, q_grad. cbn [dX dXf dYf dXfprv dZZf dt dL dk dobj dobjprev andb mom_update].
  rewrite (proj2 (Nat.ltb_lt 0 k) Hk). replace (Nat.eqb k 0) with false by (symmetry; apply Nat.eqb_neq; lia).
  replace (yf + -1 * (1 / 1 * (2 / 5 * yf))) with (3 / 5 * yf) by field. rewrite Rplus_0_r.
  replace (ltb o (q_dfd (3 / 5 * yf))) with false by (symmetry; apply ltb_false; exact Ho). cbn [dX dXf dYf dXfprv dZZf dt dL dk dobj dobjprev].
  match goal with |- mkD R _ _ ?a _ _ _ _ _ _ _ = mkD R _ _ ?b _ _ _ _ _ _ _ => replace a with b; [reflexivity|] end. rewrite (proj2 (Nat.ltb_lt 0 k) Hk). unfold Rminus. ring.
Qed.
Lemma rej X xf yf xp zz t k o op : (0 < k)%nat -> o < q_dfd (3 / 5 * yf) ->
  dX R (DI (mkD R X xf yf xp zz t 1 k o op)) 0%nat = 3 / 5 * yf /\ dobj R (DI (mkD R X xf yf xp zz t 1 k o op)) = o.
Proof.
  intros Hk Ho. unfold diter, dystep, dxstep, dstart, deval, wsub, id_prox, zero_g, q_grad. cbn [dX dXf dYf dXfprv dZZf dt dL dk dobj dobjprev andb mom_update].
  rewrite (proj2 (Nat.ltb_lt 0 k) Hk). replace (Nat.eqb k 0) with false by (symmetry; apply Nat.eqb_neq; lia).
  replace (yf + -1 * (1 / 1 * (2 / 5 * yf))) with (3 / 5 * yf) by field. rewrite Rplus_0_r.
  replace (ltb o (q_dfd (3 / 5 * yf))) with true by (symmetry; apply ltb_true; exact Ho). cbn [dX dXf dYf dXfprv dZZf dt dL dk dobj dobjprev]. split; reflexivity.
Qed.
(** In the solvers that work in the Fourier domain a rejected step is undone in Xf but not in X, which is what they return; the recorded
    value is then smaller than the objective of the solution, although L is large enough (f is x^2/5, so Lf = 2/5 <= L = 1). *)
Theorem C39_dft_refuted : exists X0 N, let s := DR N (dinit R (fun x => x 0%nat) X0 1) in
  dobj R s < deval R q_dfd zero_g (dX R s) (dX R s 0%nat).
Proof.
  exists (fun _ => 2125), 4%nat. cbv zeta. cbn [drun].
  set (s1 := DI (dinit R _ _ _)).
  assert (E1 : s1 = mkD R (fun _ => 1275) 1275 1275 2125 2125 25 1 1 (q_dfd 2125) (q_dfd 2125)).
  { unfold s1, diter, dystep, dxstep, dstart, deval, wsub, id_prox, zero_g, q_grad, dinit. cbn [dX dXf dYf dXfprv dZZf dt dL dk dobj dobjprev andb mom_update Nat.eqb Nat.ltb Nat.leb INR].
    f_equal; try (extensionality i); unfold q_dfd; field. }
  rewrite E1. rewrite acc; [|lia|unfold q_dfd; lra]. cbv zeta.
  rewrite acc; [|lia|unfold q_dfd; cbn [INR]; lra]. cbv zeta.
  match goal with |- context [DI (mkD R ?X ?xf ?yf ?xp ?zz ?t 1 ?k ?o ?op)] => destruct (rej X xf yf xp zz t k o op) as [-> ->]; [lia|unfold q_dfd; cbn [INR]; lra|] end.
  unfold deval, zero_g, q_dfd. cbn [INR]. lra.
Qed.
End dft_case.

(** ** The solvers in the Fourier domain compute the same iterates (up to the defect above) *)
Section dft_sim.
Variables (n : nat) (f g : vec -> R) (grad hess : vec -> vec) (prox_g : R -> vec -> vec) (mono fast : bool) (mom : momentum).
Variable W : Type.
Variables (wadd : W -> W -> W) (wscal : R -> W -> W) (fwd : vec -> W) (inv : W -> vec) (obfn_dfd : W -> R) (grad_w : W -> W).
Definition agree (x y : vec) : Prop := forall i, (i < n)%nat -> x i = y i.
(** What is used of the transforms: linearity, inversion, and that an array has n entries. *)
Hypothesis fwd_add : forall x y, wadd (fwd x) (fwd y) = fwd (fun i => x i + y i).
Hypothesis fwd_scal : forall r x, wscal r (fwd x) = fwd (fun i => r * x i).
Hypothesis fwd_local : forall x y, agree x y -> fwd x = fwd y.
Hypothesis inv_fwd : forall x, agree (inv (fwd x)) x.
(** The methods of the derived class: same data fidelity term and gradient, and operations on the n entries only. *)
Hypothesis Hdfd : forall x, obfn_dfd (fwd x) = f x.
Hypothesis Hgrad : forall x, grad_w (fwd x) = fwd (grad x).
Hypothesis Hprox : forall L x y, agree x y -> agree (prox_g L x) (prox_g L y).
Hypothesis Hg : forall x y, agree x y -> g x = g y.
Notation DI := (diter W wadd wscal fwd inv obfn_dfd g grad_w prox_g mono mom).
Notation DR := (drun W wadd wscal fwd inv obfn_dfd g grad_w prox_g mono mom).
Notation PI := (piter n f g grad hess prox_g mono fast mom).
Notation PR := (prun n f g grad hess prox_g mono fast mom).
Definition simd (d : dstate W) (s : pstate) : Prop :=
  dXf W d = fwd (pX s) /\ dYf W d = fwd (pY s) /\ dt W d = pt s /\ dL W d = pL s /\ dk W d = pk s /\ (mono = true -> dobj W d = pobj s) /\
  ppol s = NoPolicy /\ pbt s = NoBacktrack /\ (mono = false \/ pk s = O -> agree (dX W d) (pX s)).
Lemma f_agree x y : agree x y -> f x = f y.
Proof. intros H. rewrite <- !Hdfd. f_equal. apply fwd_local, H. Qed.
Lemma sim_iter d s : simd d s -> exists s', PI s = Some s' /\ simd (DI d) s' /\ (agree (dX W (DI d)) (pX s') \/ pobj s' < eval_objfn f g (dX W (DI d))).
Proof.
  intros (H1 & H2 & H3 & H4 & H5 & H6 & H7 & H8 & H9).
  assert (ES : exists s', PI s = Some s').
  { unfold piter, pbody. destruct (start_fields f g mono fast s) as (_ & _ & _ & _ & _ & _ & _ & A8 & _). rewrite A8, H8. eexists. reflexivity. }
  destruct ES as [s' ES]. exists s'. split; [exact ES|].
  destruct (fixed_rel n f g grad hess prox_g mono fast mom s s' H7 H8 ES) as [(R1 & R2 & R3 & R4 & R5 & R6 & R7) RL].
  set (z := pstep grad prox_g (pL s) (pY s)) in *.
  assert (EV : wsub W wadd wscal (dYf W d) (wscal (1 / dL W d) (grad_w (dYf W d))) = fwd (fun i => pY s i - 1 / pL s * grad (pY s) i)).
  { unfold wsub. rewrite H2, H4, Hgrad, !fwd_scal, fwd_add. apply fwd_local. intros i _. lra. }
  set (X := prox_g (dL W d) (inv (fwd (fun i => pY s i - 1 / pL s * grad (pY s) i)))).
  assert (EX : agree X z). { unfold X, z, pstep. rewrite H4. apply Hprox, inv_fwd. }
  assert (EF : fwd X = fwd z) by (apply fwd_local, EX).
  assert (EO : deval W obfn_dfd g X (fwd X) = eval_objfn f g z) by (unfold deval, eval_objfn; rewrite Hdfd, (Hg X z EX), (f_agree X z EX); reflexivity).
  unfold simd. unfold DI, dystep, dxstep, dstart. cbn [dX dXf dYf dXfprv dZZf dt dL dk dobj dobjprev]. rewrite EV. fold X.
  destruct mono eqn:Em; cbn [andb] in *.
  - rewrite H5. destruct (Nat.ltb 0 (pk s)) eqn:Kb.
    + apply Nat.ltb_lt in Kb as K. assert (K0 : Nat.eqb (pk s) 0 = false) by (apply Nat.eqb_neq; lia). rewrite K0, EO, (H6 eq_refl).
      destruct R6 as [(RX & RF & RO)|(RX & RF & RO)].
      * replace (ltb (pobj s) (eval_objfn f g z)) with false by (symmetry; apply ltb_false; exact RF). cbn [dX dXf dYf dXfprv dZZf dt dL dk dobj dobjprev]. rewrite ?H5, ?Kb.
        split; [|left; rewrite RX; exact EX].
        split; [rewrite RX; exact EF|]. split.
        { unfold wsub. rewrite EF, H1, H3, !fwd_scal, !fwd_add, !fwd_scal, !fwd_add. apply fwd_local. intros i _. rewrite R7, RX. rewrite ?H5. lra. }
        split; [rewrite R3, H3; reflexivity|]. split; [congruence|]. split; [congruence|]. split; [intros _; symmetry; exact RO|]. split; [exact R4|]. split; [congruence|]. intros [C|C]; [discriminate|lia].
      * replace (ltb (pobj s) (eval_objfn f g z)) with true by (symmetry; apply ltb_true; exact RF). cbn [dX dXf dYf dXfprv dZZf dt dL dk dobj dobjprev]. rewrite ?H5, ?Kb.
        split; [|right].
        2:{ rewrite RO. unfold eval_objfn in *. rewrite (f_agree X z EX), (Hg X z EX). exact RF. }
        split; [rewrite RX; exact H1|]. split.
        { unfold wsub. rewrite EF, H1, H3, !fwd_scal, !fwd_add, !fwd_scal, !fwd_add. apply fwd_local. intros i _. rewrite R7, RX. lra. }
        split; [rewrite R3, H3; reflexivity|]. split; [congruence|]. split; [congruence|]. split; [intros _; symmetry; exact RO|]. split; [exact R4|]. split; [congruence|]. intros [C|C]; [discriminate|lia].
    + apply Nat.ltb_ge in Kb as K. assert (K0 : pk s = O) by lia. rewrite K0. cbn [Nat.eqb]. destruct R6 as [RX RO]. specialize (RO eq_refl).
      cbn [dX dXf dYf dXfprv dZZf dt dL dk dobj dobjprev]. rewrite ?H5, ?K0. cbn [Nat.ltb Nat.leb].
      split; [|left; rewrite RX; exact EX].
      split; [rewrite RX; exact EF|]. split.
      { unfold wsub. rewrite EF, H1, H3, !fwd_scal, !fwd_add, !fwd_scal, !fwd_add. apply fwd_local. intros i _. rewrite R7, RX, K0. lra. }
      split; [rewrite R3, H3, K0; reflexivity|]. split; [congruence|]. split; [congruence|]. split.
      { intros _. rewrite RO. unfold deval, eval_objfn. rewrite H1, Hdfd. f_equal. apply Hg. apply H9. right; exact K0. }
      split; [exact R4|]. split; [congruence|]. intros [C|C]; [discriminate|lia].
  - destruct R6 as [RX _]. cbn [dX dXf dYf dXfprv dZZf dt dL dk dobj dobjprev].
    split; [|left; rewrite RX; exact EX].
    split; [rewrite RX; exact EF|]. split.
    { unfold wsub. rewrite EF, H1, H3, H5, !fwd_scal, !fwd_add, !fwd_scal, !fwd_add. apply fwd_local. intros i _. rewrite R7, RX. lra. }
    split; [rewrite R3, H3, H5; reflexivity|]. split; [congruence|]. split; [congruence|]. split; [discriminate|]. split; [exact R4|]. split; [congruence|]. intros _. rewrite RX. exact EX.
Qed.
Lemma sim_init X0 L : simd (dinit W fwd X0 L) (pinit X0 L NoPolicy NoBacktrack).
Proof. unfold simd, dinit, pinit. cbn. split; [reflexivity|]. split; [reflexivity|]. repeat split. Qed.
Lemma sim_run X0 L N : exists s, PR N (pinit X0 L NoPolicy NoBacktrack) = Some s /\ simd (DR N (dinit W fwd X0 L)) s.
Proof.
  induction N as [|N [s [E S]]]; [eexists; split; [reflexivity|apply sim_init]|].
  destruct (sim_iter _ s S) as (s' & E' & S' & _). exists s'. split; [cbn [prun]; rewrite E; exact E'|exact S'].
Qed.
(** Without the monotone option, PGMDFT returns the iterates of PGM (so the rates C42 apply). *)
Theorem C42_dft_same X0 L N : mono = false -> exists s, PR N (pinit X0 L NoPolicy NoBacktrack) = Some s /\ agree (dX W (DR N (dinit W fwd X0 L))) (getmin s).
Proof. intros Hm. destruct (sim_run X0 L N) as (s & E & S). exists s. split; [exact E|]. apply S. left; exact Hm. Qed.
(** With it, the transformed solution Xf and the recorded values are those of PGM. X itself agrees, or the step was rejected and X is the
    rejected candidate, whose objective is above the recorded value. *)
Theorem C39_dft X0 L N : mono = true -> exists s, PR (S N) (pinit X0 L NoPolicy NoBacktrack) = Some s /\
  let d := DR (S N) (dinit W fwd X0 L) in
  dXf W d = fwd (getmin s) /\ dobj W d = recorded f g mono s /\ (agree (dX W d) (getmin s) \/ dobj W d < eval_objfn f g (dX W d)).
Proof.
  intros Hm. destruct (sim_run X0 L N) as (s & E & S). destruct (sim_iter _ s S) as (s' & E' & S' & A).
  exists s'. split; [cbn [prun]; rewrite E; exact E'|]. cbv zeta. split; [apply S'|]. assert (Ho : dobj W (DR (Datatypes.S N) (dinit W fwd X0 L)) = pobj s') by (apply S'; exact Hm).
  split; [unfold recorded; replace (if mono then pobj s' else eval_objfn f g (pX s')) with (pobj s') by (rewrite Hm; reflexivity); exact Ho|].
  destruct A as [A|A]; [left; exact A|right]. rewrite Ho. exact A.
Qed.
End dft_sim.

(** ** pgm.bpdn.BPDN and WeightedBPDN: the hypotheses of the theorems above hold *)
Require Import Verif.StepsModel Verif.StepsSpec Verif.StepsProofs.
Lemma sub_argmin n (E : vec -> Prop) g L V p : 0 < L -> E p -> subgradient n E g p (fun i => L * (V i - p i)) ->
  argmin E (fun x => g x + L / 2 * nrm2 n (fun i => x i - V i)) p.
Proof.
  intros HL Ep Hs. split; [exact Ep|]. intros x Hx. specialize (Hs x Hx).
  assert (Q : nrm2 n (fun i => x i - V i) = nrm2 n (fun i => p i - V i) - 2 * / L * dot n (fun i => L * (V i - p i)) (fun i => x i - p i) + nrm2 n (fun i => x i - p i)).
  { unfold nrm2, dot. rewrite <- sumn_scal, <- sumn_minus, <- sumn_plus. apply sumn_ext. intros i _. field. lra. }
  rewrite Q. pose proof (nrm2_nonneg n (fun i => x i - p i)) as P. set (d := dot n _ _) in *. set (a := nrm2 n (fun i => p i - V i)) in *. set (b := nrm2 n (fun i => x i - p i)) in *.
  replace (L / 2 * (a - 2 * / L * d + b)) with (L / 2 * a - d + L / 2 * b) by (field; lra). assert (0 <= L / 2 * b) by (apply Rmult_le_pos; lra). lra.
Qed.
Lemma quad_gradient n f grad (q : vec -> R) : (forall p x, f x = f p + dot n (grad p) (fun i => x i - p i) + q (fun i => x i - p i)) ->
  (forall t d, q (fun i => t * d i) = t * t * q d) -> is_gradient n f grad.
Proof.
  intros He Hq x d. intros eps Heps. assert (Hd : 0 < eps / (Rabs (q d) + 1)) by (apply Rdiv_lt_0_compat; [exact Heps|pose proof (Rabs_pos (q d)); lra]).
  exists (mkposreal _ Hd). cbn [pos]. intros h Hh Hlt.
  assert (E : forall t, f (fun i => x i + t * d i) = f x + t * dot n (grad x) d + t * t * q d).
  { intros t. rewrite (He x (fun i => x i + t * d i)), <- Hq. f_equal; [f_equal|].
    - unfold dot. rewrite <- sumn_scal. apply sumn_ext. intros i _. ring.
    - f_equal. extensionality i. ring. }
  rewrite !E. replace ((f x + (0 + h) * dot n (grad x) d + (0 + h) * (0 + h) * q d - (f x + 0 * dot n (grad x) d + 0 * 0 * q d)) / h - dot n (grad x) d) with (h * q d) by (field; exact Hh).
  rewrite Rabs_mult. apply (Rmult_lt_compat_r (Rabs (q d) + 1)) in Hlt; [|pose proof (Rabs_pos (q d)); lra]. unfold Rdiv in Hlt. rewrite Rmult_assoc, Rinv_l in Hlt by (pose proof (Rabs_pos (q d)); lra).
  pose proof (Rabs_pos h). lra.
Qed.
Lemma lsq_homog m L t d : linear_map L -> lsq m L (fun _ => 0) (fun i => t * d i) = t * t * lsq m L (fun _ => 0) d.
Proof.
  intros HL. unfold lsq. rewrite (nrm2_ext m _ (vscal t (fun i => L d i - 0))).
  { rewrite (nrm2_scal m t (fun i => L d i - 0)). ring. }
  intros i _. unfold vscal. assert (E : L (fun i => t * d i) i = t * L d i).
  { replace (fun i => t * d i) with (fun i => t * d i + 0 * d i) by (extensionality j; ring). rewrite HL. ring. }
  rewrite E. ring.
Qed.
Section lsq_class.
Variables (n m : nat) (L LT : vec -> vec) (s : vec) (f : vec -> R) (grad : vec -> vec).
Hypothesis HL : linear_map L.
Hypothesis Hadj : adjoint_of n m L LT.
Hypothesis Hf : forall x, f x = lsq m L s x.
Hypothesis Hg : forall x i, (i < n)%nat -> grad x i = LT (L x) i - LT s i.
Lemma lsq_taylor p x : f x = f p + dot n (grad p) (fun i => x i - p i) + lsq m L (fun _ => 0) (fun i => x i - p i).
Proof.
  rewrite !Hf. pose proof (sc_expand n m L LT s 0 HL Hadj p x) as K. unfold sc_f, ridge in K.
  assert (Q : dot n (grad p) (fun i => x i - p i) = dot n (sc_grad L LT s 0 p) (fun i => x i - p i)).
  { apply sumn_ext. intros i Hi. rewrite (Hg p i Hi). unfold sc_grad. ring. }
  lra.
Qed.
Lemma lsq_class_gradient : is_gradient n f grad.
Proof. apply (quad_gradient n f grad (lsq m L (fun _ => 0))); [apply lsq_taylor|intros; apply lsq_homog, HL]. Qed.
Lemma lsq_class_convex : convex_on (fun _ => True) f.
Proof. intros x y t _ _ Ht. split; [exact I|]. rewrite !Hf. apply (lsq_convex (fun _ => True) m L s HL); auto. Qed.
Lemma lsq_class_maj Lc : (forall x, nrm2 m (L x) <= Lc * nrm2 n x) -> forall x y, majorises n f grad Lc x y.
Proof.
  intros H x y. unfold majorises. rewrite (lsq_taylor y x). unfold lsq. specialize (H (fun i => x i - y i)). cbv beta in H.
  rewrite (nrm2_ext m (fun i => L (fun i0 => x i0 - y i0) i - 0) (L (fun i0 => x i0 - y i0))) by (intros; ring). lra.
Qed.
End lsq_class.

Section bpdn_inst.
Variables (Nr Nc Nm : nat) (D : nat -> nat -> R) (S W : vec) (lmbda : R) (wl1 : vec) (nonneg : bool).
Hypothesis HNm : (0 < Nm)%nat.
Hypothesis Hlam : 0 <= lmbda.
Hypothesis Hwl1 : forall p, (p < Nc * Nm)%nat -> 0 <= wl1 p.
Notation n := (Nc * Nm)%nat.
Notation f := (pb_f Nr Nc Nm D S).
Notation g := (pb_g Nc Nm lmbda wl1).
Notation grad := (pb_grad Nr Nc Nm D S).
Notation prox := (pb_prox lmbda wl1 nonneg).
Notation E := (nonneg_set nonneg n).
Lemma mm_sub k Q x y p : mm k Nm Q (fun i => x i - y i) p = mm k Nm Q x p - mm k Nm Q y p.
Proof. unfold mm. rewrite <- sumn_minus. apply sumn_ext. intros. ring. Qed.
Lemma pb_f_lsq x : f x = lsq (Nr * Nm) (mm Nc Nm D) S x.
Proof. unfold pb_f, lsq. f_equal. rewrite <- (sqrt_sq_sum (Nr * Nm)). f_equal. f_equal. apply sumn_ext. intros. ring. Qed.
Lemma pb_grad_eq x i : grad x i = mm Nr Nm (tr D) (mm Nc Nm D x) i - mm Nr Nm (tr D) S i.
Proof. unfold pb_grad. apply mm_sub. Qed.
Lemma pb_gradient : is_gradient n f grad.
Proof. apply (lsq_class_gradient n (Nr * Nm) (mm Nc Nm D) (mm Nr Nm (tr D)) S); [apply mm_linear|apply mm_adjoint, HNm|exact pb_f_lsq|intros; apply pb_grad_eq]. Qed.
Lemma pb_convex : convex_on (fun _ => True) f.
Proof. apply (lsq_class_convex (Nr * Nm) (mm Nc Nm D) S); [apply mm_linear|exact pb_f_lsq]. Qed.
Lemma pb_g_convex : convex_on E g.
Proof. apply (l1reg_convex E n lmbda wl1 Hlam). apply nonneg_convex. Qed.
Lemma pb_prox_min L V : 0 < L -> argmin E (fun x => g x + L / 2 * nrm2 n (fun i => x i - V i)) (prox L V).
Proof.
  intros HL. destruct (bpdn_y n nonneg lmbda L wl1 V (fun _ => 0) Hlam HL Hwl1) as [P1 P2].
  assert (Q : bpdn_ystep nonneg lmbda L wl1 V (fun _ => 0) = prox L V).
  { unfold bpdn_ystep, pb_prox. f_equal. f_equal. extensionality i. ring. }
  rewrite Q in *. apply sub_argmin; [exact HL|exact P1|]. intros z Hz. specialize (P2 z Hz).
  replace (fun i => L * (V i - prox L V i)) with (fun i => L * (V i + 0 - prox L V i)) by (extensionality i; ring). exact P2.
Qed.
Lemma pb_maj Lc : (forall x, nrm2 (Nr * Nm) (mm Nc Nm D x) <= Lc * nrm2 n x) -> forall x y, majorises n f grad Lc x y.
Proof. apply (lsq_class_maj n (Nr * Nm) (mm Nc Nm D) (mm Nr Nm (tr D)) S); [apply mm_linear|apply mm_adjoint, HNm|exact pb_f_lsq|intros; apply pb_grad_eq]. Qed.
(** The FISTA bound for BPDN: L at least the square of the largest singular value of D. *)
Theorem C42_bpdn mono fast L X0 xs N s : 0 < L -> (forall x, nrm2 (Nr * Nm) (mm Nc Nm D x) <= L * nrm2 n x) -> (mono = true -> E X0) ->
  argmin E (fun x => f x + g x) xs ->
  prun n f g grad (pb_hess Nr Nc Nm D) prox mono fast Nesterov (Datatypes.S N) (pinit X0 L NoPolicy NoBacktrack) = Some s ->
  f (getmin s) + g (getmin s) - (f xs + g xs) <= 2 * L * nrm2 n (fun i => X0 i - xs i) / (INR (Datatypes.S N) + 1) ^ 2.
Proof.
  intros HL HD HE Hxs HR.
  pose proof (C42_rate_fixed n E f g grad (pb_hess Nr Nc Nm D) prox mono fast Nesterov pb_convex pb_gradient pb_g_convex pb_prox_min xs Hxs X0 L N s HL HE (pb_maj L HD) C41_nesterov_accelerates HR) as H.
  pose proof (nesterov_rate (L * nrm2 n (fun i => X0 i - xs i)) N ltac:(apply Rmult_le_pos; [lra|apply nrm2_nonneg])) as H2.
  rewrite S_INR. replace (INR N + 1 + 1) with (INR N + 2) by ring. unfold eval_objfn in H. rewrite <- Rmult_assoc in H2. lra.
Qed.
(** Its monotone option: objective of the iterates, and recorded values. *)
Theorem C39_bpdn fast mom L X0 N s s' : 0 < L -> (forall x, nrm2 (Nr * Nm) (mm Nc Nm D x) <= L * nrm2 n x) -> E X0 ->
  let run := prun n f g grad (pb_hess Nr Nc Nm D) prox true fast mom in
  run N (pinit X0 L NoPolicy NoBacktrack) = Some s -> run (Datatypes.S N) (pinit X0 L NoPolicy NoBacktrack) = Some s' ->
  f (getmin s') + g (getmin s') <= f (getmin s) + g (getmin s) /\ ((1 <= N)%nat -> recorded f g true s' = f (getmin s') + g (getmin s')).
Proof.
  intros HL HD HE run HR HR'. assert (HI : piter n f g grad (pb_hess Nr Nc Nm D) prox true fast mom s = Some s').
  { unfold run in *. cbn [prun] in HR'. rewrite HR in HR'. exact HR'. }
  destruct (C39_exact n E f g grad (pb_hess Nr Nc Nm D) prox true fast mom pb_convex pb_gradient pb_g_convex pb_prox_min X0 L N s s' eq_refl HL HE (pb_maj L HD) HR HI) as (A & _ & B).
  split; [exact A|exact B].
Qed.
(** Unchanged iterates are solutions, for every momentum and L. *)
Theorem C42_bpdn_fixed L y : 0 < L -> (forall p, (p < n)%nat -> prox L (fun i => y i - 1 / L * grad y i) p = y p) ->
  argmin E (fun x => f x + g x) (prox L (fun i => y i - 1 / L * grad y i)).
Proof. intros HL Hy. exact (C42_fixed_optimal n E f g grad prox pb_convex pb_gradient pb_g_convex pb_prox_min L y HL Hy). Qed.

(** WeightedBPDN. *)
Hypothesis HW : forall p, (p < Nr * Nm)%nat -> 0 <= W p.
Notation fw := (wb_f Nr Nc Nm D S W).
Notation gradw := (wb_grad Nr Nc Nm D S W).
Definition wL (x : vec) : vec := fun p => sqrt (W p) * mm Nc Nm D x p.
Definition wLT (r : vec) : vec := mm Nr Nm (tr D) (fun p => sqrt (W p) * r p).
Lemma wL_linear : linear_map wL.
Proof. intros a x b y p. unfold wL. rewrite (mm_linear Nc Nm D a x b y p). ring. Qed.
Lemma wL_adjoint : adjoint_of n (Nr * Nm) wL wLT.
Proof.
  intros x r. unfold wL, wLT. rewrite <- (mm_adjoint Nr Nc Nm D HNm x (fun p => sqrt (W p) * r p)). unfold dot. apply sumn_ext. intros. ring.
Qed.
Lemma wb_f_lsq x : fw x = lsq (Nr * Nm) wL (fun p => sqrt (W p) * S p) x.
Proof. unfold wb_f, lsq, wL. f_equal. rewrite <- (sqrt_sq_sum (Nr * Nm)). f_equal. f_equal. apply sumn_ext. intros. ring. Qed.
Lemma mm_ext_in Q x y p : (p < n)%nat -> (forall i, (i < Nr * Nm)%nat -> x i = y i) -> mm Nr Nm Q x p = mm Nr Nm Q y p.
Proof. intros Hp H. apply mm_local; assumption. Qed.
Lemma wb_grad_eq x i : (i < n)%nat -> gradw x i = wLT (wL x) i - wLT (fun p => sqrt (W p) * S p) i.
Proof.
  intros Hi. unfold wb_grad, wLT, wL. rewrite <- mm_sub. apply mm_ext_in; [exact Hi|]. intros p Hp.
  transitivity (sqrt (W p) * sqrt (W p) * (mm Nc Nm D x p - S p)); [rewrite sqrt_sqrt by (apply HW, Hp); reflexivity|ring].
Qed.
Theorem C42_wbpdn mono fast L X0 xs N s : 0 < L -> (forall x, sumn (Nr * Nm) (fun p => W p * mm Nc Nm D x p ^ 2) <= L * nrm2 n x) -> (mono = true -> E X0) ->
  argmin E (fun x => fw x + g x) xs ->
  prun n fw g gradw (pb_hess Nr Nc Nm D) prox mono fast Nesterov (Datatypes.S N) (pinit X0 L NoPolicy NoBacktrack) = Some s ->
  fw (getmin s) + g (getmin s) - (fw xs + g xs) <= 2 * L * nrm2 n (fun i => X0 i - xs i) / (INR (Datatypes.S N) + 1) ^ 2.
Proof.
  intros HL HD HE Hxs HR.
  assert (HD' : forall x, nrm2 (Nr * Nm) (wL x) <= L * nrm2 n x).
  { intros x. eapply Rle_trans; [right|apply HD]. unfold nrm2, wL. apply sumn_ext. intros p Hp.
    transitivity (sqrt (W p) * sqrt (W p) * mm Nc Nm D x p ^ 2); [ring|]. rewrite sqrt_sqrt by (apply HW, Hp). reflexivity. }
  assert (C1 : convex_on (fun _ => True) fw) by (apply (lsq_class_convex (Nr * Nm) wL (fun p => sqrt (W p) * S p)); [exact wL_linear|exact wb_f_lsq]).
  assert (C2 : is_gradient n fw gradw) by (apply (lsq_class_gradient n (Nr * Nm) wL wLT (fun p => sqrt (W p) * S p)); [exact wL_linear|exact wL_adjoint|exact wb_f_lsq|exact wb_grad_eq]).
  assert (C3 : forall x y, majorises n fw gradw L x y) by (apply (lsq_class_maj n (Nr * Nm) wL wLT (fun p => sqrt (W p) * S p)); [exact wL_linear|exact wL_adjoint|exact wb_f_lsq|exact wb_grad_eq|exact HD']).
  pose proof (C42_rate_fixed n E fw g gradw (pb_hess Nr Nc Nm D) prox mono fast Nesterov C1 C2 pb_g_convex pb_prox_min xs Hxs X0 L N s HL HE C3 C41_nesterov_accelerates HR) as H.
  pose proof (nesterov_rate (L * nrm2 n (fun i => X0 i - xs i)) N ltac:(apply Rmult_le_pos; [lra|apply nrm2_nonneg])) as H2.
  rewrite S_INR. replace (INR N + 1 + 1) with (INR N + 2) by ring. unfold eval_objfn in H. rewrite <- Rmult_assoc in H2. lra.
Qed.
End bpdn_inst.

(** ** Examples: the hypotheses are met *)
Lemma sq1_maj L : 1 <= L -> forall x y, majorises 1 sq1 id_grad L x y.
Proof. intros HL x y. unfold majorises, sq1, id_grad, nrm2, dot, sumn. assert (0 <= (L - 1) * ((x 0%nat - y 0%nat) * (x 0%nat - y 0%nat))) by (apply Rmult_le_pos; [lra|apply Rle_0_sqr]). simpl. set (a := x 0%nat) in *. set (b := y 0%nat) in *. nra. Qed.
Lemma sq1_lip : lipschitz 1 id_grad 1.
Proof. intros x y. unfold id_grad. lra. Qed.
Example C42_ex : exists s, prun 1 sq1 zero_g id_grad id_grad id_prox false false Nesterov 3 (pinit (fun _ => 1) 2 NoPolicy NoBacktrack) = Some s /\
  eval_objfn sq1 zero_g (getmin s) <= 2 * 2 * 1 / (3 + 1) ^ 2.
Proof.
  destruct (C40_no_failure 1 sq1 zero_g id_grad id_grad id_prox false false Nesterov (fun _ => 1) 2 NoPolicy NoBacktrack 3 I) as [s Hs].
  exists s. split; [exact Hs|].
  assert (M : argmin (fun _ => True) (eval_objfn sq1 zero_g) (fun _ => 0)).
  { split; [exact I|]. intros x _. unfold eval_objfn, sq1, zero_g. pose proof (pow2_ge_0 (x 0%nat)). lra. }
  assert (Cg : convex_on (fun _ => True) zero_g) by (intros x y t _ _ _; split; [exact I|unfold zero_g; lra]).
  pose proof (C42_fista 1 (fun _ => True) sq1 zero_g id_grad id_grad id_prox false false Nesterov sq1_convex sq1_gradient Cg sq1_prox (fun _ => 0) M (fun _ => 1) 2 1 2 s ltac:(lra) ltac:(lra) ltac:(discriminate) sq1_lip eq_refl Hs) as H.
  unfold nrm2, dot, sumn in H. cbn [INR] in H. unfold eval_objfn, zero_g in *. unfold sq1 at 2 in H. lra.
Qed.
Example C40_ex : exists s, prun 1 sq1 zero_g id_grad id_grad id_prox false false Nesterov 10 (pinit (fun _ => 1) (/ 4) NoPolicy (Standard 2 5)) = Some s /\
  pL s <= Rmax (/ 4) (2 * 1).
Proof.
  destruct (C40_no_failure 1 sq1 zero_g id_grad id_grad id_prox false false Nesterov (fun _ => 1) (/ 4) NoPolicy (Standard 2 5) 10 ltac:(cbn; lia)) as [s H].
  exists s. split; [exact H|].
  apply (C40_standard_limit 1 sq1 zero_g id_grad id_grad id_prox false false Nesterov 2 5 (fun _ => 1) (/ 4) 1 10 s); [lra|lra|exact sq1_gradient|exact sq1_lip|exact H].
Qed.
(** A matrix with an explicit bound: D = (1 1), |D x|^2 <= 2 |x|^2. *)
Example C42_bpdn_ex (x : vec) : nrm2 (1 * 1) (mm 2 1 (fun _ _ => 1) x) <= 2 * nrm2 (2 * 1) x.
Proof. unfold nrm2, dot, mm, sumn. simpl. pose proof (Rle_0_sqr (x 0%nat - x 1%nat)) as H. unfold Rsqr in H. lra. Qed.
Example C41_ex : accelerates Nesterov /\ accelerates (Linear 2).
Proof. split; [exact C41_nesterov_accelerates|apply C41_linear_accelerates; lra]. Qed.

Print Assumptions C39_recorded. Print Assumptions C39_exact. Print Assumptions C39_dft. Print Assumptions C39_bpdn.
Print Assumptions C39_first_value_refuted. Print Assumptions C39_small_L_refuted. Print Assumptions C39_dft_refuted.
Print Assumptions C40_standard. Print Assumptions C40_standard_limit. Print Assumptions C40_standard_enough. Print Assumptions C40_robust. Print Assumptions C40_robust_limit.
Print Assumptions C40_maxiter_zero_refuted. Print Assumptions C40_no_failure.
Print Assumptions C41_nesterov. Print Assumptions C41_nesterov_growth. Print Assumptions C41_nesterov_accelerates. Print Assumptions C41_linear_accelerates.
Print Assumptions C41_genlinear_tail. Print Assumptions C41_genlinear_refuted.
Print Assumptions C42_fixed_optimal. Print Assumptions C42_optimal_fixed. Print Assumptions C42_descent. Print Assumptions C42_rate_fixed. Print Assumptions C42_fista.
Print Assumptions C42_rate_standard. Print Assumptions C42_rate_robust. Print Assumptions C42_dft_same. Print Assumptions C42_bpdn. Print Assumptions C42_wbpdn. Print Assumptions C42_bpdn_fixed.
