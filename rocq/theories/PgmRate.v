(** Monotonicity and rates of the iterations of PgmModel. *)
Require Import Reals Lra Lia List Bool FunctionalExtensionality.
Require Import Verif.RVec Verif.ProxModel Verif.ProxSpec Verif.ProxProofs Verif.AdmmSpec Verif.AdmmProofs Verif.PgmModel Verif.PgmSpec Verif.PgmProofs.
Local Open Scope R_scope.

(** The momentum coefficients in the order in which they are used. *)
Fixpoint mseq (m : momentum) (k : nat) : R := match k with O => 1 | S k' => mom_update m (mseq m k') k' end.

Ltac cp := cbn [pX pY pXprv pYprv pZZ pt pL pk pobj pobjprev ppol pbt pF pQ pit setL setY setB setk].

Section run.
Variables (n : nat) (f g : vec -> R) (grad hess : vec -> vec) (prox_g : R -> vec -> vec) (mono fast : bool) (mom : momentum).
Notation F := (eval_objfn f g).
Notation PB := (pbody n f g grad hess prox_g mono fast mom).
Notation PI := (piter n f g grad hess prox_g mono fast mom).
Notation PR := (prun n f g grad hess prox_g mono fast mom).
Notation PS L y := (pstep grad prox_g L y).
Notation MK s := (mono && Nat.ltb 0 (pk s))%bool.

(** What one iteration with fixed L or with the standard line search does; [L0] is the step parameter of the last trial. *)
Definition step_rel (s s' : pstate) (L0 : R) : Prop :=
  let z := PS L0 (pY s) in let t' := mom_update mom (pt s) (pk s) in
  pXprv s' = pX s /\ pk s' = S (pk s) /\ pt s' = t' /\ ppol s' = NoPolicy /\ pbt s' = pbt s /\
  (if MK s then (pX s' = z /\ F z <= pobj s /\ pobj s' = F z) \/ (pX s' = pX s /\ pobj s < F z /\ pobj s' = pobj s)
   else pX s' = z /\ (mono = true -> pobj s' = F (pX s))) /\
  pY s' = (fun i => pX s' i + (if MK s then pt s / t' * (z i - pX s' i) else 0) + (pt s - 1) / t' * (pX s' i - pX s i)).

Lemma start_fields s : let s0 := on_iteration_start f g mono fast s in
  pX s0 = pX s /\ pY s0 = pY s /\ pXprv s0 = pX s /\ pt s0 = pt s /\ pL s0 = pL s /\ pk s0 = pk s /\ ppol s0 = ppol s /\ pbt s0 = pbt s /\
  (mono = true -> pobjprev s0 = (if Nat.eqb (pk s) 0 then F (pX s) else pobj s) /\ pobj s0 = (if Nat.eqb (pk s) 0 then F (pX s) else pobj s)).
Proof. cbv zeta. unfold on_iteration_start. cbn. repeat split; destruct mono; cbn; try reflexivity; discriminate. Qed.

(** An x step of a state that agrees with the start of the iteration, followed by the y step and the increment of k. *)
Lemma trial_rel s s0 L0 G : ppol s0 = NoPolicy -> pY s0 = pY s -> pXprv s0 = pX s -> pt s0 = pt s -> pk s0 = pk s -> pbt s0 = pbt s -> pL s0 = L0 ->
  (mono = true -> pobjprev s0 = (if Nat.eqb (pk s) 0 then F (pX s) else pobj s)) ->
  (mono = true -> pk s = O -> pobj s0 = F (pX s)) -> G = grad (pY s) ->
  forall s1 fv Q it L1, s1 = setL (xstep n f g hess prox_g mono s0 G) L1 ->
  let s' := ystep mono mom (setB s1 (pbt s1) fv Q it) in step_rel s (setk s' (S (pk s'))) L0 /\ pL s' = L1.
Proof.
  intros P1 P2 P3 P4 P5 P6 P7 P8 P9 -> s1 fv Q it L1 -> s'. unfold s', ystep, xstep, policy_step. rewrite P1. unfold step_rel, pstep, eval_objfn in *. rewrite <- P5.
  destruct mono; cbn [andb] in *.
  - specialize (P8 eq_refl). destruct (Nat.ltb 0 (pk s0)) eqn:Kb.
    + apply Nat.ltb_lt in Kb as K. destruct (Nat.eqb_spec (pk s) 0) as [K0|K0]; [lia|]. rewrite P2, P7, P8. destruct (ltb (pobj s) _) eqn:Et.
      * apply ltb_true in Et. cp; rewrite ?Kb. rewrite P3, P4. split; [|reflexivity].
        split; [reflexivity|]. split; [reflexivity|]. split; [reflexivity|]. split; [reflexivity|]. split; [exact P6|]. split; [|reflexivity].
        right. repeat split; assumption.
      * apply ltb_false in Et. cp; rewrite ?Kb. rewrite P3, P4. split; [|reflexivity].
        split; [reflexivity|]. split; [reflexivity|]. split; [reflexivity|]. split; [reflexivity|]. split; [exact P6|]. split; [|reflexivity].
        left. repeat split; assumption.
    + apply Nat.ltb_ge in Kb as K. cp; rewrite ?Kb. rewrite P2, P3, P4, P7. split; [|reflexivity].
      split; [reflexivity|]. split; [reflexivity|]. split; [reflexivity|]. split; [reflexivity|]. split; [exact P6|]. split.
      * split; [reflexivity|]. intros _. apply P9; [reflexivity|lia].
      * extensionality i. ring.
  - cp. rewrite P2, P3, P4, P7. split; [|reflexivity].
    split; [reflexivity|]. split; [reflexivity|]. split; [reflexivity|]. split; [reflexivity|]. split; [exact P6|]. split.
    * split; [reflexivity|discriminate].
    * extensionality i. ring.
Qed.
(** The objective before the first trial is the one recorded at the start, whatever the number of trials at k = 0. *)
Lemma std_loop_obj0 gu G : forall m it last s s' last' it', ppol s = NoPolicy -> pk s = O ->
  std_loop n f g hess prox_g mono gu G m it last s = (s', last', it') -> pobj s' = pobj s.
Proof.
  induction m as [|m IH]; intros it last s s' last' it' Hp Hk; cbn [std_loop]; [intros [= <- _ _]; reflexivity|].
  destruct (xstep_frame n f g hess prox_g mono s G Hp) as (F1 & F2 & F3 & F4 & F5 & F6 & F7 & F8 & F9).
  assert (Eo : pobj (xstep n f g hess prox_g mono s G) = pobj s).
  { unfold xstep, policy_step. rewrite Hp, Hk. cbn [Nat.ltb Nat.leb]. rewrite andb_false_r. reflexivity. }
  destruct (leb _ _); [intros [= <- _ _]; exact Eo|]. intros Hl. eapply IH in Hl; [|exact F7|cp; congruence]. rewrite Hl. exact Eo.
Qed.
(** Every trial state keeps the objective of the start at k = 0. *)
Lemma fixed_rel s s' : ppol s = NoPolicy -> pbt s = NoBacktrack -> PI s = Some s' -> step_rel s s' (pL s) /\ pL s' = pL s.
Proof.
  intros Hp Hb. unfold piter, pbody. destruct (start_fields s) as (A1 & A2 & A3 & A4 & A5 & A6 & A7 & A8 & A9). set (s0 := on_iteration_start f g mono fast s) in *.
  rewrite A8, Hb. intros [= <-].
  pose proof (trial_rel s s0 (pL s) (grad (pY s0)) ltac:(congruence) A2 A3 A4 A6 ltac:(congruence) A5 ltac:(intros Hm; apply A9; exact Hm)
    ltac:(intros Hm Hk; destruct (A9 Hm) as [_ A10]; rewrite A10, Hk; reflexivity) ltac:(congruence)
    (xstep n f g hess prox_g mono s0 (grad (pY s0))) (pF (xstep n f g hess prox_g mono s0 (grad (pY s0)))) (pQ (xstep n f g hess prox_g mono s0 (grad (pY s0)))) (pit (xstep n f g hess prox_g mono s0 (grad (pY s0)))) (pL s)) as T.
  assert (Es : xstep n f g hess prox_g mono s0 (grad (pY s0)) = setL (xstep n f g hess prox_g mono s0 (grad (pY s0))) (pL s)).
  { destruct (xstep_frame n f g hess prox_g mono s0 (grad (pY s0)) ltac:(congruence)) as (_ & _ & F3 & _). rewrite A5 in F3. rewrite <- F3.
    destruct (xstep n f g hess prox_g mono s0 (grad (pY s0))); reflexivity. }
  specialize (T Es). cbv zeta in T.
  assert (Eb : setB (xstep n f g hess prox_g mono s0 (grad (pY s0))) (pbt (xstep n f g hess prox_g mono s0 (grad (pY s0)))) (pF (xstep n f g hess prox_g mono s0 (grad (pY s0)))) (pQ (xstep n f g hess prox_g mono s0 (grad (pY s0)))) (pit (xstep n f g hess prox_g mono s0 (grad (pY s0)))) = xstep n f g hess prox_g mono s0 (grad (pY s0))).
  { destruct (xstep n f g hess prox_g mono s0 (grad (pY s0))); reflexivity. }
  rewrite Eb in T. exact T.
Qed.
Lemma std_rel gu m s s' : 1 <= gu -> 0 < pL s -> ppol s = NoPolicy -> pbt s = Standard gu m -> PI s = Some s' ->
  exists L0, step_rel s s' L0 /\ pL s <= L0 /\ pL s <= pL s' /\ (1 <= pit s' <= m)%nat /\
   (pF s' <= pQ s' -> pL s' = L0) /\ (pF s' <= pQ s' \/ pit s' = m) /\
   (pF s' = f (pX s') /\ pQ s' = f (pY s) + dot n (grad (pY s)) (fun i => pX s' i - pY s i) + L0 / 2 * nrm2 n (fun i => pX s' i - pY s i)) /\
   (forall Lf, (forall L x, Lf <= L -> majorises n f grad L x (pY s)) -> pL s' <= Rmax (pL s) (gu * Lf)) /\
   (forall Lf, (forall L x, Lf <= L -> majorises n f grad L x (pY s)) -> Lf <= pL s * gu ^ (m - 1) -> pF s' <= pQ s').
Proof.
  intros Hgu HL Hp Hb. unfold piter, pbody. destruct (start_fields s) as (A1 & A2 & A3 & A4 & A5 & A6 & A7 & A8 & A9). set (s0 := on_iteration_start f g mono fast s) in *.
  rewrite A8, Hb. unfold std_update. destruct (std_loop n f g hess prox_g mono gu (grad (pY s0)) m 0 None s0) as [[s1 last] it] eqn:El.
  destruct last as [[fv Q]|]; [|discriminate]. intros [= <-].
  destruct (std_loop_spec n f g grad hess prox_g mono gu (grad (pY s0)) m 0 None s0 s1 (Some (fv, Q)) it Hgu ltac:(lra) ltac:(congruence) El) as (I1 & I2 & I3 & I4 & I5 & I6).
  destruct I4 as [(_ & _ & B & _)|(J1 & s2 & L0 & J2 & J3 & J4 & J5 & J6 & J7 & J8)]; [discriminate B|].
  destruct J2 as (K1 & K2 & K3 & K4 & K5 & K6 & K7 & K8).
  set (Lout := if Rle_dec fv Q then L0 else L0 * gu).
  destruct (xstep_frame n f g hess prox_g mono s2 (grad (pY s0)) K6) as (F1 & F2 & F3 & F4 & F5 & F6 & F7 & F8 & F9).
  assert (Es : s1 = setL (xstep n f g hess prox_g mono s2 (grad (pY s0))) Lout).
  { rewrite J4. unfold Lout. destruct (Rle_dec fv Q); [|reflexivity]. rewrite <- J3, <- F3. destruct (xstep n f g hess prox_g mono s2 (grad (pY s0))); reflexivity. }
  assert (Ob : mono = true -> pk s = O -> pobj s2 = F (pX s)).
  { intros Hm Hk. assert (E1 : pobj s1 = pobj s0) by (apply (std_loop_obj0 gu (grad (pY s0)) m 0 None s0 s1 (Some (fv, Q)) it); congruence).
    assert (E2 : pobj s1 = pobj s2).
    { rewrite Es. cbn [pobj setL]. unfold xstep, policy_step. rewrite K6, K4, A6, Hk. cbn [Nat.ltb Nat.leb]. rewrite andb_false_r. reflexivity. }
    rewrite <- E2, E1. destruct (A9 Hm) as [_ A10]. rewrite A10, Hk. reflexivity. }
  pose proof (trial_rel s s2 L0 (grad (pY s0)) K6 ltac:(congruence) ltac:(congruence) ltac:(congruence) ltac:(congruence) ltac:(congruence) J3
    ltac:(intros Hm; rewrite K7; apply A9; exact Hm) Ob ltac:(congruence) s1 fv Q it Lout Es) as [T1 T2].
  exists L0. cbv zeta in T1, T2. split; [exact T1|].
  assert (X1 : pX s1 = pX (xstep n f g hess prox_g mono s2 (grad (pY s0)))) by (rewrite Es; reflexivity).
  split; [lra|]. cbn [pL setk pit pF pQ pX ystep setB] in T2 |- *. split; [lra|]. split; [lia|]. split.
  - intros Hf. rewrite T2. unfold Lout. destruct (Rle_dec fv Q); [reflexivity|contradiction].
  - split; [destruct J8 as [J8|J8]; [left; exact J8|right; lia]|]. split.
    + split; [rewrite X1; exact J5|]. rewrite J6, quad_spec, F1, F3, J3, K1, A2, X1. reflexivity.
    + split.
      * intros Lf HLf. specialize (I5 Lf). rewrite A2 in I5. rewrite A5 in I5. apply I5. intros L x HL'. specialize (HLf L x HL'). exact HLf.
      * intros Lf HLf Hpow. destruct m as [|m]; [lia|]. apply (I6 Lf fv Q); [|lia|rewrite A5; exact Hpow|reflexivity]. rewrite A2. intros L x HL'. exact (HLf L x HL').
Qed.

(** ** C39: the recorded objective *)
Lemma rel_recorded s s' L0 : step_rel s s' L0 -> mono = true -> (0 < pk s)%nat -> pobj s' <= pobj s.
Proof.
  intros (_ & _ & _ & _ & _ & H & _) Hm Hk. rewrite Hm in H. cbn [andb] in H. rewrite (proj2 (Nat.ltb_lt 0 (pk s)) Hk) in H.
  destruct H as [(_ & H1 & H2)|(_ & _ & H2)]; rewrite H2; lra.
Qed.

(** ** Acceleration *)
Section rate.
Variable E : vec -> Prop.
Hypothesis Cf : convex_on (fun _ => True) f.
Hypothesis Gf : is_gradient n f grad.
Hypothesis Cg : convex_on E g.
Hypothesis Hprox : forall L V, 0 < L -> argmin E (fun x => g x + L / 2 * nrm2 n (fun i => x i - V i)) (prox_g L V).
Variables (xs : vec) (R2 : R).
Hypothesis Hxs : argmin E F xs.

Lemma descent_step L y : 0 < L -> E y -> majorises n f grad L (PS L y) y -> F (PS L y) <= F y.
Proof.
  intros HL Hy Hm. pose proof (key_ineq n E f g grad prox_g Cf Gf Cg Hprox L y y HL Hy Hm) as K. cbv beta in K. unfold eval_objfn.
  assert (Z : dot n (fun i => y i - PS L y i) (fun i => y i - y i) = 0) by (unfold dot; apply sumn_0; intros; ring). rewrite Z in K.
  pose proof (nrm2_nonneg n (fun i => y i - PS L y i)). nra.
Qed.
Definition energy (s : pstate) : R :=
  2 / pL s * (pt s ^ 2 - pt s) * (F (pX s) - F xs) + nrm2 n (fun i => pt s * pY s i - (pt s - 1) * pX s i - xs i).
Lemma energy_step s s' L0 : step_rel s s' L0 -> pL s <= L0 -> pL s' = L0 -> 0 < pL s -> majorises n f grad L0 (PS L0 (pY s)) (pY s) ->
  1 <= pt s -> 1 <= pt s' -> pt s' ^ 2 - pt s' <= pt s ^ 2 -> (pt s = 1 \/ E (pX s)) -> (MK s = true -> F (pX s) <= pobj s /\ E (pX s)) ->
  energy s' <= energy s /\ 2 / L0 * pt s ^ 2 * (F (pX s') - F xs) <= energy s /\ E (pX s').
Proof.
  intros (S1 & S2 & S3 & S4 & S5 & S6 & S7) HL HL' Hp Hm Ht Ht' Htt HE Hmk. set (z := PS L0 (pY s)) in *. set (t := pt s) in *.
  assert (HL0 : 0 < L0) by lra. destruct Hxs as [Exs Mxs].
  assert (Ez : E z) by (apply (pstep_in n E g grad prox_g Hprox); exact HL0).
  assert (Vz : F xs <= F z) by (apply Mxs; exact Ez).
  assert (EX : E (pX s') /\ F (pX s') <= F z).
  { destruct (MK s) eqn:Em; [|destruct S6 as [-> _]; split; [exact Ez|lra]]. destruct (Hmk eq_refl) as [Q1 Q2].
    destruct S6 as [(-> & _)|(-> & Q3 & _)]; [split; [exact Ez|lra]|split; [exact Q2|lra]]. }
  destruct EX as [EX' FX']. assert (VX' : F xs <= F (pX s')) by (apply Mxs; exact EX').
  set (v := F (pX s) - F xs). set (v' := F z - F xs).
  assert (Hv : (t - 1) * v = 0 \/ E (pX s)) by (destruct HE as [->|HE]; [left; ring|right; exact HE]).
  (* the two instances of the inequality, combined *)
  assert (K : t * (t - 1) * v - t ^ 2 * v' >= L0 / 2 * (nrm2 n (fun i => t * z i - (t - 1) * pX s i - xs i) - nrm2 n (fun i => t * pY s i - (t - 1) * pX s i - xs i))).
  { pose proof (key_ineq n E f g grad prox_g Cf Gf Cg Hprox L0 (pY s) xs HL0 Exs Hm) as K1. fold z in K1. cbv beta in K1. change (f z + g z) with (F z) in K1. change (f xs + g xs) with (F xs) in K1.
    set (a := nrm2 n (fun i => pY s i - z i)) in *. set (d1 := dot n (fun i => pY s i - z i) (fun i => xs i - pY s i)) in *.
    assert (K2 : (t - 1) * (F z + L0 * dot n (fun i => pY s i - z i) (fun i => pX s i - pY s i) + L0 / 2 * a) <= (t - 1) * F (pX s)).
    { destruct HE as [H1|H1]; [rewrite H1; lra|]. apply Rmult_le_compat_l; [lra|].
      exact (key_ineq n E f g grad prox_g Cf Gf Cg Hprox L0 (pY s) (pX s) HL0 H1 Hm). }
    set (d2 := dot n (fun i => pY s i - z i) (fun i => pX s i - pY s i)) in *.
    assert (Q : nrm2 n (fun i => t * z i - (t - 1) * pX s i - xs i) - nrm2 n (fun i => t * pY s i - (t - 1) * pX s i - xs i) = t * (t * a + 2 * (t - 1) * d2 + 2 * d1)).
    { unfold a, d1, d2, nrm2, dot. rewrite <- sumn_minus, <- !sumn_scal, <- !sumn_plus, <- sumn_scal. apply sumn_ext. intros. ring. }
    rewrite Q. unfold v, v'.
    assert (K3 : 0 <= (t - 1) * (F (pX s) - F xs) - t * (F z - F xs) - L0 / 2 * (t * a + 2 * (t - 1) * d2 + 2 * d1)) by lra.
    apply (Rmult_le_compat_l t) in K3; [|lra]. apply Rle_ge. lra. }
  assert (U : nrm2 n (fun i => pt s' * pY s' i - (pt s' - 1) * pX s' i - xs i) = nrm2 n (fun i => t * z i - (t - 1) * pX s i - xs i)).
  { apply nrm2_ext. intros i _. rewrite S7. fold t. rewrite S3 in *. set (t' := mom_update mom t (pk s)) in *.
    destruct (MK s) eqn:Em.
    - field. lra.
    - destruct S6 as [-> _]. fold z. field. lra. }
  assert (I0 : 0 < 2 / L0) by (apply Rdiv_lt_0_compat; lra).
  assert (K' : 2 / L0 * (t * (t - 1) * v) - 2 / L0 * (t ^ 2 * v') >= nrm2 n (fun i => t * z i - (t - 1) * pX s i - xs i) - nrm2 n (fun i => t * pY s i - (t - 1) * pX s i - xs i)).
  { apply Rge_le in K. apply (Rmult_le_compat_l (2 / L0)) in K; [|lra]. apply Rle_ge.
    replace (2 / L0 * (L0 / 2 * (nrm2 n (fun i => t * z i - (t - 1) * pX s i - xs i) - nrm2 n (fun i => t * pY s i - (t - 1) * pX s i - xs i))))
      with (nrm2 n (fun i => t * z i - (t - 1) * pX s i - xs i) - nrm2 n (fun i => t * pY s i - (t - 1) * pX s i - xs i)) in K by (field; lra). lra. }
  assert (W : 2 / L0 * (t * (t - 1) * v) <= 2 / pL s * (t ^ 2 - t) * v).
  { assert (P : 0 <= t * (t - 1) * v).
    { destruct Hv as [Hv|Hv]; [rewrite Rmult_assoc, Hv; lra|]. apply Rmult_le_pos; [apply Rmult_le_pos; lra|]. specialize (Mxs _ Hv). unfold v. lra. }
    replace (2 / pL s * (t ^ 2 - t) * v) with (2 / pL s * (t * (t - 1) * v)) by ring. apply Rmult_le_compat_r; [exact P|].
    unfold Rdiv. apply Rmult_le_compat_l; [lra|]. apply Rinv_le_contravar; lra. }
  assert (N0 := nrm2_nonneg n (fun i => t * z i - (t - 1) * pX s i - xs i)).
  assert (B : 2 / L0 * (t ^ 2 * v') + nrm2 n (fun i => t * z i - (t - 1) * pX s i - xs i) <= energy s) by (unfold energy; fold t v; lra).
  assert (V2 : F (pX s') - F xs <= v') by (unfold v'; lra).
  split; [|split; [|exact EX']].
  - unfold energy at 1. rewrite U, HL'.
    assert (C1 : (pt s' ^ 2 - pt s') * (F (pX s') - F xs) <= t ^ 2 * v').
    { apply Rle_trans with (t ^ 2 * (F (pX s') - F xs)).
      - apply Rmult_le_compat_r; lra.
      - apply Rmult_le_compat_l; [apply pow2_ge_0|exact V2]. }
    apply (Rmult_le_compat_l (2 / L0)) in C1; [|lra]. lra.
  - assert (C2 : t ^ 2 * (F (pX s') - F xs) <= t ^ 2 * v') by (apply Rmult_le_compat_l; [apply pow2_ge_0|exact V2]).
    apply (Rmult_le_compat_l (2 / L0)) in C2; [|lra]. lra.
Qed.
End rate.

(** ** The robust variant *)
Section robust.
Variable E : vec -> Prop.
Hypothesis Cf : convex_on (fun _ => True) f.
Hypothesis Gf : is_gradient n f grad.
Hypothesis Cg : convex_on E g.
Hypothesis Hprox : forall L V, 0 < L -> argmin E (fun x => g x + L / 2 * nrm2 n (fun i => x i - V i)) (prox_g L V).
Variable xs : vec.
Hypothesis Hxs : argmin E F xs.
Lemma rob_t_eq L T : 0 < L -> 0 <= T -> 0 < rob_t L T /\ L * (rob_t L T * rob_t L T) = T + rob_t L T.
Proof.
  intros HL HT. unfold rob_t. set (q := sqrt (1 + 4 * L * T)).
  assert (Q : q * q = 1 + 4 * L * T) by (apply sqrt_sqrt; nra). assert (Q0 : 0 <= q) by apply sqrt_pos.
  split; [apply Rdiv_lt_0_compat; lra|].
  replace (L * ((1 + q) / (2 * L) * ((1 + q) / (2 * L)))) with ((1 + 2 * q + q * q) / (4 * L)) by (field; lra). rewrite Q. field. lra.
Qed.
Lemma rob_energy L T x Z : 0 < L -> 0 <= T -> (T = 0 \/ E x) ->
  let t := rob_t L T in let y := (fun i => (T * x i + t * Z i) / (T + t)) in let p := PS L y in
  majorises n f grad L p y ->
  (T + t) * (F p - F xs) + / 2 * nrm2 n (fun i => Z i + t * L * (p i - y i) - xs i) <= T * (F x - F xs) + / 2 * nrm2 n (fun i => Z i - xs i).
Proof.
  intros HL HT Hx t y p Hm. destruct (rob_t_eq L T HL HT) as [Tp Te]. fold t in Tp, Te. destruct Hxs as [Exs _].
  pose proof (key_ineq n E f g grad prox_g Cf Gf Cg Hprox L y xs HL Exs Hm) as K1. fold p in K1. cbv beta in K1. change (f p + g p) with (F p) in K1. change (f xs + g xs) with (F xs) in K1.
  set (a := nrm2 n (fun i => y i - p i)) in *. set (d1 := dot n (fun i => y i - p i) (fun i => xs i - y i)) in *.
  assert (K2 : T * (F p + L * dot n (fun i => y i - p i) (fun i => x i - y i) + L / 2 * a) <= T * F x).
  { destruct Hx as [->|Hx]; [lra|]. apply Rmult_le_compat_l; [lra|]. exact (key_ineq n E f g grad prox_g Cf Gf Cg Hprox L y x HL Hx Hm). }
  set (d2 := dot n (fun i => y i - p i) (fun i => x i - y i)) in *.
  apply (Rmult_le_compat_l t) in K1; [|lra].
  assert (Q1 : T * d2 + t * d1 = t * dot n (fun i => y i - p i) (fun i => xs i - Z i)).
  { unfold d1, d2, dot. rewrite <- !sumn_scal, <- sumn_plus. apply sumn_ext. intros i _. unfold y. field. lra. }
  assert (Q2 : nrm2 n (fun i => Z i + t * L * (p i - y i) - xs i) = nrm2 n (fun i => Z i - xs i) + 2 * (t * L) * dot n (fun i => y i - p i) (fun i => xs i - Z i) + L * (L * (t * t)) * a).
  { unfold a, nrm2, dot. rewrite <- !sumn_scal, <- !sumn_plus. apply sumn_ext. intros. ring. }
  rewrite Q2, Te. apply (f_equal (Rmult L)) in Q1. lra.
Qed.
Lemma rob_growth L Lm T : 0 < L <= Lm -> 0 <= T -> sqrt T + / (2 * sqrt Lm) <= sqrt (T + rob_t L T).
Proof.
  intros [HL HLm] HT. destruct (rob_t_eq L T HL HT) as [Tp Te]. rewrite <- Te.
  replace (L * (rob_t L T * rob_t L T)) with ((sqrt L * rob_t L T) * (sqrt L * rob_t L T)) by (transitivity ((sqrt L * sqrt L) * (rob_t L T * rob_t L T)); [ring|rewrite sqrt_sqrt by lra; reflexivity]).
  pose proof (sqrt_lt_R0 L HL) as SL. assert (SLm : sqrt L <= sqrt Lm) by (apply sqrt_le_1; lra).
  rewrite sqrt_square by nra. unfold rob_t.
  assert (B : 2 * sqrt L * sqrt T <= sqrt (1 + 4 * L * T)).
  { rewrite <- (sqrt_square (2 * sqrt L * sqrt T)); [|apply Rmult_le_pos; [lra|apply sqrt_pos]]. apply sqrt_le_1.
    - apply Rle_0_sqr.
    - nra.
    - replace (2 * sqrt L * sqrt T * (2 * sqrt L * sqrt T)) with (4 * (sqrt L * sqrt L) * (sqrt T * sqrt T)) by ring. rewrite !sqrt_sqrt by lra. lra. }
  assert (E1 : sqrt L * ((1 + sqrt (1 + 4 * L * T)) / (2 * L)) = (1 + sqrt (1 + 4 * L * T)) / (2 * sqrt L)).
  { replace (2 * L) with (2 * (sqrt L * sqrt L)) by (rewrite sqrt_sqrt; lra). field. lra. }
  rewrite E1. apply Rle_trans with (sqrt T + / (2 * sqrt L)).
  - apply Rplus_le_compat_l. apply Rinv_le_contravar; lra.
  - replace (sqrt T + / (2 * sqrt L)) with ((1 + 2 * sqrt L * sqrt T) / (2 * sqrt L)) by (field; lra).
    unfold Rdiv. apply Rmult_le_compat_r; [apply Rlt_le, Rinv_0_lt_compat; lra|lra].
Qed.
End robust.
End run.
