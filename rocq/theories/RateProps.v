(** Property C94: how many iterations ADMM.solve needs, and what the stopping test then guarantees. *)
Require Import Reals Lra Lia List ZArith.
Require Import Verif.RVec Verif.AdmmModel Verif.AdmmSpec Verif.AdmmProofs Verif.AdmmConv Verif.RateModel Verif.RateSpec Verif.RateProofs.
Require Import Verif.ProxModel Verif.NucModel Verif.StepsModel Verif.StepsSpec Verif.StepsProofs Verif.StepsProps.
Require Import Verif.SolveModel Verif.SolveSpec Verif.SolveProps.
Local Open Scope R_scope.

Section rate.
Variables (m n : nat) (A AT B : (nat -> R) -> nat -> R) (c : nat -> R) (rlx rho a : R).
Variables (D E : (nat -> R) -> Prop) (f g : (nat -> R) -> R).
Variables (xstep ystep : (nat -> R) -> (nat -> R) -> nat -> R).
Hypothesis HA : affine m A.
Hypothesis HB : affine m B.
Hypothesis Hf : convex_on D f.
Hypothesis Hg : convex_on E g.
Hypothesis Hrho : 0 < rho.
Hypothesis HX : forall y u, argmin D (fun x => auglag m A B c rho f g x y u) (xstep y u).
Hypothesis HY : forall ax u, argmin E (fun y => auglag m (fun _ => ax) B c rho (fun _ => 0) g ax y u) (ystep ax u).
Hypothesis HAT : adjoint_pair m n A AT.
Hypothesis HBa : additive m B.
Hypothesis Hgain : gain m n A a.
Notation run st k := (iterate A B c rlx xstep ystep k st).

Lemma fit_matched st : dual_fit m B rho E g (sY st) (sU st) <-> matched m B rho E g st.
Proof. unfold dual_fit, matched. split; intros [H1 H2]; (split; [exact H1|]); intros v Hv; specialize (H2 v Hv); lra. Qed.
Lemma dz_start ys us st k : dz m A B c rlx xstep ystep st ys us k = start_distance m B (sY (run st k)) (sU (run st k)) ys us.
Proof. unfold dz, start_distance, AdmmConv.it. apply nrm2_ext. intros. ring. Qed.
Lemma iterate_add j k st : iterate A B c rlx xstep ystep (j + k) st = run (run st j) k.
Proof. induction k as [|k IH]; [rewrite Nat.add_0_r; reflexivity|]. rewrite Nat.add_succ_r. cbn [iterate]. rewrite IH. reflexivity. Qed.
Lemma AT_norm v : nrm n (AT v) <= a * nrm m v.
Proof.
  destruct Hgain as [Ha G]. pose proof (HAT (AT v) (fun _ => 0) v) as HT. specialize (G (AT v) (fun _ => 0)). cbv beta in HT, G.
  rewrite (dot_ext n (fun j => AT v j - 0) (AT v) (AT v) (AT v)) in HT by (intros; ring).
  rewrite (nrm_ext n (fun j => AT v j - 0) (AT v)) in G by (intros; ring).
  pose proof (cauchy_schwarz m (fun i => A (AT v) i - A (fun _ => 0) i) v) as CS. rewrite HT in CS.
  pose proof (nrm_nonneg n (AT v)) as P1. pose proof (nrm_nonneg m v) as P2.
  assert (Q : nrm n (AT v) * nrm n (AT v) = dot n (AT v) (AT v)) by (rewrite nrm_sqr; reflexivity).
  pose proof (Rle_abs (dot n (AT v) (AT v))) as AB.
  destruct (Req_dec (nrm n (AT v)) 0) as [Z|Z]; [rewrite Z; apply Rmult_le_pos; assumption|].
  apply (Rmult_le_reg_r (nrm n (AT v))); [lra|]. rewrite Q. nra.
Qed.
Lemma s_norm y y' : nrm n (rsdl_s AT B rho y y') <= rho * a * nrm m (fun i => B y' i - B y i).
Proof.
  unfold rsdl_s. change (fun i => rho * AT (B (fun j => y' j - y j)) i) with (vscal rho (AT (B (fun j => y' j - y j)))).
  rewrite nrm_scal, Rabs_pos_eq by lra. rewrite (nrm_ext m _ (B (fun j => y' j - y j))) by (intros i Hi; symmetry; apply HBa; exact Hi).
  rewrite Rmult_assoc. apply Rmult_le_compat_l; [lra|apply AT_norm].
Qed.

(** *** The residuals fall at least as fast as the inverse square root of the number of iterations. The first iteration
    may be needed to make the arrays fit; if they do from the start, there is no such iteration. *)
Theorem C94_rate st xs ys us K : saddle m A B c rho D E f g xs ys us -> 0 < rlx < 2 -> dual_fit m B rho E g (sY st) (sU st) -> (1 <= K)%nat ->
  let s := run st K in
  let q := sqrt (start_distance m B (sY st) (sU st) ys us / (rlx * (2 - rlx) * INR K)) in
  nrm m (rsdl_r B c (A (sX s)) (sY s)) <= (1 + rlx) * q /\ nrm n (rsdl_s AT B rho (sYprev s) (sY s)) <= rho * a * (rlx * q).
Proof.
  intros Hs Hr Hm HK s q.
  destruct (rate_at m A B c rlx rho D E f g xstep ystep HA HB Hf Hg Hrho HX HY st xs ys us 0 K Hs Hr (proj1 (fit_matched st) Hm) HK) as [P1 P2].
  rewrite dz_start in P1, P2. cbn [iterate] in P1, P2. fold q in P1, P2. split; [exact P1|].
  eapply Rle_trans; [apply s_norm|]. apply Rmult_le_compat_l; [destruct Hgain; nra|].
  destruct K as [|K]; [lia|]. exact P2.
Qed.
Theorem C94_fit_after_one st k : dual_fit m B rho E g (sY (run st (S k))) (sU (run st (S k))).
Proof. apply fit_matched. apply (matched_S m A B c rlx rho E g xstep ystep HB Hg Hrho HY st k). Qed.
(** Without relaxation the squared residuals r^2 + |B (y - yprev)|^2 never increase, and the bound is in terms of the
    initial arrays whatever they are. *)
Theorem C94_rate_unrelaxed st xs ys us : saddle m A B c rho D E f g xs ys us -> rlx = 1 ->
  let w k := nrm2 m (rsdl_r B c (A (sX (run st k))) (sY (run st k))) + nrm2 m (fun i => B (sY (run st k)) i - B (sYprev (run st k)) i) in
  (forall k, (1 <= k)%nat -> w (S k) <= w k) /\
  forall K, (1 <= K)%nat -> w (S K) <= (nrm2 m (fun i => sU st i - us i) + nrm2 m (fun i => B (sY st) i - B ys i)) / INR K.
Proof.
  intros Hs Hr w.
  assert (HY' : forall k, w (S (S k)) <= nrm2 m (mid A B c rlx xstep ystep st (S k)) /\ nrm2 m (mid A B c rlx xstep ystep st (S k)) <= w (S k)).
  { intros k. apply (he_yuan m A B c rlx rho D E f g xstep ystep HA HB Hf Hg Hrho HX HY st k Hr). }
  split.
  - intros [|k] Hk; [lia|]. destruct (HY' k). lra.
  - intros [|K] HK; [lia|]. clear HK. destruct (HY' K) as [P _].
    pose proof (dyu_sum m A B c rlx rho D E f g xstep ystep HA HB Hf Hg Hrho HX HY st xs ys us Hs (S K) Hr) as Q.
    pose proof (dyu_step m A B c rlx rho D E f g xstep ystep HA HB Hf Hg Hrho HX HY st xs ys us Hs 0 Hr) as Q0.
    pose proof (nrm2_nonneg m (fun i => pri A B c rlx xstep ystep st 1 i - dy A B c rlx xstep ystep st 0 i)) as N0.
    assert (I0 : 0 < INR (S K)) by (apply lt_0_INR; lia).
    assert (N1 : 0 <= dyu m A B c rlx xstep ystep st ys us (S (S K))) by (unfold dyu; apply Rplus_le_le_0_compat; apply nrm2_nonneg).
    change (nrm2 m (fun i => sU st i - us i) + nrm2 m (fun i => B (sY st) i - B ys i)) with (dyu m A B c rlx xstep ystep st ys us 0).
    set (d0 := dyu m A B c rlx xstep ystep st ys us 0) in *. set (M := nrm2 m (mid A B c rlx xstep ystep st (S K))) in *.
    apply (Rmult_le_reg_r (INR (S K))); [exact I0|]. replace (d0 / INR (S K) * INR (S K)) with d0 by (field; lra). nra.
Qed.

(** *** The stopping test. Both settings of StdResiduals test the documented criterion; the normalised one replaces a
    normaliser that is zero by one. *)
Theorem C94_test std abstol reltol st :
  let '(r, s, epri, edua) := compute_residuals std m n abstol reltol A AT B c rho st in
  let rn := rsdl_rn B c m (A (sX st)) (sY st) in let sn := rsdl_sn AT rho n (sU st) in
  (r < epri /\ s < edua) <-> criterion m n abstol reltol (nrm m (rsdl_r B c (A (sX st)) (sY st))) (nrm n (rsdl_s AT B rho (sYprev st) (sY st)))
    (if (negb std && (if Req_EM_T rn 0 then true else false))%bool then 1 else rn) (if (negb std && (if Req_EM_T sn 0 then true else false))%bool then 1 else sn).
Proof.
  unfold compute_residuals. destruct std; cbn [negb andb].
  - unfold criterion. rewrite !(Rmult_comm reltol). reflexivity.
  - set (rn := rsdl_rn B c m (A (sX st)) (sY st)). set (sn := rsdl_sn AT rho n (sU st)).
    assert (Pr : 0 <= rn).
    { unfold rn, rsdl_rn. eapply Rle_trans; [apply (nrm_nonneg m (A (sX st)))|]. eapply Rle_trans; apply Rmax_l. }
    assert (Ps : 0 <= sn) by (unfold sn, rsdl_sn; apply Rmult_le_pos; [lra|apply nrm_nonneg]).
    assert (Dv : forall x t d, 0 < d -> (x / d < t / d + reltol <-> x < t + reltol * d)).
    { intros x t d Hd. assert (E1 : x / d * d = x) by (field; lra). assert (E2 : (t / d + reltol) * d = t + reltol * d) by (field; lra). split; intros H.
      - rewrite <- E1, <- E2. apply Rmult_lt_compat_r; assumption.
      - apply (Rmult_lt_reg_r d); [exact Hd|]. rewrite E1, E2. exact H. }
    unfold criterion. destruct (Req_EM_T rn 0), (Req_EM_T sn 0); rewrite !Dv by lra; reflexivity.
Qed.

(** *** solve() stops by its tolerances: with a positive AbsStopTol, after at most K iterations for every K that exceeds the
    two bounds, in whichever way the residuals are normalised. *)
Section solve_.
Context {Stat : Type}.
Variables (clock : nat -> BinNums.Z) (stats : nat -> state -> option (R * R * R * R) -> Stat) (std : bool) (abstol reltol : R).
Notation solve := (rate_solve clock stats std m n abstol reltol A AT B c rlx rho xstep ystep).
Notation res := (compute_residuals std m n abstol reltol A AT B c rho).
Definition tolerances_met (st : state) : Prop := let '(r, s, epri, edua) := res st in r < epri /\ s < edua.

Lemma after_run (o : opts state) k0 st j : callback o = None -> after (admm_iter (rate_sweep A B c rlx xstep ystep) res keep_rho o) k0 st j = run st j.
Proof.
  intros Hc. induction j as [|j IH]; [reflexivity|]. cbn [after]. rewrite IH. unfold admm_iter, cb_state, admm_pre. rewrite Hc. cbn [iterate].
  unfold rate_sweep. destruct (res (iteration A B c rlx xstep ystep (run st j))) as [[[r d] e1] e2]. unfold keep_rho. destruct (autorho o || negb (fast o))%bool; reflexivity.
Qed.
Lemma reason_met (o : opts state) k st : callback o = None -> autorho o = false -> fast o = false ->
  (admm_reason lt_py (rate_sweep A B c rlx xstep ystep) res keep_rho o k st <-> tolerances_met (iteration A B c rlx xstep ystep st)).
Proof.
  intros Hc Ha Hf0. unfold admm_reason, tolerances_met, rate_sweep, checked, cb_true, lt_py.
  destruct (res (iteration A B c rlx xstep ystep st)) as [[[r d] e1] e2]. split.
  - intros [(F & Q & _)|[_ [H1 H2]]]; [rewrite Hc in Q; discriminate|]. destruct (Rlt_dec r e1), (Rlt_dec d e2); try discriminate. split; assumption.
  - intros [H1 H2]. right. split; [right; exact Hf0|]. destruct (Rlt_dec r e1), (Rlt_dec d e2); try contradiction. split; reflexivity.
Qed.
Lemma met_small st : 0 < abstol -> 0 <= reltol -> nrm m (rsdl_r B c (A (sX st)) (sY st)) < sqrt (INR m) * abstol ->
  nrm n (rsdl_s AT B rho (sYprev st) (sY st)) < sqrt (INR n) * abstol -> tolerances_met st.
Proof.
  intros Ha Hr H1 H2. pose proof (C94_test std abstol reltol st) as T. unfold tolerances_met. destruct (res st) as [[[r d] e1] e2]. cbv zeta in T. apply T.
  assert (Pr : 0 <= rsdl_rn B c m (A (sX st)) (sY st)).
  { unfold rsdl_rn. eapply Rle_trans; [apply (nrm_nonneg m (A (sX st)))|]. eapply Rle_trans; apply Rmax_l. }
  assert (Ps : 0 <= rsdl_sn AT rho n (sU st)) by (unfold rsdl_sn; apply Rmult_le_pos; [lra|apply nrm_nonneg]).
  unfold criterion. destruct (negb std && _)%bool, (negb std && _)%bool; split; nra.
Qed.
Theorem C94_iterations (o : opts state) (s : sol state Stat) xs ys us K :
  saddle m A B c rho D E f g xs ys us -> 0 < rlx < 2 -> dual_fit m B rho E g (sY (SolveModel.it s)) (sU (SolveModel.it s)) ->
  callback o = None -> autorho o = false -> fast o = false -> (1 <= maxiter o)%nat -> 0 < abstol -> 0 <= reltol -> (1 <= K)%nat ->
  let d := start_distance m B (sY (SolveModel.it s)) (sU (SolveModel.it s)) ys us in
  (1 + rlx) * (1 + rlx) * d < rlx * (2 - rlx) * INR K * (INR m * (abstol * abstol)) ->
  rho * a * rlx * (rho * a * rlx) * d < rlx * (2 - rlx) * INR K * (INR n * (abstol * abstol)) ->
  let s' := solve o s in
  exists j, (1 <= j <= K)%nat /\ (j <= maxiter o)%nat /\ cnt s' = (cnt s + j)%nat /\ SolveModel.it s' = run (SolveModel.it s) j /\
    (j < maxiter o \/ K <= maxiter o -> tolerances_met (SolveModel.it s'))%nat /\
    (forall i, (1 <= i < j)%nat -> ~ tolerances_met (run (SolveModel.it s) i)).
Proof.
  intros Hs Hr Hm Hc Ha Hfs Hn Hab Hre HK d B1 B2 s'.
  assert (W : 0 < rlx * (2 - rlx) * INR K) by (apply Rmult_lt_0_compat; [nra|apply lt_0_INR; lia]).
  assert (MK : tolerances_met (run (SolveModel.it s) K)).
  { destruct (C94_rate (SolveModel.it s) xs ys us K Hs Hr Hm HK) as [P1 P2]. fold d in P1, P2. set (w := rlx * (2 - rlx) * INR K) in *.
    assert (SQ : forall t N, 0 <= t -> t * t * d < w * (INR N * (abstol * abstol)) -> t * sqrt (d / w) < sqrt (INR N) * abstol).
    { intros t N Ht H. rewrite <- (sqrt_square t Ht) at 1. rewrite <- (sqrt_square abstol) by lra. rewrite <- !sqrt_mult_alt by (try apply pos_INR; nra). apply sqrt_lt_1_alt. split.
      - apply Rmult_le_pos; [nra|]. unfold Rdiv. apply Rmult_le_pos; [apply nrm2_nonneg|]. left. apply Rinv_0_lt_compat. exact W.
      - apply (Rmult_lt_reg_r w); [exact W|]. replace (t * t * (d / w) * w) with (t * t * d) by (field; lra). lra. }
    apply met_small; [exact Hab|exact Hre| |].
    - eapply Rle_lt_trans; [exact P1|]. apply SQ; [lra|exact B1].
    - eapply Rle_lt_trans; [exact P2|]. rewrite <- Rmult_assoc. apply SQ; [|exact B2]. destruct Hgain. apply Rmult_le_pos; [nra|lra]. }
  destruct (C33_admm_stopping lt_py clock (rate_sweep A B c rlx xstep ystep) res stats keep_rho o s Hn) as (j & (J1 & J2 & J3) & S1 & S2 & _).
  fold (solve o s) in S1, S2. fold s' in S1, S2. rewrite after_run in S1 by exact Hc.
  assert (N2 : forall i, (1 <= i < j)%nat -> ~ tolerances_met (run (SolveModel.it s) i)).
  { intros [|i] Hi; [lia|]. intros T. apply (J2 i ltac:(lia)). apply (reason_met o _ _ Hc Ha Hfs). rewrite after_run by exact Hc. exact T. }
  assert (JK : (j <= K)%nat) by (destruct (le_lt_dec j K); [assumption|exfalso; apply (N2 K); [lia|exact MK]]).
  exists j. split; [lia|]. split; [lia|]. split; [exact S2|]. split; [exact S1|]. split; [|exact N2].
  intros Hj. rewrite S1. destruct (le_lt_dec (maxiter o) j) as [L|L].
  - replace j with K by lia. exact MK.
  - specialize (J3 L). apply (reason_met o _ _ Hc Ha Hfs) in J3. rewrite after_run in J3 by exact Hc. destruct j as [|j]; [lia|].
    replace (S j - 1)%nat with j in J3 by lia. exact J3.
Qed.
End solve_.

(** *** What small residuals guarantee: the objective at (X, Y) is within these bounds of the minimum, after any iteration. *)
Theorem C94_quality st k xs ys us : saddle m A B c rho D E f g xs ys us ->
  let s := run st (S k) in
  let r := nrm m (rsdl_r B c (A (sX s)) (sY s)) in let d := nrm n (rsdl_s AT B rho (sYprev s) (sY s)) in
  - (rho * nrm m us * r) <= f (sX s) + g (sY s) - (f xs + g ys) <=
    rho * nrm m (sU s) * r + Rabs (2 - rlx) * d * nrm n (fun j => sX s j - xs j) + Rabs (1 - rlx) * rho * r * nrm m (fun i => A (sX s) i - A xs i).
Proof.
  intros Hs s r d.
  pose proof (it_x m A B c rlx rho D f g xstep ystep HX st k) as X1. pose proof (it_y m A B c rlx rho E g xstep ystep HY st k) as Y1.
  pose proof (objective_upper m A B c rho D E f g HA HB Hf Hg Hrho _ _ _ _ _ _ X1 Y1 (fun i _ => it_u A B c rlx xstep ystep st k i) xs ys us Hs) as UP.
  pose proof (objective_lower m A B c rho D E f g _ _ _ _ _ X1 Y1 xs ys us Hs) as LO.
  unfold AdmmConv.it in UP, LO. fold s in UP, LO. set (s0 := run st k) in *.
  assert (Yp : sYprev s = sY s0) by reflexivity.
  split.
  - eapply Rle_trans; [|exact LO]. pose proof (cauchy_schwarz m us (gap A B c (sX s) (sY s))) as CS.
    pose proof (Rle_abs (dot m us (gap A B c (sX s) (sY s)))) as AB. change (nrm m (gap A B c (sX s) (sY s))) with r in CS. nra.
  - eapply Rle_trans; [exact UP|].
    set (rv := rsdl_r B c (A (sX s)) (sY s)) in *. set (w := fun i => A (sX s) i - A xs i).
    set (sv := rsdl_s AT B rho (sYprev s) (sY s)) in *.
    assert (Ud : forall i, sU s i = sU s0 i + (rlx * (A (sX s) i) - (1 - rlx) * (B (sY s0) i - c i) + B (sY s) i - c i)).
    { intros i. pose proof (it_u A B c rlx xstep ystep st k i) as Q. rewrite it_ax in Q. exact Q. }
    assert (E1 : rho * (dot m (fun i => gap A B c (sX s) (sY s0) i + sU s0 i) (fun i => A xs i - A (sX s) i) + dot m (sU s) (fun i => B ys i - B (sY s) i)) =
      - (rho * dot m (sU s) rv) - (1 - rlx) * rho * dot m rv w + (2 - rlx) * (rho * dot m w (fun i => B (sY s) i - B (sY s0) i))).
    { destruct Hs as [(_ & _ & Sg) _]. unfold dot.
      replace ((2 - rlx) * (rho * sumn m (fun i => w i * (B (sY s) i - B (sY s0) i)))) with (((2 - rlx) * rho) * sumn m (fun i => w i * (B (sY s) i - B (sY s0) i))) by ring.
      rewrite <- sumn_plus, <- !sumn_scal, <- sumn_opp, <- sumn_minus, <- sumn_plus. apply sumn_ext. intros i Hi.
      pose proof (Sg i Hi) as G. unfold gap in G. replace (B ys i) with (c i - A xs i) by lra. rewrite (Ud i). unfold w, rv, rsdl_r, gap. ring. }
    rewrite E1.
    assert (E2 : rho * dot m w (fun i => B (sY s) i - B (sY s0) i) = dot n (fun j => sX s j - xs j) sv).
    { rewrite (dot_ext m w (fun i => B (sY s) i - B (sY s0) i) w (B (fun j => sY s j - sY s0 j))) by (try reflexivity; intros i Hi; symmetry; apply HBa; exact Hi).
      unfold w. rewrite HAT. change sv with (vscal rho (AT (B (fun j => sY s j - sY s0 j)))). rewrite dot_scal_r. reflexivity. }
    rewrite E2.
    pose proof (cauchy_schwarz m (sU s) rv) as C1. pose proof (cauchy_schwarz m rv w) as C2. pose proof (cauchy_schwarz n (fun j => sX s j - xs j) sv) as C3.
    change (nrm m rv) with r in C1, C2. change (nrm n sv) with d in C3. change (nrm m (fun i => A (sX s) i - A xs i)) with (nrm m w).
    set (nx := nrm n (fun j => sX s j - xs j)) in *.
    assert (T1 : - (rho * dot m (sU s) rv) <= rho * nrm m (sU s) * r).
    { pose proof (Rle_abs (- dot m (sU s) rv)) as Q. rewrite Rabs_Ropp in Q. nra. }
    assert (T2 : - (1 - rlx) * rho * dot m rv w <= Rabs (1 - rlx) * rho * r * nrm m w).
    { apply Rle_trans with (Rabs ((1 - rlx) * rho * dot m rv w)).
      - pose proof (Rle_abs (- ((1 - rlx) * rho * dot m rv w))) as Q. rewrite Rabs_Ropp in Q. lra.
      - rewrite !Rabs_mult, (Rabs_pos_eq rho) by lra. rewrite !Rmult_assoc. apply Rmult_le_compat_l; [apply Rabs_pos|]. apply Rmult_le_compat_l; [lra|exact C2]. }
    assert (T3 : (2 - rlx) * dot n (fun j => sX s j - xs j) sv <= Rabs (2 - rlx) * d * nx).
    { eapply Rle_trans; [apply Rle_abs|]. rewrite Rabs_mult, Rmult_assoc. apply Rmult_le_compat_l; [apply Rabs_pos|]. lra. }
    lra.
Qed.
End rate.

(** *** Sparse coding with BPDN, from the zero arrays that the solver starts with: the number of iterations depends on the
    solution p and the gradient of the data term there, on rho and on the relaxation parameter. *)
Section bpdn.
Variables (Nr Nc Nm : nat) (solve : mat -> R -> vec -> vec) (D : mat) (S : vec).
Hypothesis HN : (0 < Nm)%nat.
Hypothesis Hsolve : ATAI_contract Nr Nc Nm solve.
Definition bpdn_gradient (p : vec) : vec := fun i => mm Nr Nm (tr D) (fun q => mm Nc Nm D p q - S q) i.
Lemma eq_adjoint n : adjoint_pair n n eq_A eq_AT. Proof. intros x x' v. reflexivity. Qed.
Lemma eq_additive n : additive n eq_B. Proof. intros y y' i _. unfold eq_B. ring. Qed.
Lemma eq_gain n : gain n n eq_A 1.
Proof. split; [lra|]. intros x x'. rewrite Rmult_1_l. apply Rle_refl. Qed.
Lemma zero_fit n nonneg lmbda wl1 rho y u : 0 <= lmbda -> (forall i, (i < n)%nat -> y i = 0) -> (forall i, (i < n)%nat -> u i = 0) ->
  dual_fit n eq_B rho (nonneg_set nonneg n) (l1reg n lmbda wl1) y u.
Proof.
  intros Hl Hy Hu. split.
  - intros _ i Hi. rewrite (Hy i Hi). lra.
  - intros v _. rewrite (dot_ext n u _ (fun _ => 0) (fun i => eq_B v i - eq_B y i) Hu (fun _ _ => eq_refl)).
    replace (dot n (fun _ => 0) (fun i => eq_B v i - eq_B y i)) with 0 by (unfold dot; rewrite (sumn_ext n _ (fun _ => 0)) by (intros; ring); rewrite sumn_const; ring).
    unfold l1reg. rewrite (sumn_ext n (fun i => Rabs (wl1 i * y i)) (fun _ => 0)) by (intros i Hi; rewrite (Hy i Hi), Rmult_0_r; apply Rabs_R0).
    rewrite sumn_const, Rmult_0_r, Rmult_0_r. assert (0 <= sumn n (fun i => Rabs (wl1 i * v i))) by (apply sumn_nonneg; intros; apply Rabs_pos). nra.
Qed.
Theorem C94_bpdn {Stat : Type} clock (stats : nat -> state -> option (R * R * R * R) -> Stat) std abstol reltol rlx rho nonneg lmbda wl1
  (o : opts state) (s : sol state Stat) p K :
  let n := (Nc * Nm)%nat in
  let xstep := bpdn_xstep Nr Nm solve D S rho in let ystep := bpdn_ystep nonneg lmbda rho wl1 in
  0 < rho -> 0 <= lmbda -> (forall i, (i < n)%nat -> 0 <= wl1 i) -> 0 < rlx < 2 ->
  argmin (nonneg_set nonneg n) (fun x => lsq (Nr * Nm) (mm Nc Nm D) S x + l1reg n lmbda wl1 x) p ->
  (forall i, (i < n)%nat -> sY (SolveModel.it s) i = 0) -> (forall i, (i < n)%nat -> sU (SolveModel.it s) i = 0) ->
  callback o = None -> autorho o = false -> fast o = false -> (K <= maxiter o)%nat -> 0 < abstol -> 0 <= reltol -> (1 <= K)%nat ->
  let d := nrm2 n (fun i => p i - bpdn_gradient p i / rho) in
  Rmax ((1 + rlx) * (1 + rlx)) (rho * rlx * (rho * rlx)) * d < rlx * (2 - rlx) * INR K * (INR n * (abstol * abstol)) ->
  let s' := rate_solve clock stats std n n abstol reltol eq_A eq_AT eq_B eq_c rlx rho xstep ystep o s in
  exists j, (1 <= j <= K)%nat /\ cnt s' = (cnt s + j)%nat /\ SolveModel.it s' = iterate eq_A eq_B eq_c rlx xstep ystep j (SolveModel.it s) /\
    tolerances_met n n eq_A eq_AT eq_B eq_c rho std abstol reltol (SolveModel.it s').
Proof.
  intros n xstep ystep Hr Hl Hw Hx Hp Hy Hu Hc Ha Hf HK Hab Hre HK1 d Hd s'.
  pose proof (mm_linear Nc Nm D) as LL. pose proof (mm_adjoint Nr Nc Nm D HN) as LA.
  assert (Hp0 : argmin (nonneg_set nonneg n) (fun x => sc_f n (Nr * Nm) (mm Nc Nm D) S 0 x + l1reg n lmbda wl1 x) p).
  { destruct Hp as [P1 P2]. split; [exact P1|]. intros x Hx'. specialize (P2 x Hx'). cbv beta in *. unfold sc_f, ridge. lra. }
  pose proof (sc_saddle n (Nr * Nm) (mm Nc Nm D) (mm Nr Nm (tr D)) S 0 LL LA (nonneg_set nonneg n) (l1reg n lmbda wl1) rho p ltac:(lra) Hr (l1reg_convex _ n lmbda wl1 Hl (nonneg_convex nonneg n)) Hp0) as Sd.
  set (us := fun i => - sc_grad (mm Nc Nm D) (mm Nr Nm (tr D)) S 0 p i / rho) in Sd.
  assert (Dd : start_distance n eq_B (sY (SolveModel.it s)) (sU (SolveModel.it s)) p us = d).
  { unfold start_distance, d. unfold nrm2, dot. apply sumn_ext. intros i Hi. rewrite (Hu i Hi). unfold eq_B. rewrite (Hy i Hi). unfold us, sc_grad, bpdn_gradient.
    assert (G : mm Nr Nm (tr D) (fun q => mm Nc Nm D p q - S q) i = mm Nr Nm (tr D) (mm Nc Nm D p) i - mm Nr Nm (tr D) S i).
    { unfold mm. rewrite <- sumn_minus. apply sumn_ext. intros. ring. }
    rewrite G. field. lra. }
  assert (M1 := Rmax_l ((1 + rlx) * (1 + rlx)) (rho * rlx * (rho * rlx))). assert (M2 := Rmax_r ((1 + rlx) * (1 + rlx)) (rho * rlx * (rho * rlx))).
  assert (Pd : 0 <= d) by apply nrm2_nonneg.
  destruct (C94_iterations n n eq_A eq_AT eq_B eq_c rlx rho 1 (fun _ => True) (nonneg_set nonneg n) (sc_f n (Nr * Nm) (mm Nc Nm D) S 0) (l1reg n lmbda wl1) xstep ystep
    (eqA_affine n) (eqB_affine n) (sc_convex n (Nr * Nm) (mm Nc Nm D) S 0 LL ltac:(lra)) (l1reg_convex _ n lmbda wl1 Hl (nonneg_convex nonneg n)) Hr
    (run_X n (Nr * Nm) (mm Nc Nm D) (mm Nr Nm (tr D)) S 0 LL LA (l1reg n lmbda wl1) rho xstep ltac:(lra) Hr (fun Y U => bpdn_X Nr Nc Nm solve D S Hsolve rho Y U Hr))
    (run_Y n (nonneg_set nonneg n) (l1reg n lmbda wl1) rho ystep Hr (fun ax u => bpdn_y n nonneg lmbda rho wl1 ax u Hl Hr Hw))
    (eq_adjoint n) (eq_additive n) (eq_gain n) clock stats std abstol reltol o s p p us K Sd Hx) as (j & J1 & _ & J3 & J4 & J5 & _); try assumption.
  - apply zero_fit; assumption.
  - lia.
  - rewrite Dd. nra.
  - rewrite Dd. rewrite Rmult_1_r. nra.
  - exists j. split; [exact J1|]. split; [exact J3|]. split; [exact J4|]. apply J5. right. exact HK.
Qed.
End bpdn.

(** *** A positive AbsStopTol is needed. With AbsStopTol = 0, which is the default, solve() need not stop by its tolerances: if the solution is
    zero, the relative residual is 1 in every iteration although the iterates converge to it. Here D = 1, S = 1, lambda = 2. *)
Section zero.
Definition one_solve (D : mat) (rho : R) (b : vec) : vec := fun p => b p / (D 0%nat 0%nat * D 0%nat 0%nat + rho).
Lemma mm1 D X : mm 1 1 D X 0%nat = D 0%nat 0%nat * X 0%nat.
Proof. unfold mm. cbn [sumn]. change (0 / 1)%nat with 0%nat. change (0 * 1 + 0 mod 1)%nat with 0%nat. ring. Qed.
Lemma one_contract : ATAI_contract 1 1 1 one_solve.
Proof.
  intros D rho b p Hr Hp. assert (p = 0%nat) as -> by lia. rewrite !mm1. unfold tr, one_solve.
  assert (0 <= D 0%nat 0%nat * D 0%nat 0%nat) by apply Rle_0_sqr. field. lra.
Qed.
Notation zx := (bpdn_xstep 1 1 one_solve (fun _ _ => 1) (fun _ => 1) 1).
Notation zy := (bpdn_ystep false 2 1 (fun _ => 1)).
Definition zero_state : state := mkState (fun _ => 0) (fun _ => 0) (fun _ => 0) (fun _ => 0).
Lemma zero_run k : let s := iterate eq_A eq_B eq_c 1 zx zy k zero_state in
  ((1 <= k)%nat -> sX s 0%nat = (/ 2) ^ k /\ sYprev s 0%nat = 0) /\ sY s 0%nat = 0 /\ sU s 0%nat = 1 - (/ 2) ^ k.
Proof.
  induction k as [|k (_ & IY & IU)]; cbv zeta.
  - split; [intros; lia|]. split; [reflexivity|]. simpl. ring.
  - set (s := iterate eq_A eq_B eq_c 1 zx zy k zero_state) in *. cbn [iterate]. fold s.
    assert (X0 : zx (sY s) (sU s) 0%nat = (/ 2) ^ S k).
    { unfold bpdn_xstep, one_solve, bpdn_rhs. rewrite mm1. unfold tr. rewrite IY, IU. simpl. field. }
    assert (Pk : 0 < (/ 2) ^ S k <= / 2).
    { split; [apply pow_lt; lra|]. simpl. assert ((/ 2) ^ k <= 1) by (clear; induction k as [|k IH]; simpl; [lra|assert (0 < (/ 2) ^ k) by (apply pow_lt; lra); nra]). lra. }
    assert (P2 : (/ 2) ^ k = 2 * (/ 2) ^ S k) by (simpl; field).
    assert (AX0 : relax_AX eq_A eq_B eq_c 1 (zx (sY s) (sU s)) (sY s) 0%nat = (/ 2) ^ S k).
    { rewrite relax_eq. unfold eq_A at 1. rewrite X0. ring. }
    assert (Y0 : zy (relax_AX eq_A eq_B eq_c 1 (zx (sY s) (sU s)) (sY s)) (sU s) 0%nat = 0).
    { unfold bpdn_ystep, clip, prox_l1. cbn [andb]. rewrite AX0, IU, P2.
      rewrite (Rmax_right (Rabs _ - _) 0); [ring|]. rewrite Rabs_pos_eq; lra. }
    unfold iteration. cbn [sX sY sU sYprev]. split; [intros _; split; [exact X0|exact IY]|]. split; [exact Y0|].
    unfold ustep, rsdl_r. rewrite AX0, IU. match goal with |- context[eq_B ?v 0%nat] => change (eq_B v 0%nat) with (- v 0%nat) end. rewrite Y0, P2. unfold eq_c. ring.
Qed.
Theorem C94_relative_only_refuted {Stat : Type} clock (stats : nat -> state -> option (R * R * R * R) -> Stat) std reltol (o : opts state) (s : sol state Stat) :
  0 <= reltol <= 1 -> SolveModel.it s = zero_state -> callback o = None -> autorho o = false -> fast o = false -> (1 <= maxiter o)%nat ->
  argmin (fun _ => True) (fun x => lsq (1 * 1) (mm 1 1 (fun _ _ => 1)) (fun _ => 1) x + l1reg 1 2 (fun _ => 1) x) (fun _ => 0) /\
  ATAI_contract 1 1 1 one_solve /\
  let s' := rate_solve clock stats std 1 1 0 reltol eq_A eq_AT eq_B eq_c 1 1 zx zy o s in
  cnt s' = (cnt s + maxiter o)%nat /\ sX (SolveModel.it s') 0%nat = (/ 2) ^ maxiter o /\ sY (SolveModel.it s') 0%nat = 0.
Proof.
  intros Hre Hz Hc Ha Hf Hn. split; [|split; [exact one_contract|]].
  - split; [exact I|]. intros x _. unfold lsq, l1reg, nrm2, dot. change (1 * 1)%nat with 1%nat. cbn [sumn]. rewrite !mm1.
    rewrite !Rmult_1_l, Rabs_R0. pose proof (Rle_abs (x 0%nat)). pose proof (Rabs_pos (x 0%nat)). pose proof (Rle_0_sqr (x 0%nat)) as Q. unfold Rsqr in Q. nra.
  - cbv zeta. unfold rate_solve. destruct (C33_admm_stopping lt_py clock (rate_sweep eq_A eq_B eq_c 1 zx zy) (compute_residuals std 1 1 0 reltol eq_A eq_AT eq_B eq_c 1) stats keep_rho o s Hn) as (j & (J1 & J2 & J3) & S1 & S2 & _).
    assert (NM : forall k, (1 <= k)%nat -> ~ tolerances_met 1 1 eq_A eq_AT eq_B eq_c 1 std 0 reltol (iterate eq_A eq_B eq_c 1 zx zy k zero_state)).
    { intros k Hk T. pose proof (C94_test 1 1 eq_A eq_AT eq_B eq_c 1 ltac:(lra) std 0 reltol (iterate eq_A eq_B eq_c 1 zx zy k zero_state)) as Q.
      unfold tolerances_met in T. destruct (compute_residuals std 1 1 0 reltol eq_A eq_AT eq_B eq_c 1 (iterate eq_A eq_B eq_c 1 zx zy k zero_state)) as [[[r d] e1] e2].
      cbv zeta in Q. apply Q in T. destruct T as [T _]. destruct (zero_run k) as (ZX & ZY & _). destruct (ZX Hk) as [ZX' _].
      set (z := iterate eq_A eq_B eq_c 1 zx zy k zero_state) in *. assert (Pk : 0 < (/ 2) ^ k) by (apply pow_lt; lra).
      assert (N1 : forall v : vec, nrm 1 v = Rabs (v 0%nat)).
      { intros v. unfold nrm, nrm2, dot. cbn [sumn]. rewrite Rplus_0_l. apply sqrt_Rsqr_abs. }
      assert (RN : rsdl_rn eq_B eq_c 1 (eq_A (sX z)) (sY z) = (/ 2) ^ k).
      { unfold rsdl_rn, eq_A, eq_B, eq_c. rewrite !N1, ZX', ZY, Ropp_0, Rabs_R0, (Rabs_pos_eq ((/ 2) ^ k)) by lra. rewrite (Rmax_left ((/ 2) ^ k) 0) by lra. apply Rmax_left. lra. }
      rewrite RN in T. rewrite N1 in T. unfold rsdl_r, eq_A, eq_B, eq_c in T. rewrite ZX', ZY in T. rewrite Rabs_pos_eq in T by lra.
      destruct (Req_EM_T ((/ 2) ^ k) 0); [lra|]. rewrite Bool.andb_false_r in T. nra. }
    rewrite Hz in *.
    assert (j = maxiter o) as ->.
    { destruct (Nat.eq_dec j (maxiter o)) as [|Ne]; [assumption|exfalso]. specialize (J3 ltac:(lia)).
      apply (reason_met 1 1 eq_A eq_AT eq_B eq_c 1 1 zx zy std 0 reltol o _ _ Hc Ha Hf) in J3.
      rewrite after_run in J3 by exact Hc. apply (NM (S (j - 1)) ltac:(lia)). exact J3. }
    rewrite after_run in S1 by exact Hc. rewrite S1. destruct (zero_run (maxiter o)) as (ZX & ZY & _). split; [exact S2|]. split; [apply ZX; lia|exact ZY].
Qed.
End zero.

(** A case with all the hypotheses: with AbsStopTol = 1/10 the same solver stops by its tolerances after at most 401 iterations. *)
Example C94_instance {Stat : Type} clock (stats : nat -> state -> option (R * R * R * R) -> Stat) std (o : opts state) (s : sol state Stat) :
  SolveModel.it s = zero_state -> callback o = None -> autorho o = false -> fast o = false -> (401 <= maxiter o)%nat ->
  let s' := rate_solve clock stats std (1 * 1) (1 * 1) (/ 10) (/ 1000) eq_A eq_AT eq_B eq_c 1 1 (bpdn_xstep 1 1 one_solve (fun _ _ => 1) (fun _ => 1) 1) (bpdn_ystep false 2 1 (fun _ => 1)) o s in
  exists j, (1 <= j <= 401)%nat /\ cnt s' = (cnt s + j)%nat /\ tolerances_met (1 * 1) (1 * 1) eq_A eq_AT eq_B eq_c 1 std (/ 10) (/ 1000) (SolveModel.it s').
Proof.
  intros Hz Hc Ha Hf Hn s'.
  destruct (C94_bpdn 1 1 1 one_solve (fun _ _ => 1) (fun _ => 1) ltac:(lia) one_contract clock stats std (/ 10) (/ 1000) 1 1 false 2 (fun _ => 1) o s (fun _ => 0) 401) as (j & J1 & J2 & _ & J4);
    try assumption; try lra; try (rewrite Hz; reflexivity).
  - intros; lra.
  - split; [intros E; discriminate|]. intros x _. unfold lsq, l1reg, nrm2, dot. change (1 * 1)%nat with 1%nat. cbn [sumn]. rewrite !mm1.
    rewrite !Rmult_1_l, Rabs_R0. pose proof (Rle_abs (x 0%nat)). pose proof (Rabs_pos (x 0%nat)). pose proof (Rle_0_sqr (x 0%nat)) as Q. unfold Rsqr in Q. nra.
  - lia.
  - unfold bpdn_gradient, nrm2, dot. change (1 * 1)%nat with 1%nat. cbn [sumn]. rewrite !mm1. unfold tr.
    rewrite Rmax_left by lra. rewrite (INR_IZR_INZ 401), (INR_IZR_INZ 1). cbn [Z.of_nat Pos.of_succ_nat Pos.succ]. lra.
  - exists j. split; [exact J1|]. split; [exact J2|exact J4].
Qed.
Print Assumptions C94_rate.
Print Assumptions C94_instance.
Print Assumptions C94_fit_after_one.
Print Assumptions C94_rate_unrelaxed.
Print Assumptions C94_test.
Print Assumptions C94_iterations.
Print Assumptions C94_quality.
Print Assumptions C94_bpdn.
Print Assumptions C94_relative_only_refuted.
