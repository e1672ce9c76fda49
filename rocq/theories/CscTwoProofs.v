Require Import List Arith ZArith Reals Bool Lia Lra FunctionalExtensionality.
Require Import Verif.RVec Verif.FftModel Verif.FftInv Verif.CscModel Verif.CscSpec Verif.CscProofs Verif.CscProps Verif.CscIterModel Verif.CscIterProofs Verif.CscTwoModel.
Require Import Verif.AdmmModel Verif.AdmmSpec Verif.AdmmProofs Verif.AdmmConv Verif.AdmmProps Verif.StepsModel Verif.StepsSpec Verif.StepsProofs.
Require Import Verif.ProxModel Verif.ProxSpec Verif.ProxProofs.
Import ListNotations.
Local Open Scope R_scope.

(** ** min g0 (L x - S0) + g1 x with both terms split off *)
Section two.
Variables (n m0 : nat) (L : vec -> vec) (S0 : vec) (E0 E1 : vec -> Prop) (g0 g1 : vec -> R) (rlx rho : R) (xs ys : vec -> vec -> vec).
Hypothesis HL : linear_map L.
Hypothesis Hloc : local_map n L.
Hypothesis LE0 : forall x y, (forall i, (i < m0)%nat -> x i = y i) -> E0 x -> E0 y.
Hypothesis LE1 : forall x y, (forall i, (i < n)%nat -> x i = y i) -> E1 x -> E1 y.
Hypothesis Lg0 : forall x y, (forall i, (i < m0)%nat -> x i = y i) -> g0 x = g0 y.
Hypothesis Lg1 : forall x y, (forall i, (i < n)%nat -> x i = y i) -> g1 x = g1 y.
Hypothesis C0 : convex_on E0 g0.
Hypothesis C1 : convex_on E1 g1.
Hypothesis Hrho : 0 < rho.
Notation m := (m0 + n)%nat.
Definition tA (x : vec) : vec := block_cat m0 (L x) x.
Definition tc : vec := block_cat m0 S0 (fun _ => 0).
Definition tE (y : vec) : Prop := E0 (block_sep0 y) /\ E1 (block_sep1 m0 y).
Definition tg (y : vec) : R := g0 (block_sep0 y) + g1 (block_sep1 m0 y).
Hypothesis HX : forall y u x, nrm2 m (fun i => tA (xs y u) i + tb_B y i - tc i + u i) <= nrm2 m (fun i => tA x i + tb_B y i - tc i + u i).
Hypothesis HY0 : forall ax u, E0 (block_sep0 (ys ax u)) /\ subgradient m0 E0 g0 (block_sep0 (ys ax u)) (fun i => rho * (ax i + u i - S0 i - ys ax u i)).
Hypothesis HY1 : forall ax u, E1 (block_sep1 m0 (ys ax u)) /\
  subgradient n E1 g1 (block_sep1 m0 (ys ax u)) (fun i => rho * (block_sep1 m0 ax i + block_sep1 m0 u i - block_sep1 m0 (ys ax u) i)).

Lemma cat_lt a b i : (i < m0)%nat -> block_cat m0 a b i = a i.
Proof. intros H. unfold block_cat. apply Nat.ltb_lt in H. rewrite H. reflexivity. Qed.
Lemma cat_ge a b i : block_cat m0 a b (m0 + i)%nat = b i.
Proof. unfold block_cat. destruct (Nat.ltb_spec (m0 + i) m0); [lia|]. f_equal. lia. Qed.
Lemma cat_sep1 a b : block_sep1 m0 (block_cat m0 a b) = b.
Proof. extensionality i. apply cat_ge. Qed.
Lemma tA_affine : affine m tA.
Proof.
  intros x y t i _. unfold tA, block_cat. destruct (Nat.ltb i m0); [|reflexivity].
  unfold seg at 1. replace (fun i => x i + t * (y i - x i)) with (fun i => (1 - t) * x i + t * y i) by (extensionality j; ring). rewrite HL. ring.
Qed.
Lemma tB_affine : affine m tb_B. Proof. intros x y t i _. unfold tb_B, seg. ring. Qed.
Lemma tf_convex : convex_on (fun _ => True) (fun _ : vec => 0). Proof. intros x y t _ _ Ht. split; [exact I|lra]. Qed.
Lemma tg_convex : convex_on tE tg.
Proof.
  intros x y t [X0 X1] [Y0 Y1] Ht. destruct (C0 _ _ t X0 Y0 Ht) as [P1 P2]. destruct (C1 _ _ t X1 Y1 Ht) as [Q1 Q2]. split.
  - split; [exact P1|exact Q1].
  - unfold tg. change (block_sep0 (seg x y t)) with (seg (block_sep0 x) (block_sep0 y) t).
    change (block_sep1 m0 (seg x y t)) with (seg (block_sep1 m0 x) (block_sep1 m0 y) t). lra.
Qed.
Lemma tX y u : argmin (fun _ => True) (fun x => auglag m tA tb_B tc rho (fun _ => 0) tg x y u) (xs y u).
Proof. split; [exact I|]. intros x _. unfold auglag. specialize (HX y u x). assert (0 <= rho / 2) by lra. pose proof (Rmult_le_compat_l (rho / 2) _ _ H HX). lra. Qed.
Lemma tY ax u : argmin tE (fun y => auglag m (fun _ => ax) tb_B tc rho (fun _ => 0) tg ax y u) (ys ax u).
Proof.
  destruct (HY0 ax u) as [A1 A2]. destruct (HY1 ax u) as [B1 B2]. set (y := ys ax u) in *. apply y_from_vi; [lra|split; assumption|].
  intros v [V0 V1]. specialize (A2 _ V0). specialize (B2 _ V1).
  assert (Q : rho * dot m (fun i => ax i + tb_B y i - tc i + u i) (fun i => tb_B v i - tb_B y i) =
    - dot m0 (fun i => rho * (ax i + u i - S0 i - y i)) (fun i => block_sep0 v i - block_sep0 y i)
    - dot n (fun i => rho * (block_sep1 m0 ax i + block_sep1 m0 u i - block_sep1 m0 y i)) (fun i => block_sep1 m0 v i - block_sep1 m0 y i)).
  { unfold dot. rewrite sumn_split, Rmult_plus_distr_l, <- !sumn_scal, <- !sumn_opp. unfold Rminus at 5. rewrite <- sumn_opp. f_equal; apply sumn_ext; intros i Hi; unfold tc, tb_B, block_sep1, block_sep0.
    - rewrite cat_lt by exact Hi. ring.
    - rewrite cat_ge. ring. }
  rewrite Q. unfold tg. lra.
Qed.
Definition tfeas (x : vec) : Prop := E0 (fun i => L x i - S0 i) /\ E1 x.
Definition tobj (x : vec) : R := g0 (fun i => L x i - S0 i) + g1 x.
Lemma gap_zero x y : (forall i, (i < m)%nat -> gap tA tb_B tc x y i = 0) ->
  (forall i, (i < m0)%nat -> y i = L x i - S0 i) /\ (forall i, (i < n)%nat -> block_sep1 m0 y i = x i).
Proof.
  intros G. split; intros i Hi.
  - specialize (G i ltac:(lia)). unfold gap, tA, tc, tb_B in G. rewrite !cat_lt in G by exact Hi. lra.
  - specialize (G (m0 + i)%nat ltac:(lia)). unfold gap, tA, tc, tb_B in G. rewrite !cat_ge in G. unfold block_sep1. lra.
Qed.
Lemma feas_of x : tfeas x -> feasible m tA tb_B tc (fun _ => True) tE x (block_cat m0 (fun i => L x i - S0 i) x).
Proof.
  intros [F0 F1]. split; [exact I|]. split; [split|].
  - apply (LE0 (fun i => L x i - S0 i)); [|exact F0]. intros i Hi. unfold block_sep0. rewrite cat_lt by exact Hi. reflexivity.
  - rewrite cat_sep1. exact F1.
  - intros i Hi. unfold gap, tA, tb_B, tc. unfold block_cat. destruct (Nat.ltb i m0); ring.
Qed.
Lemma tg_of x : tg (block_cat m0 (fun i => L x i - S0 i) x) = tobj x.
Proof. unfold tg, tobj. rewrite cat_sep1. f_equal. apply Lg0. intros i Hi. unfold block_sep0. apply cat_lt. exact Hi. Qed.
Lemma two_stationary st : rlx <> 0 ->
  let st' := iteration tA tb_B tc rlx xs ys st in
  (forall i, (i < m)%nat -> sY st' i = sY st i) -> (forall i, (i < m)%nat -> sU st' i = sU st i) ->
  (forall i, (i < n)%nat -> sX st' i = block_sep1 m0 (sY st') i) /\ argmin tfeas tobj (block_sep1 m0 (sY st')).
Proof.
  intros Hr st' H1 H2.
  destruct (C36_stationary_optimal m tA tb_B tc rlx rho (fun _ => True) tE (fun _ => 0) tg xs ys tA_affine tB_affine tf_convex tg_convex Hrho tX tY st Hr) as [[(_ & [Y0 Y1] & G) H] _].
  - intros i Hi. unfold tb_B. f_equal. apply H1. exact Hi.
  - exact H2.
  - fold st' in Y0, Y1, G, H. destruct (gap_zero _ _ G) as [G0 G1]. set (y1 := block_sep1 m0 (sY st')) in *.
    assert (EL : forall i, (i < m0)%nat -> sY st' i = L y1 i - S0 i) by (intros i Hi; rewrite G0 by exact Hi; f_equal; apply Hloc; intros j Hj; symmetry; apply G1; exact Hj).
    split; [intros i Hi; symmetry; apply G1; exact Hi|]. split; [split; [|exact Y1]|].
    + apply (LE0 (block_sep0 (sY st'))); [exact EL|exact Y0].
    + intros x Hx. specialize (H x _ (feas_of x Hx)). cbv beta in H. rewrite tg_of in H.
      assert (E : tg (sY st') = tobj y1) by (unfold tg, tobj; f_equal; apply Lg0; exact EL). rewrite E in H. lra.
Qed.
End two.

(** ** Mask decoupling: g0 = 1/2 || W y ||^2 *)
Section mask.
Variables (n m0 : nat) (L : vec -> vec) (S0 W : vec) (E1 : vec -> Prop) (g1 : vec -> R) (rlx rho : R) (xs ys : vec -> vec -> vec).
Hypothesis HL : linear_map L.
Hypothesis Hloc : local_map n L.
Hypothesis LE1 : forall x y, (forall i, (i < n)%nat -> x i = y i) -> E1 x -> E1 y.
Hypothesis Lg1 : forall x y, (forall i, (i < n)%nat -> x i = y i) -> g1 x = g1 y.
Hypothesis C1 : convex_on E1 g1.
Hypothesis Pg1 : forall x, 0 <= g1 x.
Hypothesis Hrho : 0 < rho.
Notation m := (m0 + n)%nat.
Notation A := (tA m0 L).
Notation c := (tc m0 S0).
Definition wfit (y : vec) : R := / 2 * nrm2 m0 (fun i => W i * y i).
Hypothesis HX : forall y u x, nrm2 m (fun i => A (xs y u) i + tb_B y i - c i + u i) <= nrm2 m (fun i => A x i + tb_B y i - c i + u i).
Hypothesis HYs : forall ax u i, (i < m0)%nat -> ys ax u i = rho * (ax i + u i - S0 i) / (W i ^ 2 + rho).
Hypothesis HY1 : forall ax u, E1 (block_sep1 m0 (ys ax u)) /\
  subgradient n E1 g1 (block_sep1 m0 (ys ax u)) (fun i => rho * (block_sep1 m0 ax i + block_sep1 m0 u i - block_sep1 m0 (ys ax u) i)).
Notation obj := (tobj L S0 wfit g1).

Lemma wfit_loc x y : (forall i, (i < m0)%nat -> x i = y i) -> wfit x = wfit y.
Proof. intros H. unfold wfit. f_equal. apply nrm2_ext. intros i Hi. rewrite H by exact Hi. reflexivity. Qed.
Lemma wfit_below p y : wfit p + dot m0 (fun i => W i ^ 2 * p i) (fun i => y i - p i) <= wfit y.
Proof.
  unfold wfit, nrm2, dot. rewrite <- !sumn_scal, <- sumn_plus. apply sumn_le. intros i _. pose proof (Rle_0_sqr (W i * (y i - p i))) as Q. unfold Rsqr in Q. lra.
Qed.
Lemma wfit_convex : convex_on (fun _ => True) wfit.
Proof.
  intros x y t _ _ Ht. split; [exact I|]. unfold wfit, nrm2, dot.
  rewrite <- !sumn_scal. rewrite <- sumn_minus, <- sumn_scal, <- sumn_plus. apply sumn_le. intros i _. unfold seg.
  pose proof (Rle_0_sqr (W i * (y i - x i))) as Q. unfold Rsqr in Q. assert (0 <= t * (1 - t)) by nra. pose proof (Rmult_le_pos _ _ H Q). lra.
Qed.
Lemma mask_Y0 ax u : True /\ subgradient m0 (fun _ => True) wfit (block_sep0 (ys ax u)) (fun i => rho * (ax i + u i - S0 i - ys ax u i)).
Proof.
  split; [exact I|]. intros z _. eapply Rle_trans; [|apply wfit_below]. apply Rplus_le_compat_l. right. unfold dot. apply sumn_ext. intros i Hi. f_equal.
  unfold block_sep0. rewrite (HYs ax u i Hi). assert (0 <= W i ^ 2) by (simpl; nra). field. lra.
Qed.
Definition mask_stationary := two_stationary n m0 L S0 (fun _ => True) E1 wfit g1 rlx rho xs ys HL Hloc (fun _ _ _ _ => I) wfit_loc wfit_convex C1 Hrho HX mask_Y0 HY1.
Notation E := (tE m0 (fun _ => True) E1).
Notation g := (tg m0 wfit g1).
Lemma mask_saddle p : argmin E1 obj p -> exists u, saddle m A tb_B c rho (fun _ => True) E (fun _ => 0) g p (block_cat m0 (fun i => L p i - S0 i) p) u.
Proof.
  intros [Ep Hp]. set (L' := fun x i => W i * L x i). set (s' := fun i => W i * S0 i).
  assert (HL' : linear_map L') by (intros a x b y i; unfold L'; rewrite HL; ring).
  assert (Hl' : local_map n L') by (intros x y Hxy i; unfold L'; rewrite (Hloc x y Hxy); reflexivity).
  destruct (adjoint_exists n m0 L' HL' Hl') as [LT HA].
  assert (Ef : forall x, wfit (fun i => L x i - S0 i) = sc_f n m0 L' s' 0 x).
  { intros x. unfold wfit, sc_f, lsq, ridge. rewrite (nrm2_ext m0 (fun i => W i * (L x i - S0 i)) (fun i => L' x i - s' i)) by (intros; unfold L', s'; ring). lra. }
  assert (Hp' : argmin E1 (fun x => sc_f n m0 L' s' 0 x + g1 x) p).
  { split; [exact Ep|]. intros x Hx. specialize (Hp x Hx). unfold tobj in Hp. rewrite !Ef in Hp. exact Hp. }
  destruct (sc_saddle n m0 L' LT s' 0 HL' HA E1 g1 rho p ltac:(lra) Hrho C1 Hp') as [_ Sd].
  set (gr := sc_grad L' LT s' 0 p) in *. set (r := fun i => L p i - S0 i).
  exists (block_cat m0 (fun i => W i ^ 2 * r i / rho) (fun i => - gr i / rho)). split.
  - apply (feas_of n m0 L S0 (fun _ => True) E1 (fun _ _ _ _ => I) p). split; [exact I|exact Ep].
  - intros x y _ [_ Ey]. specialize (Sd p (block_sep1 m0 y) I Ey).
    unfold tg. rewrite cat_sep1. rewrite (wfit_loc (block_sep0 (block_cat m0 r p)) r) by (intros i Hi; unfold block_sep0; apply cat_lt; exact Hi).
    pose proof (wfit_below r (block_sep0 y)) as Wb.
    assert (Q1 : rho * dot n (fun i => - gr i / rho) (gap eq_A eq_B eq_c p (block_sep1 m0 y)) = dot n gr (fun i => block_sep1 m0 y i - p i)).
    { unfold dot. rewrite <- sumn_scal. apply sumn_ext. intros. unfold gap, eq_A, eq_B, eq_c. field. lra. }
    rewrite Q1 in Sd.
    assert (Q2 : dot m0 (fun i => W i ^ 2 * r i) (fun i => L x i - S0 i - r i) = dot n gr (fun i => x i - p i)).
    { transitivity (dot m0 (L' (fun i => x i - p i)) (fun i => L' p i - s' i)).
      - unfold dot. apply sumn_ext. intros i _. unfold L', s', r. replace (fun i => x i - p i) with (fun i => 1 * x i + (-1) * p i) by (extensionality j; ring). rewrite HL. ring.
      - rewrite dot_comm. change (fun i => L' p i - s' i) with (vsub (L' p) s'). rewrite dot_sub_l, (dot_comm m0 (L' p)), (dot_comm m0 s'), !HA.
        unfold gr, sc_grad, dot. rewrite <- sumn_minus. apply sumn_ext. intros. ring. }
    assert (Q3 : rho * dot m (block_cat m0 (fun i => W i ^ 2 * r i / rho) (fun i => - gr i / rho)) (gap A tb_B c x y) =
       dot m0 (fun i => W i ^ 2 * r i) (fun i => L x i - S0 i - r i) - dot m0 (fun i => W i ^ 2 * r i) (fun i => block_sep0 y i - r i)
       - dot n gr (fun i => x i - p i) + dot n gr (fun i => block_sep1 m0 y i - p i)).
    { unfold dot. rewrite sumn_split, Rmult_plus_distr_l, <- !sumn_scal.
      replace (sumn m0 (fun i => W i ^ 2 * r i * (L x i - S0 i - r i)) - sumn m0 (fun i => W i ^ 2 * r i * (block_sep0 y i - r i)) - sumn n (fun i => gr i * (x i - p i)) + sumn n (fun i => gr i * (block_sep1 m0 y i - p i)))
        with ((sumn m0 (fun i => W i ^ 2 * r i * (L x i - S0 i - r i)) - sumn m0 (fun i => W i ^ 2 * r i * (block_sep0 y i - r i))) + (sumn n (fun i => gr i * (block_sep1 m0 y i - p i)) - sumn n (fun i => gr i * (x i - p i)))) by ring.
      rewrite <- !sumn_minus. f_equal; apply sumn_ext; intros i Hi; unfold gap, tA, tc, tb_B, block_sep0, block_sep1.
      - rewrite !cat_lt by exact Hi. field. lra.
      - rewrite !cat_ge. field. lra. }
    rewrite Q3, Q2. lra.
Qed.
Lemma mask_convergence st p : 0 < rlx < 2 -> argmin E1 obj p ->
  let it k := iterate A tb_B c rlx xs ys k st in
  Un_cv (fun k => nrm m (fun i => A (sX (it k)) i - sY (it k) i - c i)) 0 /\
  Un_cv (fun k => obj (block_sep1 m0 (sY (it k)))) (obj p).
Proof.
  intros Hr Hp it. destruct (mask_saddle p Hp) as [u Sd].
  destruct (C38_convergence m A tb_B c rlx rho (fun _ => True) E (fun _ => 0) g xs ys (tA_affine n m0 L HL) (tB_affine n m0) tf_convex (tg_convex m0 (fun _ => True) E1 wfit g1 wfit_convex C1) Hrho
    (tX n m0 L S0 wfit g1 rho xs Hrho HX) (tY n m0 S0 (fun _ => True) E1 wfit g1 rho ys Hrho mask_Y0 HY1) st p _ u Hr Sd) as (P1 & _ & P3).
  fold it in P1, P3.
  assert (P1' : Un_cv (fun k => nrm m (fun i => A (sX (it k)) i - sY (it k) i - c i)) 0).
  { assert (Q : Un_cv (fun k => nrm m (rsdl_r tb_B c (A (sX (it k))) (sY (it k)))) 0) by exact P1.
    revert Q. apply cv_ext. intros k. apply nrm_ext. intros i _. unfold rsdl_r, tb_B. ring. }
  split; [exact P1'|].
  rewrite (tg_of m0 L S0 wfit g1 wfit_loc p), Rplus_0_l in P3.
  assert (P3' : Un_cv (fun k => g (sY (it k))) (obj p)) by (revert P3; apply cv_ext; intros k; apply Rplus_0_l).
  set (gk := fun k => nrm m (fun i => A (sX (it k)) i - sY (it k) i - c i)) in *.
  (* the operator that carries x - y1 and the gap to the error of y0 *)
  destruct (linear_bounded n m0 (fun x i => W i * L x i)) as (K & HK & Kb).
  { intros a x b y i. rewrite HL. ring. }
  { intros x y Hxy i Hi. rewrite (Hloc x y Hxy). reflexivity. }
  assert (WB : exists B, 0 <= B /\ forall v, nrm2 m0 (fun i => W i * v i) <= B * nrm2 m0 v).
  { exists (sumn m0 (fun i => W i * W i)). split; [apply sumn_nonneg; intros; apply Rle_0_sqr|]. intros v. unfold nrm2, dot.
    rewrite <- sumn_scal. apply sumn_le. intros i Hi. replace (W i * v i * (W i * v i)) with (W i * W i * (v i * v i)) by ring.
    apply Rmult_le_compat_r; [apply Rle_0_sqr|]. apply (sumn_ge_term m0 (fun j => W j * W j) i); [intros; apply Rle_0_sqr|exact Hi]. }
  destruct WB as (B & HB & Bb).
  set (e := fun k i => W i * (L (block_sep1 m0 (sY (it k))) i - S0 i) - W i * sY (it k) i).
  set (kap := sqrt K + sqrt B).
  assert (Eb : forall k, nrm m0 (e k) <= kap * gk k).
  { intros k. set (x := sX (it k)). set (y := sY (it k)). set (y1 := block_sep1 m0 y).
    assert (D1 : forall i, (i < n)%nat -> x i - y1 i = A x (m0 + i)%nat - y (m0 + i)%nat - c (m0 + i)%nat).
    { intros i _. unfold tA, tc. rewrite !cat_ge. unfold y1, block_sep1. ring. }
    assert (N0 : nrm m0 (fun i => A x i - y i - c i) <= gk k).
    { unfold nrm, gk. apply sqrt_le_1; [apply nrm2_nonneg|apply nrm2_nonneg|]. unfold nrm2, dot. rewrite sumn_split.
      pose proof (sumn_nonneg n (fun i => (A (sX (it k)) (m0 + i)%nat - sY (it k) (m0 + i)%nat - c (m0 + i)%nat) * (A (sX (it k)) (m0 + i)%nat - sY (it k) (m0 + i)%nat - c (m0 + i)%nat)) ltac:(intros; apply Rle_0_sqr)). unfold x, y. lra. }
    assert (N1 : nrm n (fun i => x i - y1 i) <= gk k).
    { unfold nrm, gk. apply sqrt_le_1; [apply nrm2_nonneg|apply nrm2_nonneg|]. unfold nrm2, dot. rewrite sumn_split.
      pose proof (sumn_nonneg m0 (fun i => (A (sX (it k)) i - sY (it k) i - c i) * (A (sX (it k)) i - sY (it k) i - c i)) ltac:(intros; apply Rle_0_sqr)).
      rewrite (sumn_ext n (fun i => (x i - y1 i) * (x i - y1 i)) (fun i => (A x (m0 + i)%nat - y (m0 + i)%nat - c (m0 + i)%nat) * (A x (m0 + i)%nat - y (m0 + i)%nat - c (m0 + i)%nat))) by (intros i Hi; rewrite (D1 i Hi); reflexivity).
      unfold x, y. lra. }
    assert (T : nrm m0 (e k) <= nrm m0 (fun i => W i * L (fun j => x j - y1 j) i) + nrm m0 (fun i => W i * (A x i - y i - c i))).
    { rewrite <- (nrm_opp m0 (fun i => W i * L (fun j => x j - y1 j) i)). eapply Rle_trans; [|apply nrm_triang]. right. apply nrm_ext. intros i Hi. unfold vadd, e. fold y. fold y1.
      replace (fun j => x j - y1 j) with (fun j => 1 * x j + (-1) * y1 j) by (extensionality j; ring). rewrite HL. unfold tA, tc. rewrite !cat_lt by exact Hi. ring. }
    eapply Rle_trans; [exact T|]. unfold kap. rewrite Rmult_plus_distr_r. apply Rplus_le_compat.
    - apply Rle_trans with (sqrt K * nrm n (fun j => x j - y1 j)); [|apply Rmult_le_compat_l; [apply sqrt_pos|exact N1]].
      unfold nrm. rewrite <- sqrt_mult_alt by exact HK. apply sqrt_le_1; [apply nrm2_nonneg|apply Rmult_le_pos; [exact HK|apply nrm2_nonneg]|apply Kb].
    - apply Rle_trans with (sqrt B * nrm m0 (fun i => A x i - y i - c i)); [|apply Rmult_le_compat_l; [apply sqrt_pos|exact N0]].
      unfold nrm. rewrite <- sqrt_mult_alt by exact HB. apply sqrt_le_1; [apply nrm2_nonneg|apply Rmult_le_pos; [exact HB|apply nrm2_nonneg]|apply Bb]. }
  destruct (maj_by_pos (fun k => g (sY (it k))) (exist _ _ P3')) as (Mx & HM & Mb).
  set (R0 := sqrt (2 * Mx)).
  assert (Ab : forall k, nrm m0 (fun i => W i * sY (it k) i) <= R0).
  { intros k. unfold nrm, R0. apply sqrt_le_1; [apply nrm2_nonneg|lra|]. specialize (Mb k). pose proof (Rle_abs (g (sY (it k)))) as Q. unfold tg, wfit in Q, Mb. pose proof (Pg1 (block_sep1 m0 (sY (it k)))). unfold block_sep0 in *. lra. }
  assert (Kp : 0 <= kap) by (unfold kap; pose proof (sqrt_pos K); pose proof (sqrt_pos B); lra).
  assert (Diff : forall k, Rabs (obj (block_sep1 m0 (sY (it k))) - g (sY (it k))) <= R0 * kap * gk k + kap * kap / 2 * (gk k * gk k)).
  { intros k. set (a := fun i => W i * sY (it k) i).
    assert (Q : obj (block_sep1 m0 (sY (it k))) - g (sY (it k)) = dot m0 a (e k) + / 2 * nrm2 m0 (e k)).
    { unfold tobj, tg, wfit. rewrite (nrm2_ext m0 (fun i => W i * (L (block_sep1 m0 (sY (it k))) i - S0 i)) (vadd a (e k))) by (intros; unfold vadd, a, e; ring).
      rewrite nrm2_add. fold a. change (fun i => W i * block_sep0 (sY (it k)) i) with a. lra. }
    rewrite Q. eapply Rle_trans; [apply Rabs_triang|]. pose proof (nrm2_nonneg m0 (e k)) as Ne. rewrite (Rabs_pos_eq (/ 2 * nrm2 m0 (e k))) by lra.
    pose proof (Eb k) as Ek. pose proof (nrm_nonneg m0 (e k)) as Np. assert (Gp : 0 <= gk k) by apply nrm_nonneg.
    apply Rplus_le_compat.
    - eapply Rle_trans; [apply cauchy_schwarz|]. rewrite Rmult_assoc. apply Rmult_le_compat; [apply nrm_nonneg|exact Np|apply Ab|exact Ek].
    - rewrite <- nrm_sqr. assert (nrm m0 (e k) * nrm m0 (e k) <= kap * gk k * (kap * gk k)) by (apply Rmult_le_compat; assumption). lra. }
  assert (Z : Un_cv (fun k => obj (block_sep1 m0 (sY (it k))) - g (sY (it k))) 0).
  { intros ep He.
    assert (Cb : Un_cv (fun k => R0 * kap * gk k + kap * kap / 2 * (gk k * gk k)) 0).
    { apply cv_plus_0; apply cv_scal_0; [exact P1'|]. replace 0 with (0 * 0) by ring. apply CV_mult; exact P1'. }
    destruct (Cb ep He) as [N HN]. exists N. intros k Hk. specialize (HN k Hk). unfold R_dist in *. rewrite Rminus_0_r in *.
    eapply Rle_lt_trans; [apply Diff|]. eapply Rle_lt_trans; [apply Rle_abs|exact HN]. }
  replace (obj p) with (0 + obj p) by ring. apply (cv_ext (fun k => (obj (block_sep1 m0 (sY (it k))) - g (sY (it k))) + g (sY (it k)))); [intros; ring|]. apply CV_plus; assumption.
Qed.
End mask.

(** ** The steps of the two classes on a slice *)
Section steps.
Variables (s dsh : nat -> nat) (axes : list nat) (M Cd : nat) (D : nat -> nat -> index -> R) (S : nat -> index -> R) (base : index).
Hypothesis ND : NoDup axes.
Hypothesis Hne : axes <> [].
Hypothesis Hs : forall ax, In ax axes -> (0 < s ax)%nat.
Hypothesis HC : (0 < Cd)%nat.
Notation P := (size s axes).
Notation m0 := (blk s axes Cd).
Notation n := (M * P)%nat.
Definition Lw (x : vec) : vec := fun r => if Nat.ltb r m0 then Lop s dsh axes M Cd D QNone base x r else 0.
Definition s0 : vec := cs_flat s axes base S.
Lemma blk_QNone : ((Cd + nG axes M QNone) * P = m0)%nat. Proof. unfold nG, blk. lia. Qed.
Lemma Lw_linear : linear_map Lw.
Proof. intros a x b y r. unfold Lw. destruct (Nat.ltb r m0); [apply Lop_linear|ring]. Qed.
Lemma Lw_local : local_map n Lw.
Proof.
  intros x y E r. unfold Lw. destruct (Nat.ltb_spec r m0) as [Hr|]; [|reflexivity]. apply (Lop_local s dsh axes M Cd D QNone base ND Hne Hs); [exact E|]. rewrite blk_QNone. exact Hr.
Qed.
Lemma P_pos' : (0 < P)%nat. Proof. apply size_pos. exact Hs. Qed.
Lemma Lw_at x c k : (c < Cd)%nat -> (k < P)%nat -> Lw x (c * P + k)%nat = synth s dsh axes M D (arr s axes x) c (place s axes base k).
Proof.
  intros Hc Hk. unfold Lw, Lop, blk. cbv zeta. rewrite div_at, mod_at by exact Hk. assert (E : Nat.ltb (c * P + k) (Cd * P) = true) by (apply Nat.ltb_lt; nia). rewrite E.
  apply Nat.ltb_lt in Hc. rewrite Hc. reflexivity.
Qed.
Lemma s0_at c k : (k < P)%nat -> s0 (c * P + k)%nat = S c (place s axes base k).
Proof. intros Hk. unfold s0, cs_flat. rewrite div_at, mod_at by exact Hk. reflexivity. Qed.
Lemma cs2_A_eq x : cs2_A s dsh axes M Cd D base x = tA m0 Lw x.
Proof.
  extensionality r. unfold cs2_A, tA, block_cat. destruct (Nat.ltb_spec r m0) as [Hr|]; [|reflexivity]. pose proof P_pos' as HP.
  assert (Hk : (r mod P < P)%nat) by (apply Nat.mod_upper_bound; lia). assert (Hc : (r / P < Cd)%nat) by (apply Nat.div_lt_upper_bound; unfold blk in Hr; lia).
  unfold cs_flat. rewrite C68_reconstruct; [|exact ND|exact Hne|apply (place_slice s axes ND Hs base _ Hk)].
  rewrite (Nat.div_mod r P) at 3 by lia. rewrite Nat.mul_comm. rewrite Lw_at by assumption. reflexivity.
Qed.
Lemma sum_slice (f : pos -> R) : sumn P (fun k => f (place s axes base k)) = total s axes f base. Proof. apply sum_place. exact Hs. Qed.
Lemma cs2_x y u x : nrm2 (m0 + n) (fun i => tA m0 Lw (cs2_xstep s dsh axes M Cd D S base y u) i + tb_B y i - tc m0 s0 i + u i)
   <= nrm2 (m0 + n) (fun i => tA m0 Lw x i + tb_B y i - tc m0 s0 i + u i).
Proof.
  pose proof P_pos' as HP.
  set (Y0 := arr s axes (block_sep0 y)). set (U0 := arr s axes (block_sep0 u)). set (Y1 := arr s axes (block_sep1 m0 y)). set (U1 := arr s axes (block_sep1 m0 u)).
  assert (F : forall x, nrm2 (m0 + n) (fun i => tA m0 Lw x i + tb_B y i - tc m0 s0 i + u i) =
     sumn Cd (fun c => sqn s axes (fun p => synth s dsh axes M D (arr s axes x) c p - S c p - Y0 c p + U0 c p) base) + sumn M (fun m => sqn s axes (fun p => arr s axes x m p - Y1 m p + U1 m p) base)).
  { clear x. intros x. unfold nrm2, dot. rewrite sumn_split. unfold blk at 1. rewrite !sumn_flat by exact HP. f_equal; apply sumn_ext; intros c Hc; unfold sqn; rewrite <- sum_slice; apply sumn_ext; intros k Hk.
    - assert (Hi : (c * P + k < m0)%nat) by (unfold blk; nia). unfold tA, tc, tb_B. rewrite !cat_lt by exact Hi. rewrite Lw_at, s0_at by assumption.
      assert (Q : forall v, arr s axes v c (place s axes base k) = v (c * P + k)%nat) by (intros; unfold arr; rewrite rank_place by assumption; reflexivity).
      unfold Y0, U0. rewrite !Q. unfold block_sep0. ring.
    - unfold tA, tc, tb_B. rewrite !cat_ge. assert (Q : forall v, arr s axes v c (place s axes base k) = v (c * P + k)%nat) by (intros; unfold arr; rewrite rank_place by assumption; reflexivity).
      unfold Y1, U1. rewrite !Q. unfold block_sep1. ring. }
  rewrite !F.
  pose proof (C71_two_block s dsh axes M Cd D S Y0 U0 Y1 U1 (arr s axes x) base ND Hne Hs HC) as H. cbv beta zeta in H.
  set (X := xstep2 s dsh axes M Cd D S Y0 U0 Y1 U1) in *.
  assert (E : same s axes M base X (arr s axes (cs2_xstep s dsh axes M Cd D S base y u))) by (intros m p Hm Hp; symmetry; apply arr_flat; assumption).
  assert (E1 : sumn Cd (fun c => sqn s axes (fun p => synth s dsh axes M D X c p - S c p - Y0 c p + U0 c p) base) =
     sumn Cd (fun c => sqn s axes (fun p => synth s dsh axes M D (arr s axes (cs2_xstep s dsh axes M Cd D S base y u)) c p - S c p - Y0 c p + U0 c p) base)).
  { apply sumn_ext. intros c _. apply (sqn_ext s axes base ND). intros p Hp. rewrite (synth_ext s dsh axes M D base ND Hs X _ c p E Hp). reflexivity. }
  assert (E2 : sumn M (fun m => sqn s axes (fun p => X m p - Y1 m p + U1 m p) base) =
     sumn M (fun m => sqn s axes (fun p => arr s axes (cs2_xstep s dsh axes M Cd D S base y u) m p - Y1 m p + U1 m p) base)).
  { apply sumn_ext. intros m Hm. apply (sqn_ext s axes base ND). intros p Hp. rewrite (E m p Hm Hp). reflexivity. }
  rewrite E1, E2 in H.
  assert (N : 0 <= / 2 * sumn M (fun m => sqn s axes (fun p => arr s axes x m p - X m p) base)).
  { apply Rmult_le_pos; [lra|]. apply sumn_nonneg. intros m _. unfold sqn. rewrite <- sum_slice. apply sumn_nonneg. intros. apply Rle_0_sqr. }
  lra.
Qed.
(** The ball for each channel. *)
Definition balls (eps : R) (y : vec) : Prop := forall c, (c < Cd)%nat -> nrm P (row P c y) <= eps.
Lemma balls_local eps x y : (forall i, (i < m0)%nat -> x i = y i) -> balls eps x -> balls eps y.
Proof. intros E H c Hc. rewrite (nrm_ext P (row P c y) (row P c x)); [apply H; exact Hc|]. intros k Hk. unfold row. symmetry. apply E. unfold blk. nia. Qed.
Lemma balls_convex eps : convex_on (balls eps) (fun _ => 0).
Proof.
  intros x y t Hx Hy Ht. split; [|lra]. intros c Hc. specialize (Hx c Hc). specialize (Hy c Hc).
  rewrite (nrm_ext P (row P c (seg x y t)) (vadd (vscal (1 - t) (row P c x)) (vscal t (row P c y)))) by (intros k _; unfold row, seg, vadd, vscal; ring).
  eapply Rle_trans; [apply nrm_triang|]. rewrite !nrm_scal, !Rabs_pos_eq by lra. pose proof (nrm_nonneg P (row P c x)). pose proof (nrm_nonneg P (row P c y)). nra.
Qed.
Lemma ball_Y0 z nn rho wl1 eps ax u : 0 < rho -> 0 <= eps ->
  balls eps (block_sep0 (ball_ystep s axes Cd S base z nn rho wl1 eps ax u)) /\
  subgradient m0 (balls eps) (fun _ => 0) (block_sep0 (ball_ystep s axes Cd S base z nn rho wl1 eps ax u))
    (fun i => rho * (ax i + u i - s0 i - ball_ystep s axes Cd S base z nn rho wl1 eps ax u i)).
Proof.
  intros Hr He. pose proof P_pos' as HP. set (y := ball_ystep s axes Cd S base z nn rho wl1 eps ax u). set (v := fun i => ax i + u i - s0 i).
  assert (Ey : forall c k, (c < Cd)%nat -> (k < P)%nat -> y (c * P + k)%nat = proj_l2 P (row P c v) eps k).
  { intros c k Hc Hk. unfold y, ball_ystep. rewrite cat_lt by (unfold blk; nia). rewrite rows_at by exact Hk. reflexivity. }
  assert (B : forall c, nrm P (proj_l2 P (row P c v) eps) <= eps /\ forall x, nrm P x <= eps -> dot P (vsub (row P c v) (proj_l2 P (row P c v) eps)) (vsub x (proj_l2 P (row P c v) eps)) <= 0).
  { intros c. pose proof (ball_variational P (row P c v) eps He) as [V1 [_ V2]]. split.
    - unfold proj_l2. rewrite norm_l2_nrm. exact V1.
    - intros x Hx. unfold proj_l2. rewrite norm_l2_nrm. apply V2. exact Hx. }
  split.
  - intros c Hc. rewrite (nrm_ext P (row P c (block_sep0 y)) (proj_l2 P (row P c v) eps)); [apply B|]. intros k Hk. apply Ey; assumption.
  - intros x Hx. rewrite Rplus_0_l. unfold dot. unfold blk at 1. rewrite sumn_flat by exact HP.
    assert (Z : forall (f : nat -> R) N, (forall c, (c < N)%nat -> f c <= 0) -> sumn N f <= 0) by (intros f N H; rewrite <- (sumn_0 N (fun _ => 0)) by (intros; reflexivity); apply sumn_le; exact H).
    apply Z. intros c Hc. destruct (B c) as [_ V]. specialize (V (row P c x) (Hx c Hc)). unfold dot in V.
    rewrite (sumn_ext P _ (fun k => rho * (vsub (row P c v) (proj_l2 P (row P c v) eps) k * vsub (row P c x) (proj_l2 P (row P c v) eps) k))).
    + rewrite sumn_scal. set (q := sumn P _) in *. nra.
    + intros k Hk. unfold block_sep0. rewrite !Ey by assumption. unfold vsub, row, v. ring.
Qed.
Lemma l1_loc N lam wl1 x y : (forall i, (i < N)%nat -> x i = y i) -> l1reg N lam wl1 x = l1reg N lam wl1 y.
Proof. intros E. unfold l1reg. f_equal. apply sumn_ext. intros i Hi. rewrite (E i Hi). reflexivity. Qed.
Lemma masked_loc N z nn x y : (forall i, (i < N)%nat -> x i = y i) -> masked N z nn x -> masked N z nn y.
Proof. intros E [H1 H2]. split; [intros e i Hi; rewrite <- E by exact Hi; apply H1; assumption|intros i Hi Hz; rewrite <- E by exact Hi; apply H2; assumption]. Qed.
Lemma restrict_step z nn lam rho wl1 v w : cs2_restrict z nn (prox_l1 (fun i => v i + w i) (fun i => lam / rho * wl1 i)) = cs_ystep z nn lam rho wl1 v w.
Proof. reflexivity. Qed.
End steps.
