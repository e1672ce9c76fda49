(** Convergence of the iterates of the two-block solvers. *)
Require Import List Reals Lra Lia Arith FunctionalExtensionality.
Require Import Verif.RVec Verif.ProxModel Verif.AdmmModel Verif.AdmmSpec Verif.AdmmProofs Verif.AdmmConv Verif.AdmmProps Verif.Compact Verif.AdmmLimit.
Require Import Verif.StepsModel Verif.StepsSpec Verif.StepsProofs Verif.LimitProofs Verif.Lagrange Verif.FftModel Verif.CscIterProofs Verif.CscTwoModel Verif.CscTwoProofs.
Local Open Scope R_scope.
Local Notation vec := (nat -> R).

Lemma lip_comp_tail n m0 g : loc_lip n g -> loc_lip (m0 + n) (fun y => g (block_sep1 m0 y)).
Proof.
  intros Hg r Hr. destruct (Hg r Hr) as (K & HK & Lg). exists K. split; [exact HK|]. intros x y Hx Hy. eapply Rle_trans; [apply Lg; intros i Hi; [apply Hx|apply Hy]; lia|].
  apply Rmult_le_compat_l; [exact HK|]. unfold dist1. rewrite sumn_split. pose proof (sumn_nonneg m0 (fun i => Rabs (x i - y i)) ltac:(intros; apply Rabs_pos)). unfold block_sep1. lra.
Qed.
Section two_lim.
Variables (n m0 : nat) (L : vec -> vec) (S0 : vec) (E0 E1 : vec -> Prop) (g0 g1 : vec -> R) (rlx rho : R) (xs ys : vec -> vec -> vec).
Hypothesis HL : linear_map L.
Hypothesis Hloc : local_map n L.
Hypothesis C0 : convex_on E0 g0.
Hypothesis C1 : convex_on E1 g1.
Hypothesis Hrho : 0 < rho.
Notation m := (m0 + n)%nat.
Notation A := (tA m0 L).
Notation c := (tc m0 S0).
Notation E := (tE m0 E0 E1).
Notation g := (tg m0 g0 g1).
Hypothesis HX : forall y u x, nrm2 m (fun i => A (xs y u) i + tb_B y i - c i + u i) <= nrm2 m (fun i => A x i + tb_B y i - c i + u i).
Hypothesis HY0 : forall ax u, E0 (block_sep0 (ys ax u)) /\ subgradient m0 E0 g0 (block_sep0 (ys ax u)) (fun i => rho * (ax i + u i - S0 i - ys ax u i)).
Hypothesis HY1 : forall ax u, E1 (block_sep1 m0 (ys ax u)) /\
  subgradient n E1 g1 (block_sep1 m0 (ys ax u)) (fun i => rho * (block_sep1 m0 ax i + block_sep1 m0 u i - block_sep1 m0 (ys ax u) i)).
Hypothesis Cl0 : closed m0 E0.
Hypothesis Cl1 : closed n E1.
Hypothesis Lp0 : loc_lip m0 g0.
Hypothesis Lp1 : loc_lip n g1.

Lemma closed_loc k (P : vec -> Prop) x y : closed k P -> (forall i, (i < k)%nat -> x i = y i) -> P x -> P y.
Proof. intros H Q Px. apply (H (fun _ => x) y); [intros; exact Px|]. intros i Hi. rewrite <- Q by exact Hi. apply cv_const. Qed.
Lemma lip_loc k F x y : loc_lip k F -> (forall i, (i < k)%nat -> x i = y i) -> F x = F y.
Proof.
  intros H Q. assert (U : Un_cv (fun _ : nat => F x) (F y)) by (apply (lip_cv k F (fun _ => x) y H); intros i Hi; rewrite <- Q by exact Hi; apply cv_const).
  exact (UL_sequence _ _ _ (cv_const (F x)) U).
Qed.
Lemma two_iterates st p0 y0 u0 : 0 < rlx < 2 -> saddle m A tb_B c rho (fun _ => True) E (fun _ => 0) g p0 y0 u0 ->
  let it k := iterate A tb_B c rlx xs ys k st in
  exists p, argmin (tfeas L S0 E0 E1) (tobj L S0 g0 g1) p /\ forall i, (i < n)%nat -> Un_cv (fun k => sX (it k) i) (p i) /\ Un_cv (fun k => block_sep1 m0 (sY (it k)) i) (p i).
Proof.
  intros Hr Sd0 it0.
  destruct (iterates_converge m A tb_B c rlx rho (fun _ => True) E (fun _ => 0) g xs ys (tA_affine n m0 L HL) (fun y i => eq_refl) tf_convex (tg_convex m0 E0 E1 g0 g1 C0 C1) Hrho
    (tX n m0 L S0 g0 g1 rho xs Hrho HX) (tY n m0 S0 E0 E1 g0 g1 rho ys Hrho HY0 HY1)) with (st := st) (xs := p0) (ys := y0) (us := u0) as (p & l & u & [(_ & [El0 El1] & G) Hm] & K1 & K2); try assumption.
  - intros x y l v _ Hy Cy Cg Cv. set (l1 := block_sep1 m0 l).
    assert (Cy1 : forall i, (i < n)%nat -> Un_cv (fun k => block_sep1 m0 (y k) i) (l1 i)) by (intros i Hi; apply (Cy (m0 + i)%nat); lia).
    assert (Cx : forall i, (i < n)%nat -> Un_cv (fun k => x k i) (l1 i)).
    { intros i Hi. pose proof (CV_plus _ _ _ _ (Cg (m0 + i)%nat ltac:(lia)) (Cy (m0 + i)%nat ltac:(lia))) as Q. rewrite Rplus_0_l in Q. revert Q. apply cv_ext. intros k. unfold gap, tA, tb_B, tc. rewrite !cat_ge. ring. }
    assert (Ll : forall i, (i < m0)%nat -> l i = L l1 i - S0 i).
    { intros i Hi. assert (CL : Un_cv (fun k => L (x k) i) (L l1 i)) by (apply (lip_cv n (fun x => L x i) x l1); [apply (lip_linear n m0 L i HL); [intros a b Hab q _; apply (Hloc a b Hab)|exact Hi]|exact Cx]).
      pose proof (CV_minus _ _ _ _ (CV_minus _ _ _ _ CL (cv_const (S0 i))) (Cg i ltac:(lia))) as Q. rewrite Rminus_0_r in Q.
      apply (UL_sequence (fun k => y k i)); [apply Cy; lia|]. revert Q. apply cv_ext. intros k. unfold gap, tA, tb_B, tc. rewrite !cat_lt by exact Hi. ring. }
    exists l1. split; [split; [exact I|split; [split|]]|].
    + apply (Cl0 (fun k => block_sep0 (y k))); [intros k; apply Hy|]. intros i Hi. apply Cy. lia.
    + apply (Cl1 (fun k => block_sep1 m0 (y k))); [intros k; apply Hy|]. exact Cy1.
    + intros i Hi. unfold gap, tA, tb_B, tc. destruct (Nat.ltb_spec i m0).
      * rewrite !cat_lt by assumption. rewrite Ll by assumption. ring.
      * replace i with (m0 + (i - m0))%nat by lia. rewrite !cat_ge. unfold l1, block_sep1. ring.
    + right. rewrite Rplus_0_l. assert (Cv' : Un_cv (fun k => g (y k)) v) by (revert Cv; apply cv_ext; intros; ring).
      assert (Cl : Un_cv (fun k => g (y k)) (g l)).
      { unfold tg. apply CV_plus; [apply (lip_cv m0 g0 (fun k => block_sep0 (y k)) (block_sep0 l) Lp0); intros i Hi; apply Cy; lia|apply (lip_cv n g1 (fun k => block_sep1 m0 (y k)) l1 Lp1 Cy1)]. }
      apply (UL_sequence _ _ _ Cl Cv').
  - set (l1 := block_sep1 m0 l) in *. destruct (gap_zero n m0 L S0 p l G) as [G0 G1].
    assert (Ll : forall i, (i < m0)%nat -> l i = L l1 i - S0 i) by (intros i Hi; rewrite G0 by exact Hi; f_equal; apply Hloc; intros j Hj; symmetry; apply G1; exact Hj).
    exists l1. split.
    + split; [split; [|exact El1]|].
      * apply (closed_loc m0 E0 (block_sep0 l)); [exact Cl0|exact Ll|exact El0].
      * intros x [F0 F1]. assert (Fe := feas_of n m0 L S0 E0 E1 (fun a b => closed_loc m0 E0 a b Cl0) x (conj F0 F1)). destruct Fe as (_ & Ey & Gx).
        specialize (Hm x _ I Ey). rewrite (tg_of m0 L S0 g0 g1 (fun a b => lip_loc m0 g0 a b Lp0) x) in Hm.
        assert (Z : dot m u (gap A tb_B c x (block_cat m0 (fun i => L x i - S0 i) x)) = 0).
        { unfold dot. rewrite (sumn_ext m _ (fun _ => 0)) by (intros i Hi; rewrite Gx by exact Hi; ring).
          assert (Z : forall k, sumn k (fun _ => 0) = 0) by (intros k; induction k as [|k IH]; cbn [sumn]; [reflexivity|rewrite IH; ring]). apply Z. }
        rewrite Z in Hm. assert (EQ : g l = tobj L S0 g0 g1 l1) by (unfold tg, tobj; f_equal; apply (lip_loc m0 g0); [exact Lp0|exact Ll]). rewrite EQ in Hm. lra.
    + intros i Hi. assert (Q1 : Un_cv (fun k => block_sep1 m0 (sY (it0 k)) i) (l1 i)) by (apply (K1 (m0 + i)%nat); lia). split; [|exact Q1].
      pose proof (pri_cv m A tb_B c rlx rho (fun _ => True) E (fun _ => 0) g xs ys (tA_affine n m0 L HL) (tB_affine n m0) tf_convex (tg_convex m0 E0 E1 g0 g1 C0 C1) Hrho
        (tX n m0 L S0 g0 g1 rho xs Hrho HX) (tY n m0 S0 E0 E1 g0 g1 rho ys Hrho HY0 HY1) st p0 y0 u0 Sd0 Hr) as Cp.
      pose proof (CV_plus _ _ _ _ (cv_nrm_coord m _ Cp (m0 + i)%nat ltac:(lia)) Q1) as Q. rewrite Rplus_0_l in Q. revert Q. apply cv_ext. intros k. unfold pri, gap, it. fold (it0 k). unfold tA, tb_B, tc. rewrite !cat_ge. unfold block_sep1. ring.
Qed.
End two_lim.

(** ** Balls: a multiplier exists if some point is strictly inside all of them *)
Section ball.
Variables (n P Cd : nat) (L : vec -> vec) (S0 : vec) (E1 : vec -> Prop) (g1 : vec -> R) (rho eps : R).
Hypothesis HP : (0 < P)%nat.
Notation m0 := (Cd * P)%nat.
Hypothesis HL : linear_map L.
Hypothesis Hloc : local_map n L.
Hypothesis C1 : convex_on E1 g1.
Hypothesis Hrho : 0 < rho.
Hypothesis Heps : 0 <= eps.
Notation ballset := (fun y : vec => forall c, (c < Cd)%nat -> nrm P (row P c y) <= eps).
Definition hc (c : nat) (x : vec) : R := nrm2 P (row P c (fun i => L x i - S0 i)) - eps * eps.
Lemma hc_le c x : hc c x <= 0 <-> nrm P (row P c (fun i => L x i - S0 i)) <= eps.
Proof.
  unfold hc. rewrite <- nrm_sqr. pose proof (nrm_nonneg P (row P c (fun i => L x i - S0 i))). split; intros; nra.
Qed.
Lemma hc_lt c x : nrm P (row P c (fun i => L x i - S0 i)) < eps -> hc c x < 0.
Proof. intros H. unfold hc. rewrite <- nrm_sqr. pose proof (nrm_nonneg P (row P c (fun i => L x i - S0 i))). nra. Qed.
Lemma hc_convex c : convex_on E1 (hc c).
Proof.
  intros x y t Ex Ey Ht. split; [apply (C1 x y t Ex Ey Ht)|]. unfold hc.
  assert (Q : nrm2 P (row P c (fun i => L (seg x y t) i - S0 i)) <= nrm2 P (row P c (fun i => L x i - S0 i)) + t * (nrm2 P (row P c (fun i => L y i - S0 i)) - nrm2 P (row P c (fun i => L x i - S0 i)))).
  { unfold nrm2, dot. rewrite <- sumn_minus, <- sumn_scal, <- sumn_plus. apply sumn_le. intros k _. unfold row.
    unfold seg. replace (fun i => x i + t * (y i - x i)) with (fun i => (1 - t) * x i + t * y i) by (extensionality j; ring). rewrite HL.
    set (a := L x (c * P + k)%nat). set (b := L y (c * P + k)%nat). set (s := S0 (c * P + k)%nat). pose proof (Rle_0_sqr (b - a)) as Q. unfold Rsqr in Q.
    assert (0 <= t * (1 - t)) by nra. pose proof (Rmult_le_pos _ _ H Q). lra. }
  lra.
Qed.
Lemma lip_row c : (c < Cd)%nat -> loc_lip n (hc c).
Proof.
  intros Hc. unfold hc. apply (lip_ext_fun n (fun x => nrm2 P (row P c (fun i => L x i - S0 i)) + - (eps * eps))); [intros; ring|]. apply lip_plus; [|apply lip_const].
  apply (lip_nrm2 n P (fun x => row P c (fun i => L x i - S0 i))). intros k Hk. unfold row.
  apply (lip_ext_fun n (fun x => L x (c * P + k)%nat + - S0 (c * P + k)%nat)); [intros; ring|]. apply lip_plus; [|apply lip_const].
  apply (lip_linear n m0 L _ HL); [intros a b Hab q _; apply (Hloc a b Hab)|]. nia.
Qed.
Lemma ball_saddle x0 p : E1 x0 -> (forall c, (c < Cd)%nat -> nrm P (row P c (fun i => L x0 i - S0 i)) < eps) ->
  argmin (tfeas L S0 ballset E1) (tobj L S0 (fun _ => 0) g1) p ->
  exists u, saddle (m0 + n) (tA m0 L) tb_B (tc m0 S0) rho (fun _ => True) (tE m0 ballset E1) (fun _ => 0) (tg m0 (fun _ => 0) g1) p (block_cat m0 (fun i => L p i - S0 i) p) u.
Proof.
  intros Ex0 Sl [[Fp Ep] Hp].
  destruct (lagrange Cd E1 g1 hc (g1 p) x0 C1 (fun j _ => hc_convex j)) as (lam & Hlam & V).
  { intros x Ex Hx. specialize (Hp x). unfold tobj, tfeas in Hp. assert (Q : 0 + g1 p <= 0 + g1 x) by (apply Hp; split; [intros c Hc; apply hc_le; apply Hx; exact Hc|exact Ex]). lra. }
  { exact Ex0. }
  { intros j Hj. apply hc_lt. apply Sl. exact Hj. }
  set (W := fun i => sqrt (2 * lam (i / P)%nat)).
  assert (WW : forall y, wfit m0 W y = sumn Cd (fun c => lam c * nrm2 P (row P c y))).
  { intros y. unfold wfit. unfold nrm2, dot. rewrite sumn_flat by exact HP. rewrite <- sumn_scal. apply sumn_ext. intros c Hc. rewrite <- !sumn_scal. apply sumn_ext. intros k Hk.
    unfold W, row. rewrite div_at by exact Hk.
    replace (/ 2 * (sqrt (2 * lam c) * y (c * P + k)%nat * (sqrt (2 * lam c) * y (c * P + k)%nat))) with (/ 2 * (sqrt (2 * lam c) * sqrt (2 * lam c)) * (y (c * P + k)%nat * y (c * P + k)%nat)) by ring.
    rewrite sqrt_sqrt by (specialize (Hlam c Hc); lra). field. }
  assert (Sum : forall x, sumn Cd (fun j => lam j * hc j x) = wfit m0 W (fun i => L x i - S0 i) - eps * eps * sumn Cd lam).
  { intros x. rewrite WW, <- sumn_scal, <- sumn_minus. apply sumn_ext. intros c _. unfold hc. ring. }
  assert (CS : 0 <= sumn Cd (fun j => lam j * hc j p)) by (specialize (V p Ep); lra).
  assert (CS' : sumn Cd (fun j => lam j * hc j p) <= 0).
  { rewrite <- (Rmult_0_l (sumn Cd (fun _ => 0))). rewrite <- sumn_scal. apply sumn_le. intros j Hj. rewrite Rmult_0_l. assert (Q : hc j p <= 0) by (apply hc_le; apply Fp; exact Hj). specialize (Hlam j Hj). nra. }
  assert (Hp' : argmin E1 (tobj L S0 (wfit m0 W) g1) p).
  { split; [exact Ep|]. intros x Ex. unfold tobj. specialize (V x Ex). rewrite Sum in V, CS, CS'. lra. }
  destruct (mask_saddle n m0 L S0 W E1 g1 rho HL Hloc C1 Hrho p Hp') as [u [Fs Sd]]. exists u. split.
  - apply feas_of; [|split; [exact Fp|exact Ep]]. intros x y Hxy Hx c Hc. rewrite (nrm_ext P (row P c y) (row P c x)); [apply Hx; exact Hc|]. intros k Hk. unfold row. symmetry. apply Hxy. nia.
  - intros x y _ [Y0 Y1]. specialize (Sd x y I (conj I Y1)). unfold tg in *. rewrite !cat_sep1 in *.
    rewrite (wfit_loc m0 W (block_sep0 (block_cat m0 (fun i => L p i - S0 i) p)) (fun i => L p i - S0 i)) in Sd by (intros i Hi; unfold block_sep0; apply cat_lt; exact Hi).
    rewrite Sum in CS, CS'.
    assert (B : wfit m0 W (block_sep0 y) <= eps * eps * sumn Cd lam).
    { rewrite WW, <- sumn_scal. apply sumn_le. intros c Hc. specialize (Y0 c Hc). specialize (Hlam c Hc). rewrite <- nrm_sqr. pose proof (nrm_nonneg P (row P c (block_sep0 y))).
      assert (nrm P (row P c (block_sep0 y)) * nrm P (row P c (block_sep0 y)) <= eps * eps) by (apply Rmult_le_compat; assumption). nra. }
    lra.
Qed.
(** A minimiser exists if some point meets the constraints. *)
Lemma ball_exists lam w x0 : 0 < lam -> (forall i, (i < n)%nat -> 0 < w i) -> boxes n E1 -> E1 x0 -> (forall c, (c < Cd)%nat -> nrm P (row P c (fun i => L x0 i - S0 i)) <= eps) ->
  exists p, argmin (tfeas L S0 ballset E1) (tobj L S0 (fun _ => 0) (l1reg n lam w)) p.
Proof.
  intros Hl Hw HE Ex0 H0. destruct (l1_coercive n lam w Hl Hw) as (a & Ha & Ba).
  destruct (constrained_min n E1 (l1reg n lam w) a 0 Cd hc x0 HE (lip_l1reg n lam w) (fun j Hj => lip_row j Hj) Ha) as [p [[P1 P2] P3]].
  { intros x _. specialize (Ba x). lra. }
  { exact Ex0. }
  { intros j Hj. apply hc_le. apply H0. exact Hj. }
  exists p. split; [split; [intros c Hc; apply hc_le; apply P2; exact Hc|exact P1]|]. intros x [X1 X2]. unfold tobj. apply Rplus_le_compat_l. apply P3. split; [exact X2|]. intros j Hj. apply hc_le. apply X1. exact Hj.
Qed.
End ball.

Lemma closed_masked n z nn : closed n (masked n z nn).
Proof.
  apply closed_and; [apply closed_nonneg|]. intros y l H C i Hi Hz. apply (UL_sequence (fun k => y k i)); [apply C; exact Hi|]. apply (cv_ext (fun _ => 0)); [|apply cv_const].
  intros k. symmetry. apply H; assumption.
Qed.
Lemma boxes_masked n z nn : boxes n (masked n z nn).
Proof.
  intros r Hr. exists (fun i => if z i then 0 else if nn then 0 else - r), (fun i => if z i then 0 else r). split; [intros i _; destruct (z i); destruct nn; lra|]. intros x. split.
  - intros H. split; [split|].
    + intros E i Hi. specialize (H i Hi). cbv beta in H. rewrite E in H. destruct (z i); lra.
    + intros i Hi Hz. specialize (H i Hi). cbv beta in H. rewrite Hz in H. lra.
    + intros i Hi. specialize (H i Hi). cbv beta in H. apply Rabs_le. destruct (z i); destruct nn; lra.
  - intros [[H1 H2] H3] i Hi. specialize (H3 i Hi). pose proof (Rle_abs (x i)). pose proof (Rle_abs (- x i)) as Q. rewrite Rabs_Ropp in Q. specialize (H2 i Hi).
    destruct (z i); [specialize (H2 eq_refl); lra|]. destruct nn; [specialize (H1 eq_refl i Hi)|]; lra.
Qed.
Lemma lip_wfit m0 W : loc_lip m0 (wfit m0 W).
Proof. unfold wfit. apply lip_scal. apply (lip_nrm2 m0 m0 (fun y i => W i * y i)). intros i Hi. apply lip_scal. apply lip_coord. exact Hi. Qed.
(** Regularised masked least squares has a minimiser. *)
Lemma mask_exists n m0 L S0 W E lam w : linear_map L -> local_map n L -> 0 < lam -> (forall i, (i < n)%nat -> 0 < w i) -> boxes n E ->
  exists p, argmin E (tobj L S0 (wfit m0 W) (l1reg n lam w)) p.
Proof.
  intros HL Hloc Hl Hw HE. set (L' := fun x i => W i * L x i). set (s' := fun i => W i * S0 i).
  destruct (sc_exists n m0 L' s' 0 lam w E) as [p [P1 P2]].
  - intros a x b y i. unfold L'. rewrite HL. ring.
  - intros x y Hxy i _. unfold L'. rewrite (Hloc x y Hxy). reflexivity.
  - lra.
  - lra.
  - exact HE.
  - left. split; assumption.
  - assert (EQ : forall x, tobj L S0 (wfit m0 W) (l1reg n lam w) x = sc_f n m0 L' s' 0 x + l1reg n lam w x).
    { intros x. unfold tobj, wfit, sc_f, lsq, ridge. rewrite (nrm2_ext m0 (fun i => W i * (L x i - S0 i)) (fun i => L' x i - s' i)) by (intros; unfold L', s'; ring). lra. }
    exists p. split; [exact P1|]. intros x Ex. rewrite !EQ. apply P2. exact Ex.
Qed.
