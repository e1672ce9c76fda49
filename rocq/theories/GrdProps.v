(** C79: the ADMM iteration of ConvL1L1Grd solves the problem it is documented to solve. *)
Require Import List Arith Reals Bool Lia Lra FunctionalExtensionality.
Require Import Verif.RVec Verif.Cplx Verif.ProxModel Verif.FftModel Verif.FftProofs Verif.FftInv Verif.CscModel Verif.CscSpec Verif.CscProofs Verif.CscProps Verif.CscIterModel Verif.CscIterProofs Verif.CscIterProps.
Require Import Verif.AdmmModel Verif.AdmmSpec Verif.AdmmProofs Verif.AdmmConv Verif.AdmmProps Verif.Compact Verif.AdmmLimit Verif.StepsModel Verif.StepsSpec Verif.StepsProofs Verif.LimitProofs Verif.Lagrange Verif.LimitTwo.
Require Import Verif.CscTwoModel Verif.CscTwoProofs Verif.CscTwoProps Verif.LimitProps Verif.SplitConv Verif.GrdModel.
Import ListNotations.
Local Open Scope R_scope.
Local Notation vec := (nat -> R).

(** The documented problem on one slice, in the spatial domain. *)
Definition l1_fit (s dsh : nat -> nat) (axes : list nat) (M Cd : nat) (D : nat -> nat -> index -> R) (S W : nat -> index -> R) (base : index) (x : vec) : R :=
  sumn Cd (fun c => total s axes (fun p => Rabs (W c p * (synth s dsh axes M D (coefs s axes x) c p - S c p))) base).
Definition l1l1grd (s dsh : nat -> nat) (axes : list nat) (M Cd : nat) (D : nat -> nat -> index -> R) (S W : nat -> index -> R) (base : index)
    (mu : R) (Wgrd : nat -> R) (lmbda : R) (wl1 x : vec) : R :=
  l1_fit s dsh axes M Cd D S W base x + lmbda * wl1norm (M * size s axes) wl1 x + grad_term s axes M mu Wgrd (coefs s axes x) base.

Section C79.
Variables (s dsh : nat -> nat) (axes : list nat) (M Cd : nat) (D : nat -> nat -> index -> R) (S W : nat -> index -> R) (base : index).
Variables (mu : R) (Wgrd : nat -> R) (rho rlx lmbda : R) (wl1 : vec).
Hypothesis ND : NoDup axes.
Hypothesis Hne : axes <> [].
Hypothesis H2 : forall ax, In ax axes -> (2 <= s ax)%nat.
Hypothesis HC : (0 < Cd)%nat.
Hypothesis Hrho : 0 < rho.
Hypothesis Hmu : 0 <= mu.
Hypothesis Hg : forall m, (m < M)%nat -> 0 <= Wgrd m.
Hypothesis Hl : 0 <= lmbda.
Notation P := (size s axes).
Notation n := (M * P)%nat.
Notation m0 := (blk s axes Cd).
Notation m := (m0 + n)%nat.
Hypothesis Hw : forall i, (i < n)%nat -> 0 <= wl1 i.
Hypothesis HW : forall c k, (c < Cd)%nat -> (k < P)%nat -> 0 <= W c (place s axes base k).
Notation Wv := (cs_flat s axes base W).
Notation run := (grd_iterate s dsh axes M Cd D S base mu Wgrd rlx rho lmbda wl1 Wv).
Notation F := (l1l1grd s dsh axes M Cd D S W base mu Wgrd lmbda wl1).
Lemma Hs79 : forall ax, In ax axes -> (0 < s ax)%nat. Proof. intros ax Ha. specialize (H2 ax Ha). lia. Qed.
Notation L := (Lw s dsh axes M Cd D base).
Notation S0 := (s0 s axes S base).
Notation K := (tA m0 L).
Notation c0 := (tc m0 S0).
(** The gradient term as a sum of squares. *)
Notation Z0 := (fun _ _ _ : _ => 0).
Notation qg := (QGrad mu Wgrd).
Notation mh := ((1 + nG axes M qg) * P)%nat.
Notation H := (Lop s dsh axes M 1 (fun _ _ _ => 0) qg base).
Definition Hv : vec -> vec := fun x r => if Nat.ltb r mh then H x r else 0.
Definition ws : vec := block_cat m0 Wv (fun i => lmbda * wl1 i).
Notation g := (l1reg m 1 ws).
Lemma qv : quad_valid s axes M qg. Proof. split; [exact Hmu|]. split; [exact Hg|exact H2]. Qed.
Lemma f_grad x : lsq mh Hv (fun _ => 0) x = grad_term s axes M mu Wgrd (coefs s axes x) base.
Proof.
  pose proof (prob_f_sc s dsh axes M 1 (fun _ _ _ => 0) (fun _ _ => 0) qg base ND Hne Hs79 x qv) as E. unfold sc_f, prob_f, q_mu in E. cbn [quad_term] in E.
  assert (E0 : datafit s dsh axes M 1 (fun _ _ _ => 0) (fun _ _ => 0) (arr s axes x) base = 0).
  { unfold datafit. cbn [sumn]. unfold sqn. rewrite (total_ext s axes _ (fun _ => 0) base ND).
    - rewrite <- (sum_place s axes Hs79). rewrite sumn_0 by reflexivity. ring.
    - intros p _. replace (synth s dsh axes M (fun _ _ _ => 0) (arr s axes x) 0 p) with 0; [ring|]. symmetry. unfold synth. apply sumn_0. intros j _. unfold conv.
      rewrite <- (sum_place s axes Hs79). apply sumn_0. intros k _. unfold ext. destruct (forallb _ axes); ring. }
  match type of E with ?a + _ = _ => replace a with 0 in E by (symmetry; exact E0) end. unfold ridge in E. replace (grad_term s axes M mu Wgrd (coefs s axes x) base) with (lsq mh H (sv s axes 1 (fun _ _ => 0) base) x) by (change (coefs s axes x) with (arr s axes x); lra).
  unfold lsq. f_equal. apply nrm2_ext. intros i Hi. unfold Hv, sv. apply Nat.ltb_lt in Hi. rewrite Hi. cbv zeta. destruct (Nat.ltb (i / P) 1); reflexivity.
Qed.
Lemma Hv_linear : linear_map Hv. Proof. intros a x b y r. unfold Hv. destruct (Nat.ltb r mh); [apply Lop_linear|ring]. Qed.
Lemma Hv_local : local_map n Hv.
Proof. intros x y E r. unfold Hv. destruct (Nat.ltb_spec r mh) as [Hr|]; [|reflexivity]. apply (Lop_local s dsh axes M 1 (fun _ _ _ => 0) qg base ND Hne Hs79); [exact E|exact Hr]. Qed.
Lemma K_linear : linear_map K.
Proof. intros a x b y r. unfold tA, block_cat. destruct (Nat.ltb r m0); [apply Lw_linear|reflexivity]. Qed.
Lemma K_local : forall x y, (forall i, (i < n)%nat -> x i = y i) -> forall p, (p < m)%nat -> K x p = K y p.
Proof.
  intros x y E p Hp. unfold tA, block_cat. destruct (Nat.ltb_spec p m0) as [|Hge]; [apply (Lw_local s dsh axes M Cd D base ND Hne Hs79 HC); exact E|apply E; lia].
Qed.
(** The x step is the one of ConvBPDNGradReg with penalty parameter one, gradient weight mu / rho and a shifted signal. *)
Lemma grd_x_eq Y0 U0 Y1 U1 : grd_x s dsh axes M Cd D S mu Wgrd rho Y0 U0 Y1 U1 =
  xstep s dsh axes M Cd D (fun c p => Y0 c p - U0 c p + S c p) (QGrad (mu / rho) Wgrd) 1 Y1 U1.
Proof.
  extensionality k. unfold grd_x, xstep. f_equal. extensionality i. unfold grd_xstepf, xstepf, solve_at, grd_diag, diag, DSf, CscModel.Sf. cbv zeta.
  replace (fun k0 => cadd (csumn Cd (fun c => cmul (conj (Df s dsh axes D c k0 i)) (rfftn s axes (fun p => Y0 c p - U0 c p + S c p) i))) (rfftn s axes (fun p => Y1 k0 p - U1 k0 p) i))
     with (fun k0 => cadd (csumn Cd (fun c => cmul (conj (Df s dsh axes D c k0 i)) (rfftn s axes (fun p => Y0 c p - U0 c p + S c p) i))) (cmul (ofR 1) (rfftn s axes (fun p => Y1 k0 p - U1 k0 p) i))).
  - reflexivity.
  - extensionality k0. f_equal. destruct (rfftn s axes _ i) as [a b]. unfold cmul, ofR, re, im. cbn [fst snd]. f_equal; ring.
Qed.
Lemma x79 y u : argmin (fun _ => True) (fun x => auglag m K eq_B c0 rho (lsq mh Hv (fun _ => 0)) g x y u) (grd_xstep s dsh axes M Cd D S base mu Wgrd rho y u).
Proof.
  split; [exact Logic.I|]. intros x _. pose proof (P_pos' s axes Hs79) as HP.
  set (Y0 := arr s axes (block_sep0 y)). set (U0 := arr s axes (block_sep0 u)). set (Y1 := arr s axes (block_sep1 m0 y)). set (U1 := arr s axes (block_sep1 m0 u)).
  assert (Fq : forall x, nrm2 (m0 + n) (fun i => K x i + eq_B y i - c0 i + u i) =
     sumn Cd (fun c => sqn s axes (fun p => synth s dsh axes M D (arr s axes x) c p - (Y0 c p - U0 c p + S c p)) base) + sumn M (fun k => sqn s axes (fun p => arr s axes x k p - (Y1 k p - U1 k p)) base)).
  { clear x. intros x. unfold nrm2, dot. rewrite sumn_split. unfold blk at 1. rewrite !sumn_flat by exact HP. f_equal; apply sumn_ext; intros c Hc; unfold sqn; rewrite <- (sum_slice s axes base Hs79); apply sumn_ext; intros k Hk.
    - assert (Hi : (c * P + k < m0)%nat) by (unfold blk; nia). unfold tA, tc, eq_B. rewrite !cat_lt by exact Hi. rewrite Lw_at, s0_at by assumption.
      assert (Q : forall v, arr s axes v c (place s axes base k) = v (c * P + k)%nat) by (intros; unfold arr; rewrite rank_place by (assumption || exact Hs79); reflexivity).
      unfold Y0, U0. rewrite !Q. unfold block_sep0. ring.
    - unfold tA, tc, eq_B. rewrite !cat_ge. assert (Q : forall v, arr s axes v c (place s axes base k) = v (c * P + k)%nat) by (intros; unfold arr; rewrite rank_place by (assumption || exact Hs79); reflexivity).
      unfold Y1, U1. rewrite !Q. unfold block_sep1. ring. }
  assert (Hq : quad_valid s axes M (QGrad (mu / rho) Wgrd)).
  { split; [|split; [exact Hg|exact H2]]. apply Rmult_le_pos; [exact Hmu|left; apply Rinv_0_lt_compat; exact Hrho]. }
  pose proof (C71_xstep s dsh axes M Cd D (fun c p => Y0 c p - U0 c p + S c p) (QGrad (mu / rho) Wgrd) 1 Y1 U1 (arr s axes x) base ND Hne Hs79 HC ltac:(lra) Hq) as A. cbv beta zeta in A.
  rewrite <- grd_x_eq in A. set (X := grd_x s dsh axes M Cd D S mu Wgrd rho Y0 U0 Y1 U1) in *. cbn [quad_term] in A.
  assert (E : same s axes M base X (arr s axes (grd_xstep s dsh axes M Cd D S base mu Wgrd rho y u))) by (intros k p Hk Hp; symmetry; apply arr_flat; assumption).
  rewrite (datafit_ext s dsh axes M Cd D _ base ND Hs79 _ _ E), (near_ext s axes M base ND _ _ _ _ E) in A. rewrite (quad_ext s axes M (QGrad (mu / rho) Wgrd) base ND Hs79 _ _ E : grad_term s axes M (mu / rho) Wgrd X base = _) in A.
  set (xs := grd_xstep s dsh axes M Cd D S base mu Wgrd rho y u) in *. cbn [quad_term] in A.
  assert (N : 0 <= 1 / 2 * sumn M (fun k => sqn s axes (fun p => arr s axes x k p - X k p) base)).
  { apply Rmult_le_pos; [lra|]. apply sumn_nonneg. intros k _. unfold sqn. rewrite <- (sum_slice s axes base Hs79). apply sumn_nonneg. intros. apply Rle_0_sqr. }
  assert (G : forall x, grad_term s axes M (mu / rho) Wgrd (arr s axes x) base = / rho * grad_term s axes M mu Wgrd (arr s axes x) base) by (intros; unfold grad_term; field; lra).
  rewrite !G in A. unfold datafit, near in A. unfold auglag. rewrite !Fq, !f_grad. change (coefs s axes) with (arr s axes).
  set (a1 := grad_term s axes M mu Wgrd (arr s axes xs) base) in *. set (a2 := grad_term s axes M mu Wgrd (arr s axes x) base) in *.
  match type of A with / 2 * ?d1 + _ + 1 / 2 * ?e1 + _ <= / 2 * ?d2 + _ + 1 / 2 * ?e2 => set (v1 := d1) in *; set (w1 := e1) in *; set (v2 := d2) in *; set (w2 := e2) in * end.
  assert (B : rho * (/ 2 * v1 + / rho * a1 + 1 / 2 * w1) <= rho * (/ 2 * v2 + / rho * a2 + 1 / 2 * w2)) by (apply Rmult_le_compat_l; lra).
  replace (rho * (/ 2 * v1 + / rho * a1 + 1 / 2 * w1)) with (a1 + rho / 2 * (v1 + w1)) in B by (field; lra).
  replace (rho * (/ 2 * v2 + / rho * a2 + 1 / 2 * w2)) with (a2 + rho / 2 * (v2 + w2)) in B by (field; lra). lra.
Qed.
Lemma ws_nonneg i : (i < m)%nat -> 0 <= ws i.
Proof.
  intros Hi. pose proof (P_pos' s axes Hs79) as HP. unfold ws, block_cat. destruct (Nat.ltb_spec i m0) as [Hlt|Hge].
  - unfold cs_flat. apply HW; [apply Nat.div_lt_upper_bound; unfold blk in Hlt; lia|apply Nat.mod_upper_bound; lia].
  - apply Rmult_le_pos; [exact Hl|apply Hw; lia].
Qed.
Lemma g_lip79 a b : Rabs (g a - g b) <= sumn m ws * nrm m (fun i => a i - b i).
Proof.
  unfold l1reg. rewrite !Rmult_1_l, <- sumn_minus. eapply Rle_trans; [apply sumn_abs|]. rewrite <- sumn_scal_r. apply sumn_le. intros i Hi.
  eapply Rle_trans; [apply Rabs_triang_inv2|]. rewrite <- Rmult_minus_distr_l, Rabs_mult, (Rabs_pos_eq (ws i)) by (apply ws_nonneg; exact Hi).
  apply Rmult_le_compat_l; [apply ws_nonneg; exact Hi|]. apply (abs_le_nrm m (fun i => a i - b i) i Hi).
Qed.
Lemma y79 ax u : argmin (fun _ => True) (fun y => auglag m (fun _ => ax) eq_B c0 rho (fun _ => 0) g ax y u) (grd_ystep s axes Cd S base lmbda rho wl1 Wv ax u).
Proof.
  destruct (bpdn_y m false 1 rho ws (fun i => ax i - c0 i) u ltac:(lra) Hrho ws_nonneg) as [B1 B2].
  assert (E : grd_ystep s axes Cd S base lmbda rho wl1 Wv ax u = bpdn_ystep false 1 rho ws (fun i => ax i - c0 i) u).
  { extensionality i. unfold grd_ystep, bpdn_ystep, clip, prox_l1, block_cat, block_sep0, block_sep1, ws, tc, block_cat, s0. cbn [andb]. destruct (Nat.ltb_spec i m0) as [Hi|Hi].
    - replace (ax i + u i - cs_flat s axes base S i) with (ax i - cs_flat s axes base S i + u i) by ring. reflexivity.
    - replace (m0 + (i - m0))%nat with i by lia. replace (ax i - 0 + u i) with (ax i + u i) by ring. f_equal. f_equal. field. lra. }
  rewrite E. pose proof (y_equal m rho (fun _ => True) g (fun i => ax i - c0 i) u _ ltac:(lra) Logic.I (fun y _ => B2 y ltac:(discriminate))) as [_ A].
  split; [exact Logic.I|]. intros y _. specialize (A y Logic.I). unfold auglag in *.
  assert (Q : forall y, nrm2 m (fun i => ax i + eq_B y i - c0 i + u i) = nrm2 m (fun i => ax i - c0 i + eq_B y i - eq_c i + u i)) by (intros; apply nrm2_ext; intros; unfold eq_c; ring).
  rewrite !Q. exact A.
Qed.
Lemma obj79 x : split_obj mh Hv (fun _ => 0) K c0 g x = F x.
Proof.
  unfold split_obj. rewrite f_grad. unfold l1l1grd. rewrite Rplus_comm. f_equal. unfold l1reg. rewrite Rmult_1_l, sumn_split. pose proof (P_pos' s axes Hs79) as HP. f_equal.
  - unfold l1_fit, blk. rewrite sumn_flat by exact HP. apply sumn_ext. intros c Hc. rewrite <- (sum_slice s axes base Hs79). apply sumn_ext. intros k Hk.
    assert (Hi : (c * P + k < m0)%nat) by (unfold blk; nia). unfold ws, tA, tc. rewrite !cat_lt by exact Hi. rewrite Lw_at, s0_at by assumption.
    unfold cs_flat. rewrite div_at, mod_at by exact Hk. reflexivity.
  - unfold wl1norm. rewrite <- sumn_scal. apply sumn_ext. intros i Hi. unfold ws, tA, tc. rewrite !cat_ge. rewrite Rminus_0_r. rewrite Rmult_assoc, Rabs_mult, (Rabs_pos_eq lmbda) by exact Hl. reflexivity.
Qed.
Lemma inj79 x : nrm2 n x <= 1 * (nrm2 mh (Hv x) + nrm2 m (K x)).
Proof.
  rewrite Rmult_1_l. unfold nrm2 at 3. unfold dot. rewrite sumn_split. rewrite (sumn_ext n (fun i => K x (m0 + i)%nat * K x (m0 + i)%nat) (fun i => x i * x i)) by (intros; unfold tA; rewrite cat_ge; reflexivity).
  change (sumn n (fun i => x i * x i)) with (nrm2 n x). pose proof (nrm2_nonneg mh (Hv x)). assert (0 <= sumn m0 (fun i => K x i * K x i)) by (apply sumn_nonneg; intros; apply Rle_0_sqr). lra.
Qed.
Lemma run79 k st : run k st = iterate K eq_B c0 rlx (grd_xstep s dsh axes M Cd D S base mu Wgrd rho) (grd_ystep s axes Cd S base lmbda rho wl1 Wv) k st.
Proof.
  unfold grd_iterate. replace (cs2_A s dsh axes M Cd D base) with K; [reflexivity|]. extensionality x. symmetry. apply cs2_A_eq; assumption || exact Hs79.
Qed.
Lemma g_pos79 y : 0 <= g y. Proof. unfold l1reg. rewrite Rmult_1_l. apply sumn_nonneg. intros; apply Rabs_pos. Qed.
Lemma Lg79 : 0 <= sumn m ws. Proof. apply sumn_nonneg. exact ws_nonneg. Qed.
Lemma g_conv79 : convex_on (fun _ => True) g. Proof. apply l1reg_convex; [lra|]. intros; exact Logic.I. Qed.

(** If an iteration leaves Y and U unchanged then X minimises the documented objective; Y is (D X - s, X). *)
Theorem C79_stationary st : rlx <> 0 -> let st' := run 1 st in
  (forall i, (i < m)%nat -> sY st' i = sY st i) -> (forall i, (i < m)%nat -> sU st' i = sU st i) ->
  argmin (fun _ => True) F (sX st') /\ forall i, (i < n)%nat -> getcoef s axes Cd st' i = sX st' i.
Proof.
  intros Hr st' E1 E2. unfold st' in *. rewrite run79 in *.
  destruct (split_stationary mh m Hv (fun _ => 0) K c0 g (sumn m ws) rlx rho _ _ Hv_linear K_linear g_conv79 Lg79 g_lip79 Hrho x79 y79 st Hr E1 E2) as [[_ A] B].
  split; [split; [exact Logic.I|]; intros x _; rewrite <- !obj79; apply A; exact Logic.I|].
  intros i Hi. unfold getcoef, block_sep1. rewrite B by lia. unfold tA, tc. rewrite !cat_ge. ring.
Qed.
(** X and the coefficients returned by solve converge to a minimiser. *)
Theorem C79_limit st : 0 < rlx < 2 -> (exists p, argmin (fun _ => True) F p) ->
  exists p, argmin (fun _ => True) F p /\ forall i, (i < n)%nat -> Un_cv (fun k => sX (run k st) i) (p i) /\ Un_cv (fun k => getcoef s axes Cd (run k st) i) (p i).
Proof.
  intros Hr [p0 [_ H0]].
  destruct (split_limit n mh m Hv (fun _ => 0) K c0 g (sumn m ws) rlx rho _ _ Hv_linear Hv_local K_linear K_local g_conv79 g_pos79 Lg79 g_lip79 Hrho x79 y79 1 ltac:(lra) inj79 st Hr) as (p & [_ A] & B1 & B2).
  { exists p0. split; [exact Logic.I|]. intros x _. rewrite !obj79. apply H0. exact Logic.I. }
  exists p. split; [split; [exact Logic.I|]; intros x _; rewrite <- !obj79; apply A; exact Logic.I|].
  intros i Hi. split.
  - apply (cv_ext (fun k => sX (iterate K eq_B c0 rlx (grd_xstep s dsh axes M Cd D S base mu Wgrd rho) (grd_ystep s axes Cd S base lmbda rho wl1 Wv) k st) i)); [intros k; rewrite run79; reflexivity|apply B1; exact Hi].
  - specialize (B2 (m0 + i)%nat ltac:(lia)). replace (K p (m0 + i)%nat - c0 (m0 + i)%nat) with (p i) in B2 by (unfold tA, tc; rewrite !cat_ge; ring).
    revert B2. apply cv_ext. intros k. rewrite run79. reflexivity.
Qed.
(** With positive coefficient weights there is a minimiser, for any mask. *)
Theorem C79_exists : 0 < lmbda -> (forall i, (i < n)%nat -> 0 < wl1 i) -> exists p, argmin (fun _ => True) F p.
Proof.
  intros Hl0 Hw0. destruct (l1_coercive n lmbda wl1 Hl0 Hw0) as (a & Ha & Ba).
  assert (LF : loc_lip n F).
  { apply (lip_ext_fun n (split_obj mh Hv (fun _ => 0) K c0 g)); [exact obj79|]. unfold split_obj. apply lip_plus.
    - apply (lip_lsq n mh Hv (fun _ => 0) Hv_linear). intros; apply Hv_local; assumption.
    - unfold l1reg. apply lip_scal. apply (lip_sumn n m (fun i x => Rabs (ws i * (K x i - c0 i)))). intros i Hi. apply lip_abs. apply lip_scal. apply (lip_plus n (fun x => K x i) (fun _ => - c0 i)); [|apply lip_const].
      apply (lip_linear n m K i K_linear K_local Hi). }
  apply (coercive_min n (fun _ => True) F a 0 (boxes_true n) LF Ha). intros x _. specialize (Ba x). unfold l1l1grd. rewrite <- f_grad.
  assert (0 <= lsq mh Hv (fun _ => 0) x) by (unfold lsq; pose proof (nrm2_nonneg mh (fun i => Hv x i - 0)); lra).
  assert (0 <= l1_fit s dsh axes M Cd D S W base x).
  { unfold l1_fit. apply sumn_nonneg. intros c _. rewrite <- (sum_slice s axes base Hs79). apply sumn_nonneg. intros; apply Rabs_pos. }
  unfold l1reg in Ba. unfold wl1norm. lra.
Qed.
End C79.
Print Assumptions C79_stationary.
Print Assumptions C79_limit.
Print Assumptions C79_exists.

(** A signal with three samples, one filter, a masked sample and an over-relaxed iteration. *)
Example C79_instance : let W := fun (_ : nat) (p : index) => if Nat.eqb (p 0%nat) 1 then 0 else 1 in
  let F := l1l1grd (fun _ => 3%nat) (fun _ => 2%nat) [0%nat] 1 1 (fun _ _ p => INR (p 0%nat) + 1) (fun _ p => INR (p 0%nat)) W (fun _ => 0%nat) (1/2) (fun _ => 1) (1/10) (fun _ => 1) in
  exists p, argmin (fun _ => True) F p /\ forall i, (i < 3)%nat ->
    Un_cv (fun k => getcoef (fun _ => 3%nat) [0%nat] 1 (grd_iterate (fun _ => 3%nat) (fun _ => 2%nat) [0%nat] 1 1 (fun _ _ p => INR (p 0%nat) + 1) (fun _ p => INR (p 0%nat)) (fun _ => 0%nat) (1/2) (fun _ => 1)
      (18/10) 2 (1/10) (fun _ => 1) (cs_flat (fun _ => 3%nat) [0%nat] (fun _ => 0%nat) W) k (mkState (fun _ => 0) (fun _ => 0) (fun _ => 0) (fun _ => 0))) i) (p i).
Proof.
  intros W F.
  assert (ND : NoDup [0%nat]) by (constructor; [intros []|constructor]).
  assert (HW : forall c k, (c < 1)%nat -> (k < size (fun _ => 3%nat) [0%nat])%nat -> 0 <= W c (place (fun _ => 3%nat) [0%nat] (fun _ => 0%nat) k)) by (intros c k _ _; unfold W; destruct (Nat.eqb _ 1); lra).
  assert (Ex : exists p, argmin (fun _ => True) F p).
  { apply C79_exists; try assumption; try discriminate; try (intros; lia); try lra; intros; cbv beta; lra. }
  destruct (C79_limit (fun _ => 3%nat) (fun _ => 2%nat) [0%nat] 1 1 (fun _ _ p => INR (p 0%nat) + 1) (fun _ p => INR (p 0%nat)) W (fun _ => 0%nat) (1/2) (fun _ => 1) 2 (18/10) (1/10) (fun _ => 1) ND ltac:(discriminate)
    ltac:(intros; cbv beta; lia) ltac:(lia) ltac:(lra) ltac:(lra) ltac:(intros; cbv beta; lra) ltac:(lra) ltac:(intros; cbv beta; lra) HW (mkState (fun _ : nat => 0) (fun _ : nat => 0) (fun _ : nat => 0) (fun _ : nat => 0)) ltac:(lra) Ex) as (p & A & B).
  exists p. split; [exact A|]. intros i Hi. apply (B i). cbn [size]. lia.
Qed.
