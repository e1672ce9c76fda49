(** Auxiliary results for the product dictionary solver with l1 data term. *)
Require Import List Arith Reals Bool Lia Lra FunctionalExtensionality.
Require Import Verif.RVec Verif.Cplx Verif.FftModel Verif.FftProofs Verif.FftInv Verif.CscModel Verif.CscSpec Verif.CscProofs Verif.CscProps Verif.CscIterModel Verif.CscIterProofs.
Require Import Verif.AdmmModel Verif.AdmmSpec Verif.AdmmProps Verif.StepsModel Verif.StepsSpec Verif.StepsProofs Verif.ProxModel Verif.CscTwoModel Verif.CscTwoProofs Verif.GrdModel Verif.PdcModel Verif.PdcSpec Verif.PdcProofs Verif.PdgModel Verif.PdgSpec.
Require Import Verif.AdmmProofs Verif.AdmmConv Verif.Compact Verif.LimitProofs Verif.SplitConv Verif.GrdProps.
Require Verif.TvdFourier Verif.CtvFreq Verif.RtvProofs.
Import ListNotations.
Local Open Scope R_scope.

(** ** The adjoint of the synthesis, computed in the frequency domain *)
Section adj.
Variables (s dsh : nat -> nat) (axes : list nat) (M Cd : nat) (D : nat -> nat -> index -> R).
Hypothesis ND : NoDup axes.
Hypothesis Hne : axes <> [].
Hypothesis Hs : forall ax, In ax axes -> (0 < s ax)%nat.
Definition adjs (Z : nat -> (nat -> nat) -> R) (m : nat) : index -> R :=
  irfftn s axes (fun i => csumn Cd (fun c => cmul (conj (Df s dsh axes D c m i)) (rfftn s axes (Z c) i))).
Lemma pars_dot (x y : (nat -> nat) -> R) base : prodn s axes * total s axes (fun p => x p * y p) base =
  rsum s axes (fun i => re (cmul (conj (rfftn s axes x i)) (rfftn s axes y i))) base.
Proof.
  pose proof (TvdFourier.parseval_slice s axes ND Hne Hs (fun p => x p - y p) base) as A.
  pose proof (TvdFourier.parseval_slice s axes ND Hne Hs x base) as B. pose proof (TvdFourier.parseval_slice s axes ND Hne Hs y base) as C0.
  unfold sqn in *.
  assert (E1 : total s axes (fun p => (x p - y p) * (x p - y p)) base = total s axes (fun p => x p * x p) base + total s axes (fun p => y p * y p) base - 2 * total s axes (fun p => x p * y p) base).
  { pose proof (total_lin s axes 1 (fun p => 1 * (x p * x p) + 1 * (y p * y p)) (-2) (fun p => x p * y p) base) as L. cbv beta in L.
    pose proof (total_lin s axes 1 (fun p => x p * x p) 1 (fun p => y p * y p) base) as L2. cbv beta in L2.
    transitivity (total s axes (fun p => 1 * (1 * (x p * x p) + 1 * (y p * y p)) + -2 * (x p * y p)) base); [apply (f_equal (fun h => total s axes h base)); extensionality p; ring|].
    etransitivity; [exact L|]. etransitivity; [apply (f_equal (fun v => 1 * v + -2 * total s axes (fun p => x p * y p) base) L2)|]. ring. }
  assert (E2 : rsum s axes (fun i => cabs2 (rfftn s axes (fun p => x p - y p) i)) base =
     rsum s axes (fun i => cabs2 (rfftn s axes x i)) base + rsum s axes (fun i => cabs2 (rfftn s axes y i)) base + -2 * rsum s axes (fun i => re (cmul (conj (rfftn s axes x i)) (rfftn s axes y i))) base).
  { rewrite <- rsum_scal, <- !rsum_plus. apply rsum_ext. intros i. rewrite (CtvFreq.hat_sub s axes Hne). generalize (rfftn s axes x i) (rfftn s axes y i). intros [a1 a2] [b1 b2].
    unfold cabs2, csub, cadd, copp, cmul, conj, re, im. cbn [fst snd]. ring. }
  pose proof (f_equal (Rmult (prodn s axes)) E1) as F1. pose proof (eq_trans (eq_trans (eq_sym F1) A) E2) as F.
  set (u := total s axes (fun p => x p * y p) base) in *. set (v := rsum s axes (fun i => re _) base) in *. 
  match type of F with _ * (?a + ?b - _) = ?a' + ?b' + _ => set (t1 := a) in *; set (t2 := b) in *; set (t3 := a') in *; set (t4 := b') in * end.
  assert (B' : prodn s axes * t1 = t3) by exact B. assert (C' : prodn s axes * t2 = t4) by exact C0. clear -F B' C'. rewrite <- B', <- C' in F. lra.
Qed.
Lemma adjs_hermitian Z m : hermitian_nd s axes (fun i => csumn Cd (fun c => cmul (conj (Df s dsh axes D c m i)) (rfftn s axes (Z c) i))).
Proof.
  intros i Hi. rewrite csumn_conj. apply csumn_ext. intros c _. unfold Df. rewrite !(CtvFreq.hat_neg s axes ND Hne Hs) by exact Hi. rewrite conj_mul. reflexivity.
Qed.
Lemma adjs_dot Z X base : sumn M (fun m => total s axes (fun p => adjs Z m p * X m p) base) = sumn Cd (fun c => total s axes (fun p => Z c p * synth s dsh axes M D X c p) base).
Proof.
  assert (HP : prodn s axes <> 0) by (apply Rgt_not_eq; apply prodn_pos; exact Hs).
  apply (Rmult_eq_reg_l (prodn s axes)); [|exact HP]. rewrite <- !sumn_scal.
  transitivity (sumn M (fun m => rsum s axes (fun i => sumn Cd (fun c => re (cmul (conj (rfftn s axes (Z c) i)) (cmul (Df s dsh axes D c m i) (rfftn s axes (X m) i))))) base)).
  - apply sumn_ext. intros m _. rewrite pars_dot. apply rsum_ext_in. intros i Hi _. unfold adjs. rewrite (CtvFreq.hat_inv s axes ND Hne Hs) by (apply adjs_hermitian || exact Hi).
    rewrite csumn_conj, <- csumn_scal_r, re_csumn. apply sumn_ext. intros c _. f_equal. rewrite conj_mul. generalize (Df s dsh axes D c m i) (rfftn s axes (Z c) i) (rfftn s axes (X m) i).
    intros [a1 a2] [b1 b2] [d1 d2]. unfold cmul, conj, re, im. cbn [fst snd]. f_equal; ring.
  - transitivity (sumn Cd (fun c => rsum s axes (fun i => sumn M (fun m => re (cmul (conj (rfftn s axes (Z c) i)) (cmul (Df s dsh axes D c m i) (rfftn s axes (X m) i))))) base)).
    { rewrite (sumn_ext M _ (fun m => sumn Cd (fun c => rsum s axes (fun i => re (cmul (conj (rfftn s axes (Z c) i)) (cmul (Df s dsh axes D c m i) (rfftn s axes (X m) i)))) base))) by (intros; apply rsum_sumn).
      rewrite sumn_swap. apply sumn_ext. intros c _. rewrite rsum_sumn. reflexivity. }
    apply sumn_ext. intros c _. rewrite pars_dot. apply rsum_ext_in. intros i Hi _.
    assert (E : rfftn s axes (synth s dsh axes M D X c) i = csumn M (fun m => cmul (Df s dsh axes D c m i) (rfftn s axes (X m) i))).
    { pose proof ND as ND'. pose proof Hs as Hs'. destruct (TvdFourier.axes_snoc axes Hne) as (r & l & E). rewrite E in *. apply synth_f; assumption. }
    rewrite E, <- csumn_scal, re_csumn. reflexivity.
Qed.
End adj.

Section pdg.
Variables (s dsh : nat -> nat) (axes : list nat) (M C Cb : nat) (S : nat -> index -> R) (st : pd_fac) (base : index).
Variables (mu : R) (Wgrd : nat -> R) (rho : R).
Hypothesis ND : NoDup axes.
Hypothesis Hne : axes <> [].
Hypothesis Hs : forall ax, In ax axes -> (0 < s ax)%nat.
Hypothesis HM : (0 < M)%nat.
Hypothesis HC : (0 < C)%nat.
Hypothesis He : eigen Cb (gram C (f_B st)) (f_Gamma st) (f_Q st).
Notation D := (f_D st).
Notation B := (f_B st).
Notation DD := (pdict M D B).
Notation WW := (fun k => Wgrd (k mod M)).
Notation n := (Cb * M * size s axes)%nat.
Notation m0 := (C * size s axes)%nat.

(** cnst_A0 and cnst_A0T are those of the multi-channel solver with the products of the two dictionaries. *)
Lemma pdg_A_cs2 x : pdg_A s dsh axes M C Cb st base x = cs2_A s dsh axes (Cb * M) C DD base x.
Proof.
  unfold pdg_A, cs2_A. change (pdg_m0 s axes C) with (blk s axes C). apply (f_equal (fun h => block_cat (blk s axes C) h x)). unfold pdg_A0. f_equal. extensionality c.
  unfold pd_reconstruct, reconstruct. f_equal. extensionality i. unfold pd_spec. rewrite RtvProofs.csumn_flat by exact HM. apply csumn_ext. intros b _. rewrite <- csumn_scal. apply csumn_ext. intros m Hm.
  rewrite (pdict_Df s dsh axes M D B Hne), div_at, mod_at by exact Hm. unfold chan. ring.
Qed.
Lemma pdg_A0T_adjs y0 : pdg_A0T s dsh axes M C st base y0 = cs_flat s axes base (adjs s dsh axes C DD (arr s axes y0)).
Proof.
  unfold pdg_A0T. f_equal. extensionality k. unfold adjs. f_equal. extensionality i. apply csumn_ext. intros c _.
  rewrite (pdict_Df s dsh axes M D B Hne), conj_mul, conj_ofR. ring.
Qed.

(** The x step of the multi-channel solver and of this one solve the same equations. *)
Hypothesis Hr : 0 < rho.
Hypothesis Hmu : 0 <= mu.
Hypothesis Hg : forall m, (m < M)%nat -> 0 <= Wgrd m.
Hypothesis H2 : forall ax, In ax axes -> (2 <= s ax)%nat.
Lemma pdg_solves Y0 U0 Y1 U1 i k : (k < Cb * M)%nat ->
  sys (Cb * M) C (fun c k => Df s dsh axes DD c k i) (fun k => mu / rho * (WW k * GHGf s axes i) + 1) (fun k => pdg_xstepf s dsh axes M C Cb S st mu Wgrd rho Y0 U0 Y1 U1 (k / M) (k mod M) i) k
  = rhs C (fun c k => Df s dsh axes DD c k i) 1 (fun c => rfftn s axes (fun p => Y0 c p - U0 c p + S c p) i) (fun k => rfftn s axes (unflat M (fun b m p => Y1 b m p - U1 b m p) k) i) k.
Proof.
  intros Hk. set (b := (k / M)%nat). set (m := (k mod M)%nat).
  assert (Hb : (b < Cb)%nat) by (unfold b; apply Nat.div_lt_upper_bound; lia). assert (Hm : (m < M)%nat) by (unfold m; apply Nat.mod_upper_bound; lia).
  set (dg := mu / rho * (Wgrd m * GHGf s axes i) + 1).
  set (sc := fun c => rfftn s axes (fun p => Y0 c p - U0 c p + S c p) i).
  pose proof (pd_sys M C Cb B (f_Gamma st) (f_Q st) (fun m => pd_Df s dsh axes D m i) sc
    (fun b m => rfftn s axes (fun p => Y1 b m p - U1 b m p) i) (fun b m => pdg_Xh s dsh axes M C Cb S st mu Wgrd rho Y0 U0 Y1 U1 b m i) dg 1 He b m) as H.
  unfold sys, rhs, app.
  replace (csumn C (fun c => cmul (conj (Df s dsh axes DD c k i)) (sc c)))
     with (csumn C (fun c => cmul (cmul (ofR (B c b)) (conj (pd_Df s dsh axes D m i))) (sc c))).
  2: { apply csumn_ext. intros c _. rewrite (pdict_Df s dsh axes M D B Hne), conj_mul, conj_ofR. reflexivity. }
  replace (unflat M (fun b m p => Y1 b m p - U1 b m p) k) with (fun p => Y1 b m p - U1 b m p) by reflexivity.
  refine (eq_trans _ (H _ Hb)); clear H.
  - f_equal.
    apply csumn_ext. intros c _. rewrite (pdict_Df s dsh axes M D B Hne), conj_mul, conj_ofR. fold b. fold m. f_equal. rewrite RtvProofs.csumn_flat by exact HM. apply csumn_ext. intros b' _.
      rewrite <- csumn_scal. apply csumn_ext. intros m' Hm'. rewrite (pdict_Df s dsh axes M D B Hne), div_at, mod_at by exact Hm'. unfold pdg_xstepf. ring.
  - intros q Hq. set (ah := fun k => gDf s dsh axes st q k i).
    assert (Hd : forall m, (m < M)%nat -> 0 < pdg_diag s axes mu Wgrd rho i m).
    { intros j Hj. unfold pdg_diag. assert (0 <= mu / rho * (Wgrd j * GHGf s axes i)); [|lra]. apply Rmult_le_pos; [apply Rmult_le_pos; [exact Hmu|left; apply Rinv_0_lt_compat; exact Hr]|].
      apply Rmult_le_pos; [apply Hg; exact Hj|]. destruct (TvdFourier.axes_snoc axes Hne) as (r & l & E). rewrite E. rewrite GHG_cabs2. apply sumn_nonneg. intros. apply cabs2_nonneg. }
    pose proof (dbd_sys M (pdg_diag s axes mu Wgrd rho i) Hd ah (fun k => pdg_b s dsh axes C Cb S st Y0 U0 Y1 U1 q k i) m Hm) as E.
    change (dbd_sm M ah (pdg_diag s axes mu Wgrd rho i) (fun k => pdg_b s dsh axes C Cb S st Y0 U0 Y1 U1 q k i)) with (fun m => pdg_Xh s dsh axes M C Cb S st mu Wgrd rho Y0 U0 Y1 U1 q m i) in E.
    unfold pdg_b in E. fold sc in E.
    transitivity (cadd (csumn C (fun c => cmul (ofR (sumn Cb (fun b' => B c b' * f_Q st b' q))) (cmul (conj (pd_Df s dsh axes D m i)) (sc c)))) (csumn Cb (fun b' => cmul (ofR (f_Q st b' q)) (rfftn s axes (fun p => Y1 b' m p - U1 b' m p) i)))).
    2: { change (ofR 1) with c1. ring. }
    etransitivity; [|exact E]. unfold sys. rewrite csumn_S, csumn_O.
    assert (G0 : 0 <= f_Gamma st q) by (eapply gamma_nonneg; [exact He|exact Hq]).
    unfold app, ah, gDf. rewrite conj_mul, conj_ofR. change (pdg_diag s axes mu Wgrd rho i m) with dg.
    transitivity (cadd (cmul (cmul (ofR (sqrt (f_Gamma st q))) (ofR (sqrt (f_Gamma st q)))) (cmul (conj (pd_Df s dsh axes D m i)) (csumn M (fun m' => cmul (pd_Df s dsh axes D m' i) (pdg_Xh s dsh axes M C Cb S st mu Wgrd rho Y0 U0 Y1 U1 q m' i))))) (cmul (ofR dg) (pdg_Xh s dsh axes M C Cb S st mu Wgrd rho Y0 U0 Y1 U1 q m i))).
    + rewrite <- ofR_mul, sqrt_sqrt by exact G0. reflexivity.
    + replace (csumn M (fun m0 => cmul (cmul (ofR (sqrt (f_Gamma st q))) (pd_Df s dsh axes D m0 i)) (pdg_Xh s dsh axes M C Cb S st mu Wgrd rho Y0 U0 Y1 U1 q m0 i)))
        with (cmul (ofR (sqrt (f_Gamma st q))) (csumn M (fun m' => cmul (pd_Df s dsh axes D m' i) (pdg_Xh s dsh axes M C Cb S st mu Wgrd rho Y0 U0 Y1 U1 q m' i)))) by (rewrite <- csumn_scal; apply csumn_ext; intros; ring).
      ring.
Qed.
Lemma pdg_same Y0 U0 Y1 U1 k i : (k < Cb * M)%nat ->
  pdg_xstepf s dsh axes M C Cb S st mu Wgrd rho Y0 U0 Y1 U1 (k / M) (k mod M) i = grd_xstepf s dsh axes (Cb * M) C DD S mu WW rho Y0 U0 (unflat M Y1) (unflat M U1) k i.
Proof.
  intros Hk.
  assert (He' : forall k, (k < Cb * M)%nat -> 0 <= mu / rho * (WW k * GHGf s axes i)).
  { intros j Hj. apply Rmult_le_pos; [apply Rmult_le_pos; [exact Hmu|left; apply Rinv_0_lt_compat; exact Hr]|]. apply Rmult_le_pos; [apply Hg; apply Nat.mod_upper_bound; lia|].
    destruct (TvdFourier.axes_snoc axes Hne) as (r & l & E). rewrite E. rewrite GHG_cabs2. apply sumn_nonneg. intros. apply cabs2_nonneg. }
  apply (sys_unique (Cb * M) C (fun c k => Df s dsh axes DD c k i) (fun k => mu / rho * (WW k * GHGf s axes i)) 1 (fun c => rfftn s axes (fun p => Y0 c p - U0 c p + S c p) i)
    (fun k => rfftn s axes (unflat M (fun b m p => Y1 b m p - U1 b m p) k) i) (fun k => pdg_xstepf s dsh axes M C Cb S st mu Wgrd rho Y0 U0 Y1 U1 (k / M) (k mod M) i)
    (fun k => grd_xstepf s dsh axes (Cb * M) C DD S mu WW rho Y0 U0 (unflat M Y1) (unflat M U1) k i)); [exact He'|lra|intros; apply pdg_solves; assumption| |exact Hk].
  clear k Hk. intros k Hk. assert (Hd : forall k, (k < Cb * M)%nat -> 0 < grd_diag s axes mu WW rho i k) by (intros j Hj; unfold grd_diag; specialize (He' j Hj); lra).
  set (b := fun k0 => cadd (csumn C (fun c => cmul (conj (Df s dsh axes DD c k0 i)) (rfftn s axes (fun p => Y0 c p - U0 c p + S c p) i))) (rfftn s axes (fun p => unflat M Y1 k0 p - unflat M U1 k0 p) i)).
  transitivity (b k).
  - unfold grd_xstepf. cbv zeta. fold b. destruct (Nat.eqb_spec C 1) as [E1|N].
    + rewrite (sys_ext (Cb * M) C _ (fun _ k => Df s dsh axes DD 0 k i)) by (intros c Hc; replace c with O by lia; reflexivity). rewrite E1 at 1. apply (dbd_sys (Cb * M) _ Hd). exact Hk.
    + apply (ism_sys (Cb * M) _ Hd); [exact HC|exact Hk].
  - unfold b, rhs. f_equal. assert (O : forall a, a = cmul (ofR 1) a) by (intros; change (ofR 1) with c1; ring). exact (O _).
Qed.
Lemma pdg_xs_same y u i : (i < n)%nat -> pdg_xs s dsh axes M C Cb S st base mu Wgrd rho y u i = grd_xstep s dsh axes (Cb * M) C DD S base mu WW rho y u i.
Proof.
  intros Hi. pose proof (P_pos' s axes Hs) as HP. unfold pdg_xs, grd_xstep, cs_flat. set (k := (i / size s axes)%nat). assert (Hk : (k < Cb * M)%nat) by (apply Nat.div_lt_upper_bound; nia).
  unfold pdg_x, grd_x. apply (f_equal (fun h => irfftn s axes h (place s axes base (i mod size s axes)))). extensionality j. rewrite pdg_same by exact Hk.
  f_equal; extensionality q; apply unflat_chan; exact HM.
Qed.
End pdg.

(** ** The dual residual of a split problem with a quadratic first function *)
Lemma lin_zero a b : (forall t, 0 <= a * t + b * (t * t)) -> a = 0.
Proof.
  intros H. assert (Hb : 0 <= b) by (pose proof (H 1); pose proof (H (-1)); lra).
  destruct (Req_dec a 0) as [|N]; [assumption|exfalso]. pose proof (H (- a / (2 * b + 1))) as H1.
  assert (Hp : 0 < 2 * b + 1) by lra. assert (Hi : 0 < / (2 * b + 1)) by (apply Rinv_0_lt_compat; exact Hp).
  replace (a * (- a / (2 * b + 1)) + b * (- a / (2 * b + 1) * (- a / (2 * b + 1)))) with (- (a * a) * / (2 * b + 1) * ((b + 1) * / (2 * b + 1))) in H1 by (field; lra).
  assert (0 < a * a) by nra. assert (0 < (a * a) * / (2 * b + 1) * ((b + 1) * / (2 * b + 1))).
  { apply Rmult_lt_0_compat; [apply Rmult_lt_0_compat; assumption|]. apply Rmult_lt_0_compat; lra. }
  lra.
Qed.
Section dual.
Variables (n mh m : nat) (H : vec -> vec) (K : vec -> vec) (c : vec) (g : vec -> R) (rlx rho : R) (xs ys : vec -> vec -> vec).
Hypothesis HH : linear_map H.
Hypothesis Hloc : local_map n H.
Hypothesis HK : linear_map K.
Hypothesis Kloc : forall x y, (forall i, (i < n)%nat -> x i = y i) -> forall p, (p < m)%nat -> K x p = K y p.
Hypothesis Hrho : 0 < rho.
Notation f := (lsq mh H (fun _ => 0)).
Hypothesis HX : forall y u, argmin (fun _ => True) (fun x => auglag m K eq_B c rho f g x y u) (xs y u).
Notation it st k := (iterate K eq_B c rlx xs ys k st).
Lemma lsq_line x v t : f (fun i => x i + t * v i) = f x + t * dot mh (H x) (H v) + t * t * f v.
Proof.
  unfold lsq, nrm2, dot. assert (E : forall i, H (fun i => x i + t * v i) i = H x i + t * H v i).
  { intros i. transitivity (H (fun i => 1 * x i + t * v i) i); [apply (f_equal (fun h => H h i)); extensionality j; ring|]. rewrite HH. ring. }
  rewrite (sumn_ext mh (fun i => (H (fun i0 => x i0 + t * v i0) i - 0) * (H (fun i0 => x i0 + t * v i0) i - 0)) (fun i => (H x i - 0) * (H x i - 0) + (2 * t * (H x i * H v i) + t * t * ((H v i - 0) * (H v i - 0))))) by (intros i _; rewrite E; ring).
  rewrite !sumn_plus, !sumn_scal. field.
Qed.
Lemma bilin x v : dot mh (H x) (H v) = f (fun i => x i + v i) - f x - f v.
Proof. pose proof (lsq_line x v 1) as E. assert (Q : (fun i => x i + 1 * v i) = (fun i => x i + v i)) by (extensionality i; ring). rewrite Q in E. lra. Qed.
(** The optimality condition of the x step. *)
Lemma x_opt y u v : rho * dot m (fun i => K (xs y u) i + eq_B y i - c i + u i) (K v) = - dot mh (H (xs y u)) (H v).
Proof.
  set (x := xs y u). enough (dot mh (H x) (H v) + rho * dot m (fun i => K x i + eq_B y i - c i + u i) (K v) = 0) by lra.
  apply (lin_zero _ (f v + rho / 2 * nrm2 m (K v))). intros t. destruct (HX y u) as [_ A]. fold x in A. specialize (A (fun i => x i + t * v i) Logic.I). unfold auglag in A. rewrite lsq_line in A.
  assert (E : nrm2 m (fun i => K (fun i => x i + t * v i) i + eq_B y i - c i + u i) = nrm2 m (fun i => K x i + eq_B y i - c i + u i) + t * (2 * dot m (fun i => K x i + eq_B y i - c i + u i) (K v)) + t * t * nrm2 m (K v)).
  { unfold nrm2, dot. rewrite <- !sumn_scal, <- !sumn_plus. apply sumn_ext. intros i _.
    assert (Q : K (fun i => x i + t * v i) i = K x i + t * K v i). { transitivity (K (fun i => 1 * x i + t * v i) i); [apply (f_equal (fun h => K h i)); extensionality j; ring|]. rewrite HK. ring. }
    rewrite Q. ring. }
  rewrite E in A. lra.
Qed.
(** What the multiplier after an iteration is, relative to the optimality condition. *)
Lemma u_next st i : sU (it st 1) i = (K (sX (it st 1)) i + eq_B (sY st) i - c i + sU st i) + (rlx - 1) * (K (sX (it st 1)) i - sY st i - c i) + (sY st i - sY (it st 1) i).
Proof.
  cbn [iterate]. unfold iteration, ustep, rsdl_r, relax_AX, eq_B. cbn [sU sX sY]. destruct (Req_EM_T rlx 1) as [->|]; ring.
Qed.
Lemma dual_step st v : rho * dot m (sU (it st 1)) (K v) = - dot mh (H (sX (it st 1))) (H v)
  + rho * (rlx - 1) * dot m (fun i => K (sX (it st 1)) i - sY st i - c i) (K v) + rho * dot m (fun i => sY st i - sY (it st 1) i) (K v).
Proof.
  replace (- dot mh (H (sX (it st 1))) (H v)) with (rho * dot m (fun i => K (sX (it st 1)) i + eq_B (sY st) i - c i + sU st i) (K v)) by (cbn [iterate]; apply x_opt).
  unfold dot. rewrite (sumn_ext m (fun i => sU (it st 1) i * K v i) (fun i => (K (sX (it st 1)) i + eq_B (sY st) i - c i + sU st i) * K v i + ((rlx - 1) * ((K (sX (it st 1)) i - sY st i - c i) * K v i) + (sY st i - sY (it st 1) i) * K v i))) by (intros i _; rewrite u_next; ring).
  rewrite !sumn_plus, sumn_scal. ring.
Qed.
Lemma it_S st k : it st (S k) = it (it st k) 1. Proof. reflexivity. Qed.
(** If the iterates converge, rho A^T U converges to minus the gradient of f at the limit. *)
Lemma dual_limit st p v : (forall i, (i < n)%nat -> Un_cv (fun k => sX (it st k) i) (p i)) -> (forall i, (i < m)%nat -> Un_cv (fun k => sY (it st k) i) (K p i - c i)) ->
  Un_cv (fun k => rho * dot m (sU (it st (S k))) (K v)) (- dot mh (H p) (H v)).
Proof.
  intros Cx Cy. destruct (adjoint_exists n mh H HH Hloc) as [HT HA].
  assert (Cx1 : forall i, (i < n)%nat -> Un_cv (fun k => sX (it st (S k)) i) (p i)) by (intros i Hi; exact (cv_S (fun k => sX (it st k) i) _ (Cx i Hi))).
  assert (Cy1 : forall i, (i < m)%nat -> Un_cv (fun k => sY (it st (S k)) i) (K p i - c i)) by (intros i Hi; exact (cv_S (fun k => sY (it st k) i) _ (Cy i Hi))).
  assert (CK : forall i, (i < m)%nat -> Un_cv (fun k => K (sX (it st (S k))) i) (K p i)).
  { intros i Hi. set (Ki := fun (x : vec) (_ : nat) => K x i). destruct (adjoint_exists n 1 Ki) as [KT KA].
    - intros a x b y q. apply HK.
    - intros x y E q. apply Kloc; [exact E|exact Hi].
    - assert (Q : forall x, K x i = dot n x (KT (fun _ => 1))).
      { intros x. rewrite <- KA. unfold dot, Ki. cbn [sumn]. ring. }
      rewrite Q. apply (cv_ext (fun k => dot n (sX (it st (S k))) (KT (fun _ => 1)))); [intros k; symmetry; apply Q|]. apply (cv_dot n (fun k => sX (it st (S k))) (fun _ => KT (fun _ => 1))); [exact Cx1|intros; apply cv_const]. }
  assert (L1 : Un_cv (fun k => dot mh (H (sX (it st (S k)))) (H v)) (dot mh (H p) (H v))).
  { rewrite HA. apply (cv_ext (fun k => dot n (sX (it st (S k))) (HT (H v)))); [intros k; symmetry; apply HA|]. apply (cv_dot n (fun k => sX (it st (S k))) (fun _ => HT (H v))); [exact Cx1|intros; apply cv_const]. }
  assert (L2 : Un_cv (fun k => dot m (fun i => K (sX (it st (S k))) i - sY (it st k) i - c i) (K v)) 0).
  { replace 0 with (dot m (fun i => K p i - (K p i - c i) - c i) (K v)) by (unfold dot; apply sumn_0; intros; ring).
    apply (cv_dot m (fun k i => K (sX (it st (S k))) i - sY (it st k) i - c i) (fun _ => K v)); [|intros; apply cv_const]. intros i Hi.
    apply (CV_minus (fun k => K (sX (it st (S k))) i - sY (it st k) i) (fun _ => c i)); [|apply cv_const]. apply (CV_minus (fun k => K (sX (it st (S k))) i)); [apply CK|apply Cy]; exact Hi. }
  assert (L3 : Un_cv (fun k => dot m (fun i => sY (it st k) i - sY (it st (S k)) i) (K v)) 0).
  { replace 0 with (dot m (fun i => (K p i - c i) - (K p i - c i)) (K v)) by (unfold dot; apply sumn_0; intros; ring).
    apply (cv_dot m (fun k i => sY (it st k) i - sY (it st (S k)) i) (fun _ => K v)); [|intros; apply cv_const]. intros i Hi. apply (CV_minus (fun k => sY (it st k) i)); [apply Cy|apply Cy1]; exact Hi. }
  apply (cv_ext (fun k => - dot mh (H (sX (it st (S k)))) (H v) + rho * (rlx - 1) * dot m (fun i => K (sX (it st (S k))) i - sY (it st k) i - c i) (K v) + rho * dot m (fun i => sY (it st k) i - sY (it st (S k)) i) (K v))).
  - intros k. symmetry. rewrite it_S. apply (dual_step (it st k) v).
  - replace (- dot mh (H p) (H v)) with (- dot mh (H p) (H v) + rho * (rlx - 1) * 0 + rho * 0) by ring.
    apply (CV_plus (fun k => - dot mh (H (sX (it st (S k)))) (H v) + rho * (rlx - 1) * dot m (fun i => K (sX (it st (S k))) i - sY (it st k) i - c i) (K v))).
    + apply (CV_plus (fun k => - dot mh (H (sX (it st (S k)))) (H v))); [apply (CV_opp (fun k => dot mh (H (sX (it st (S k)))) (H v))); exact L1|].
      apply (CV_mult (fun _ => rho * (rlx - 1))); [apply cv_const|exact L2].
    + apply (CV_mult (fun _ => rho)); [apply cv_const|exact L3].
Qed.
End dual.
