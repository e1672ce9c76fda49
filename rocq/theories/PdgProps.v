(** C85: product dictionary sparse coding with l1 data term and gradient regularisation, and its dual residual. *)
Require Import List Arith Reals Bool Lia Lra FunctionalExtensionality.
Require Import Verif.RVec Verif.Cplx Verif.ProxModel Verif.FftModel Verif.FftProofs Verif.FftInv Verif.CscModel Verif.CscSpec Verif.CscProofs Verif.CscProps Verif.CscIterModel Verif.CscIterProofs Verif.CscIterProps.
Require Import Verif.AdmmModel Verif.AdmmSpec Verif.AdmmProofs Verif.AdmmConv Verif.AdmmProps Verif.Compact Verif.AdmmLimit Verif.StepsModel Verif.StepsSpec Verif.StepsProofs Verif.LimitProofs Verif.LimitTwo.
Require Import Verif.CscTwoModel Verif.CscTwoProofs Verif.CscTwoProps Verif.LimitProps Verif.SplitConv Verif.GrdModel Verif.GrdProps Verif.PdcModel Verif.PdcSpec Verif.PdcProofs Verif.PdcProps Verif.PdgModel Verif.PdgSpec Verif.PdgProofs.
Import ListNotations.
Local Open Scope R_scope.
Local Notation vec := (nat -> R).

(** The documented objective functions, with coefficients given as a vector. *)
Section objectives.
Variables (s dsh : nat -> nat) (axes : list nat) (M C Cb : nat) (D : nat -> index -> R) (B : nat -> nat -> R) (S W : nat -> index -> R) (base : index) (mu : R) (Wgrd : nat -> R) (lmbda : R).
Definition pdg_gr (x : vec) : R := pdg_grad s axes M Cb base mu Wgrd (chan M (coefs s axes x)).
Definition pdg_quad (x : vec) : R := pdg_fit s dsh axes M C Cb D B S W base (chan M (coefs s axes x)) + pdg_gr x.
Definition pdg_objective (wl1 x : vec) : R := pdg_quad x + lmbda * wl1norm (Cb * M * size s axes) wl1 x.
Definition pdgj_objective (wl21 x : vec) : R := pdg_quad x + lmbda * wl21norm Cb (M * size s axes) wl21 x.
End objectives.

Lemma nrm_block m0 n (x : vec) : nrm n (fun i => x (m0 + i)%nat) <= nrm (m0 + n) x.
Proof.
  unfold nrm. apply sqrt_le_1_alt. unfold nrm2, dot. rewrite sumn_split. assert (0 <= sumn m0 (fun i => x i * x i)) by (apply sumn_nonneg; intros; apply Rle_0_sqr). lra.
Qed.
Lemma l1_lip n N w (a b : vec) : (n <= N)%nat -> (forall i, (i < n)%nat -> 0 <= w i) -> Rabs (sumn n (fun i => Rabs (w i * a i)) - sumn n (fun i => Rabs (w i * b i))) <= sumn n w * nrm N (fun i => a i - b i).
Proof.
  intros Hn Hw. rewrite <- sumn_minus. eapply Rle_trans; [apply sumn_abs|]. rewrite <- sumn_scal_r. apply sumn_le. intros i Hi.
  eapply Rle_trans; [apply Rabs_triang_inv2|]. replace (w i * a i - w i * b i) with (w i * (a i - b i)) by ring. rewrite Rabs_mult, (Rabs_pos_eq (w i)) by (apply Hw; exact Hi).
  apply Rmult_le_compat_l; [apply Hw; exact Hi|]. apply (abs_le_nrm N (fun i => a i - b i) i). lia.
Qed.

Lemma nrm_le_l1 n (d : vec) : nrm n d <= sumn n (fun i => Rabs (d i)).
Proof.
  assert (P0 : forall k, 0 <= sumn k (fun i => Rabs (d i))) by (intros; apply sumn_nonneg; intros; apply Rabs_pos).
  unfold nrm. rewrite <- (sqrt_Rsqr (sumn n (fun i => Rabs (d i)))) by apply P0. apply sqrt_le_1_alt. unfold Rsqr, nrm2, dot. induction n as [|n IH]; cbn [sumn]; [lra|].
  specialize (P0 n). pose proof (Rabs_pos (d n)) as A. assert (Q : d n * d n = Rabs (d n) * Rabs (d n)) by (rewrite <- Rabs_mult; symmetry; apply Rabs_pos_eq; apply Rle_0_sqr). rewrite Q. nra.
Qed.
Lemma glob_lip n g (L : R) : 0 <= L -> (forall a b, Rabs (g a - g b) <= L * nrm n (fun i => a i - b i)) -> loc_lip n g.
Proof.
  intros HL H r _. exists L. split; [exact HL|]. intros x y _ _. eapply Rle_trans; [apply H|]. apply Rmult_le_compat_l; [exact HL|]. apply nrm_le_l1.
Qed.
(** The l2,1 norm. *)
Section groups.
Variables (Cb N : nat) (lam rho : R) (w : vec).
Hypothesis HN : (0 < N)%nat.
Hypothesis Hl : 0 <= lam.
Hypothesis Hr : 0 < rho.
Hypothesis Hw : forall j, (j < N)%nat -> 0 <= w j.
Notation g := (fun x => lam * wl21norm Cb N w x).
Notation ys := (fun v i => prox_l2 Cb (fun b => prox_l1 v (fun _ => 0) (b * N + i mod N)%nat) (lam / rho * w (i mod N)%nat) (i / N)%nat).
Lemma groups_sum (h : vec) : sumn (Cb * N) h = sumn N (fun j => sumn Cb (fun b => h (b * N + j)%nat)).
Proof. rewrite sumn_flat by exact HN. apply sumn_swap. Qed.
Lemma groups_conv : convex_on (fun _ => True) g.
Proof.
  intros x y t _ _ Ht. split; [exact Logic.I|]. cbv beta.
  assert (E : lam * ((1 - t) * wl21norm Cb N w x + t * wl21norm Cb N w y) = lam * wl21norm Cb N w x + t * (lam * wl21norm Cb N w y - lam * wl21norm Cb N w x)) by ring. rewrite <- E. apply Rmult_le_compat_l; [exact Hl|].
  unfold wl21norm. rewrite <- !sumn_scal, <- sumn_plus. apply sumn_le. intros j Hj.
  replace ((1 - t) * (w j * nrm Cb (fun b => x (b * N + j)%nat)) + t * (w j * nrm Cb (fun b => y (b * N + j)%nat))) with (w j * ((1 - t) * nrm Cb (fun b => x (b * N + j)%nat) + t * nrm Cb (fun b => y (b * N + j)%nat))) by ring.
  apply Rmult_le_compat_l; [apply Hw; exact Hj|].
  rewrite (nrm_ext Cb _ (vadd (fun b => (1 - t) * x (b * N + j)%nat) (fun b => t * y (b * N + j)%nat))) by (intros; unfold vadd, seg; ring).
  eapply Rle_trans; [apply nrm_triang|]. change (fun b => (1 - t) * x (b * N + j)%nat) with (vscal (1 - t) (fun b => x (b * N + j)%nat)). change (fun b => t * y (b * N + j)%nat) with (vscal t (fun b => y (b * N + j)%nat)).
  rewrite !nrm_scal, !Rabs_pos_eq by lra. lra.
Qed.
Lemma groups_pos x : 0 <= g x.
Proof. apply Rmult_le_pos; [exact Hl|]. apply sumn_nonneg. intros j Hj. apply Rmult_le_pos; [apply Hw; exact Hj|apply sqrt_pos]. Qed.
Lemma group_le (x : vec) j : (j < N)%nat -> nrm Cb (fun b => x (b * N + j)%nat) <= nrm (Cb * N) x.
Proof.
  intros Hj. unfold nrm. apply sqrt_le_1_alt. unfold nrm2, dot. rewrite (groups_sum (fun i => x i * x i)).
  apply (sumn_ge_term N (fun j => sumn Cb (fun b => x (b * N + j)%nat * x (b * N + j)%nat)) j); [|exact Hj]. intros; apply sumn_nonneg; intros; apply Rle_0_sqr.
Qed.
Lemma nrm_diff k (a b : vec) : Rabs (nrm k a - nrm k b) <= nrm k (fun i => a i - b i).
Proof.
  assert (T : forall a b : vec, nrm k a - nrm k b <= nrm k (fun i => a i - b i)).
  { intros a' b'. pose proof (nrm_triang k b' (fun i => a' i - b' i)) as T. rewrite (nrm_ext k (vadd b' _) a') in T by (intros; unfold vadd; ring). lra. }
  pose proof (T a b) as A. pose proof (T b a) as B. rewrite (nrm_ext k (fun i => b i - a i) (vscal (-1) (fun i => a i - b i))) in B by (intros; unfold vscal; ring).
  rewrite nrm_scal in B. replace (Rabs (-1)) with 1 in B by (rewrite Rabs_left; lra). apply Rabs_le. lra.
Qed.
Lemma groups_lip a b : Rabs (g a - g b) <= (lam * sumn N w) * nrm (Cb * N) (fun i => a i - b i).
Proof.
  cbv beta. replace (lam * wl21norm Cb N w a - lam * wl21norm Cb N w b) with (lam * (wl21norm Cb N w a - wl21norm Cb N w b)) by ring. rewrite Rabs_mult, (Rabs_pos_eq lam) by exact Hl. rewrite Rmult_assoc. apply Rmult_le_compat_l; [exact Hl|].
  unfold wl21norm. rewrite <- sumn_minus. eapply Rle_trans; [apply sumn_abs|]. rewrite <- sumn_scal_r. apply sumn_le. intros j Hj.
  replace (w j * nrm Cb (fun b0 => a (b0 * N + j)%nat) - w j * nrm Cb (fun b0 => b (b0 * N + j)%nat)) with (w j * (nrm Cb (fun b0 => a (b0 * N + j)%nat) - nrm Cb (fun b0 => b (b0 * N + j)%nat))) by ring.
  rewrite Rabs_mult, (Rabs_pos_eq (w j)) by (apply Hw; exact Hj). apply Rmult_le_compat_l; [apply Hw; exact Hj|]. eapply Rle_trans; [apply nrm_diff|]. apply (group_le (fun i => a i - b i) j Hj).
Qed.
Lemma groups_L : 0 <= lam * sumn N w. Proof. apply Rmult_le_pos; [exact Hl|]. apply sumn_nonneg. exact Hw. Qed.
Lemma groups_prox v : subgradient (Cb * N) (fun _ => True) g (ys v) (fun i => rho * (v i - ys v i)).
Proof.
  intros y _. cbv beta. unfold dot. rewrite groups_sum. unfold wl21norm. rewrite <- !sumn_scal, <- sumn_plus. apply sumn_le. intros j Hj.
  assert (Ir : 0 < / rho) by (apply Rinv_0_lt_compat; exact Hr).
  assert (Hb : 0 <= lam / rho * w j) by (apply Rmult_le_pos; [unfold Rdiv; apply Rmult_le_pos; lra|apply Hw; exact Hj]).
  pose proof (sl1l2_group Cb (fun b => v (b * N + j)%nat) (fun _ => 0) (lam / rho * w j) ltac:(intros; lra) Hb (fun b => y (b * N + j)%nat)) as A. cbv zeta in A.
  set (p := prox_l2 Cb (prox_l1 (fun b => v (b * N + j)%nat) (fun _ => 0)) (lam / rho * w j)) in *.
  assert (E : forall b, ys v (b * N + j)%nat = p b).
  { intros b. cbv beta. rewrite mod_at, div_at by exact Hj. reflexivity. }
  cbv beta in E.
  rewrite (nrm_ext Cb _ p) by (intros b _; apply E).
  rewrite (sumn_ext Cb _ (fun b => rho * ((v (b * N + j)%nat - p b) * (y (b * N + j)%nat - p b)))) by (intros b _; rewrite !E; ring).
  rewrite sumn_scal. rewrite !(sumn_0 Cb (fun i => 0 * _)) in A by (intros; ring).
  apply (Rmult_le_compat_l rho) in A; [|lra]. unfold dot in A.
  replace (rho * (0 + lam / rho * w j * nrm Cb p + sumn Cb (fun i => (v (i * N + j)%nat - p i) * (y (i * N + j)%nat - p i)))) with (lam * (w j * nrm Cb p) + rho * sumn Cb (fun i => (v (i * N + j)%nat - p i) * (y (i * N + j)%nat - p i))) in A by (field; lra).
  replace (rho * (0 + lam / rho * w j * nrm Cb (fun b => y (b * N + j)%nat))) with (lam * (w j * nrm Cb (fun b => y (b * N + j)%nat))) in A by (field; lra). exact A.
Qed.
Lemma groups_coercive : 0 < lam -> (forall j, (j < N)%nat -> 0 < w j) -> exists a, 0 < a /\ forall x, a * sumn (Cb * N) (fun i => Rabs (x i)) <= g x.
Proof.
  intros Hl0 Hw0. destruct (l1_coercive N lam w Hl0 Hw0) as (a & Ha & B). set (k := INR Cb + 1). assert (Hk : 0 < k) by (unfold k; pose proof (pos_INR Cb); lra).
  exists (a / k). split; [apply Rdiv_lt_0_compat; assumption|]. intros x. cbv beta.
  specialize (B (fun j => nrm Cb (fun b => x (b * N + j)%nat))). unfold l1reg in B.
  rewrite (sumn_ext N (fun i => Rabs (w i * _)) (fun j => w j * nrm Cb (fun b => x (b * N + j)%nat))) in B by (intros j Hj; apply Rabs_pos_eq; apply Rmult_le_pos; [apply Hw; exact Hj|apply sqrt_pos]).
  unfold wl21norm. eapply Rle_trans; [|exact B]. rewrite (groups_sum (fun i => Rabs (x i))).
  replace (a / k * sumn N (fun j => sumn Cb (fun b => Rabs (x (b * N + j)%nat)))) with (a * (/ k * sumn N (fun j => sumn Cb (fun b => Rabs (x (b * N + j)%nat))))) by (unfold Rdiv; ring).
  apply Rmult_le_compat_l; [lra|]. rewrite <- sumn_scal. apply sumn_le. intros j Hj. rewrite (Rabs_pos_eq (nrm _ _)) by apply sqrt_pos.
  apply (Rmult_le_reg_l k); [exact Hk|]. rewrite <- Rmult_assoc, Rinv_r, Rmult_1_l by lra.
  apply Rle_trans with (sumn Cb (fun _ => nrm Cb (fun b => x (b * N + j)%nat))); [apply sumn_le; intros b Hb; apply (abs_le_nrm Cb (fun b => x (b * N + j)%nat) b Hb)|].
  rewrite sumn_const. apply Rmult_le_compat_r; [apply sqrt_pos|]. unfold k. lra.
Qed.
End groups.

Section main.
Variables (s dsh : nat -> nat) (axes : list nat) (M C Cb : nat) (S W : nat -> index -> R) (st : pd_fac) (base : index).
Variables (mu : R) (Wgrd : nat -> R) (rho rlx lmbda : R).
Hypothesis ND : NoDup axes.
Hypothesis Hne : axes <> [].
Hypothesis H2 : forall ax, In ax axes -> (2 <= s ax)%nat.
Hypothesis HM : (0 < M)%nat.
Hypothesis HC : (0 < C)%nat.
Hypothesis He : eigen Cb (gram C (f_B st)) (f_Gamma st) (f_Q st).
Hypothesis Hrho : 0 < rho.
Hypothesis Hmu : 0 <= mu.
Hypothesis Hg : forall m, (m < M)%nat -> 0 <= Wgrd m.
Hypothesis Hl : 0 <= lmbda.
Notation P := (size s axes).
Hypothesis HW : forall c k, (c < C)%nat -> (k < P)%nat -> 0 <= W c (place s axes base k).
Notation n := (Cb * M * P)%nat.
Notation m0 := (blk s axes C).
Notation m := (m0 + n)%nat.
Notation Wv := (cs_flat s axes base W).
Notation DD := (pdict M (f_D st) (f_B st)).
Notation WW := (fun k => Wgrd (k mod M)).
Notation L := (Lw s dsh axes (Cb * M) C DD base).
Notation S0 := (s0 s axes S base).
Notation K := (tA m0 L).
Notation c0 := (tc m0 S0).
Notation mh := ((1 + nG axes (Cb * M) (QGrad mu WW)) * P)%nat.
Notation Hv := (GrdProps.Hv s dsh axes (Cb * M) base mu WW).
Notation f := (lsq mh Hv (fun _ => 0)).
Notation xst := (pdg_xs s dsh axes M C Cb S st base mu Wgrd rho).
Lemma Hs85 : forall ax, In ax axes -> (0 < s ax)%nat. Proof. intros ax Ha. specialize (H2 ax Ha). lia. Qed.
Lemma WW_nonneg k : (k < Cb * M)%nat -> 0 <= WW k. Proof. intros _. apply Hg. apply Nat.mod_upper_bound. lia. Qed.
Lemma f85 x : f x = pdg_gr s axes M Cb base mu Wgrd x.
Proof.
  rewrite (f_grad s dsh axes (Cb * M) C base mu WW ND Hne H2 HC Hmu WW_nonneg). unfold pdg_gr, pdg_grad, grad_term. rewrite sumn_flat, <- sumn_scal by exact HM. apply sumn_ext. intros b Hb.
  f_equal. apply sumn_ext. intros k Hk. rewrite mod_at by exact Hk. reflexivity.
Qed.
Lemma Wv_nonneg i : (i < m0)%nat -> 0 <= Wv i.
Proof.
  intros Hi. pose proof (P_pos' s axes Hs85) as HP. unfold cs_flat. apply HW; [apply Nat.div_lt_upper_bound; unfold blk in Hi; lia|apply Nat.mod_upper_bound; lia].
Qed.
Lemma fit85 x : sumn m0 (fun i => Rabs (Wv i * (K x i - c0 i))) = pdg_fit s dsh axes M C Cb (f_D st) (f_B st) S W base (chan M (coefs s axes x)).
Proof.
  pose proof (P_pos' s axes Hs85) as HP. unfold blk at 1. rewrite sumn_flat by exact HP. apply sumn_ext. intros c Hc. rewrite <- (sum_slice s axes base Hs85). apply sumn_ext. intros k Hk.
  assert (Hi : (c * P + k < m0)%nat) by (unfold blk; nia). unfold tA, tc. rewrite !cat_lt by exact Hi. rewrite Lw_at, s0_at by assumption.
  unfold cs_flat. rewrite div_at, mod_at by exact Hk. rewrite (pd_synth_unflat s dsh axes M Cb (f_D st) (f_B st) HM).
  assert (E : unflat M (chan M (coefs s axes x)) = arr s axes x) by (extensionality j; exact (unflat_chan M HM (arr s axes x) j)). 
  apply (f_equal (fun v => Rabs (W c (place s axes base k) * (synth s dsh axes (Cb * M) DD v c (place s axes base k) - S c (place s axes base k))))) in E. symmetry. exact E.
Qed.

(** *** Any convex, Lipschitz, non-negative function of the coefficients with a proximal y step *)
Section gen.
Variables (g1 : vec -> R) (L1 : R) (ys1 : vec -> vec).
Hypothesis G_conv : convex_on (fun _ => True) g1.
Hypothesis G_pos : forall y, 0 <= g1 y.
Hypothesis HL1 : 0 <= L1.
Hypothesis G_lip : forall a b, Rabs (g1 a - g1 b) <= L1 * nrm n (fun i => a i - b i).
Hypothesis G_prox : forall v, subgradient n (fun _ => True) g1 (ys1 v) (fun i => rho * (v i - ys1 v i)).
Definition gg (y : vec) : R := sumn m0 (fun i => Rabs (Wv i * y i)) + g1 (block_sep1 m0 y).
Definition yst (AX U : vec) : vec := block_cat m0 (prox_l1 (fun i => block_sep0 (fun i => AX i + U i) i - cs_flat s axes base S i) (fun i => 1 / rho * Wv i)) (ys1 (block_sep1 m0 (fun i => AX i + U i))).
Definition FF (x : vec) : R := pdg_quad s dsh axes M C Cb (f_D st) (f_B st) S W base mu Wgrd x + g1 x.
Notation run k v := (iterate (pdg_A s dsh axes M C Cb st base) tb_B (pdg_c s axes C S base) rlx xst yst k v).
Lemma gg_conv : convex_on (fun _ => True) gg.
Proof.
  intros x y t _ _ Ht. split; [exact Logic.I|]. unfold gg.
  assert (Q : convex_on (fun _ : vec => True) (l1reg m0 1 Wv)) by (apply l1reg_convex; [lra|intros; exact Logic.I]).
  destruct (Q x y t Logic.I Logic.I Ht) as [_ A]. destruct (G_conv (block_sep1 m0 x) (block_sep1 m0 y) t Logic.I Logic.I Ht) as [_ B]. unfold l1reg in A. rewrite !Rmult_1_l in A.
  change (block_sep1 m0 (seg x y t)) with (seg (block_sep1 m0 x) (block_sep1 m0 y) t). lra.
Qed.
Lemma gg_pos y : 0 <= gg y.
Proof. unfold gg. pose proof (G_pos (block_sep1 m0 y)). assert (0 <= sumn m0 (fun i => Rabs (Wv i * y i))) by (apply sumn_nonneg; intros; apply Rabs_pos). lra. Qed.
Lemma gg_lip a b : Rabs (gg a - gg b) <= (sumn m0 Wv + L1) * nrm m (fun i => a i - b i).
Proof.
  unfold gg. pose proof (l1_lip m0 m Wv a b ltac:(lia) Wv_nonneg) as A. pose proof (G_lip (block_sep1 m0 a) (block_sep1 m0 b)) as B.
  pose proof (nrm_block m0 n (fun i => a i - b i)) as N. assert (B' : L1 * nrm n (fun i => block_sep1 m0 a i - block_sep1 m0 b i) <= L1 * nrm m (fun i => a i - b i)) by (apply Rmult_le_compat_l; assumption).
  replace (sumn m0 (fun i => Rabs (Wv i * a i)) + g1 (block_sep1 m0 a) - (sumn m0 (fun i => Rabs (Wv i * b i)) + g1 (block_sep1 m0 b)))
    with ((sumn m0 (fun i => Rabs (Wv i * a i)) - sumn m0 (fun i => Rabs (Wv i * b i))) + (g1 (block_sep1 m0 a) - g1 (block_sep1 m0 b))) by ring.
  eapply Rle_trans; [apply Rabs_triang|]. rewrite Rmult_plus_distr_r. lra.
Qed.
Lemma Lg85 : 0 <= sumn m0 Wv + L1. Proof. assert (0 <= sumn m0 Wv) by (apply sumn_nonneg; exact Wv_nonneg). lra. Qed.
Lemma x85 y u : argmin (fun _ => True) (fun x => auglag m K eq_B c0 rho f gg x y u) (xst y u).
Proof.
  destruct (x79 s dsh axes (Cb * M) C DD S W base mu WW rho 0 (fun _ => 0) ND Hne H2 HC Hrho Hmu WW_nonneg y u) as [_ A].
  split; [exact Logic.I|]. intros x Hx. specialize (A x Logic.I). unfold auglag in *.
  assert (Es : forall i, (i < n)%nat -> xst y u i = grd_xstep s dsh axes (Cb * M) C DD S base mu WW rho y u i) by (intros i Hi; apply pdg_xs_same; try assumption; exact Hs85).
  assert (E1 : f (xst y u) = f (grd_xstep s dsh axes (Cb * M) C DD S base mu WW rho y u)).
  { unfold lsq. f_equal. apply nrm2_ext. intros i _. rewrite (Hv_local s dsh axes (Cb * M) C base mu WW ND Hne H2 HC _ _ Es). reflexivity. }
  assert (E2 : nrm2 m (fun i => K (xst y u) i + eq_B y i - c0 i + u i) = nrm2 m (fun i => K (grd_xstep s dsh axes (Cb * M) C DD S base mu WW rho y u) i + eq_B y i - c0 i + u i)).
  { apply nrm2_ext. intros i Hi. rewrite (K_local s dsh axes (Cb * M) C DD base ND Hne H2 HC _ _ Es i Hi). reflexivity. }
  rewrite E1, E2. lra.
Qed.
Lemma y85 ax u : argmin (fun _ => True) (fun y => auglag m (fun _ => ax) eq_B c0 rho (fun _ => 0) gg ax y u) (yst ax u).
Proof.
  destruct (bpdn_y m0 false 1 rho Wv (fun i => ax i - c0 i) u ltac:(lra) Hrho Wv_nonneg) as [_ B2].
  pose proof (G_prox (block_sep1 m0 (fun i => ax i + u i))) as B1.
  assert (E0 : forall i, (i < m0)%nat -> yst ax u i = bpdn_ystep false 1 rho Wv (fun i => ax i - c0 i) u i).
  { intros i Hi. unfold yst, bpdn_ystep, clip, tc, s0. rewrite cat_lt by exact Hi. cbn [andb]. unfold prox_l1, block_sep0. cbn [andb]. rewrite cat_lt by exact Hi.
    replace (ax i + u i - cs_flat s axes base S i) with (ax i - cs_flat s axes base S i + u i) by ring. reflexivity. }
  assert (E1 : forall i, yst ax u (m0 + i)%nat = ys1 (block_sep1 m0 (fun i => ax i + u i)) i) by (intros i; unfold yst; apply cat_ge).
  assert (Sg : subgradient m (fun _ => True) gg (yst ax u) (fun i => rho * (ax i - c0 i + u i - yst ax u i))).
  { intros y _. specialize (B1 (block_sep1 m0 y) Logic.I). specialize (B2 y ltac:(discriminate)). unfold gg, dot in *. rewrite sumn_split. unfold l1reg in B2. rewrite !Rmult_1_l in B2.
    rewrite (sumn_ext m0 (fun i => Rabs (Wv i * yst ax u i)) (fun i => Rabs (Wv i * bpdn_ystep false 1 rho Wv (fun i => ax i - c0 i) u i))) by (intros i Hi; rewrite E0 by exact Hi; reflexivity).
    rewrite (sumn_ext m0 (fun i => rho * (ax i - c0 i + u i - yst ax u i) * (y i - yst ax u i)) (fun i => rho * (ax i - c0 i + u i - bpdn_ystep false 1 rho Wv (fun i => ax i - c0 i) u i) * (y i - bpdn_ystep false 1 rho Wv (fun i => ax i - c0 i) u i))) by (intros i Hi; rewrite !E0 by exact Hi; reflexivity).
    assert (Eb : block_sep1 m0 (yst ax u) = ys1 (block_sep1 m0 (fun i => ax i + u i))) by (extensionality i; apply E1). rewrite Eb.
    rewrite (sumn_ext n (fun i => rho * (ax (m0 + i)%nat - c0 (m0 + i)%nat + u (m0 + i)%nat - yst ax u (m0 + i)%nat) * (y (m0 + i)%nat - yst ax u (m0 + i)%nat))
       (fun i => rho * (block_sep1 m0 (fun i => ax i + u i) i - ys1 (block_sep1 m0 (fun i => ax i + u i)) i) * (block_sep1 m0 y i - ys1 (block_sep1 m0 (fun i => ax i + u i)) i))).
    - lra.
    - intros i _. rewrite E1. unfold tc. rewrite cat_ge. unfold block_sep1. ring. }
  pose proof (y_equal m rho (fun _ => True) gg (fun i => ax i - c0 i) u _ ltac:(lra) Logic.I Sg) as [_ A].
  split; [exact Logic.I|]. intros y _. specialize (A y Logic.I). unfold auglag in *.
  assert (Q : forall y, nrm2 m (fun i => ax i + eq_B y i - c0 i + u i) = nrm2 m (fun i => ax i - c0 i + eq_B y i - eq_c i + u i)) by (intros; apply nrm2_ext; intros; unfold eq_c; ring).
  rewrite !Q. exact A.
Qed.
Lemma obj85 x : split_obj mh Hv (fun _ => 0) K c0 gg x = FF x.
Proof.
  unfold split_obj. rewrite f85. unfold FF, pdg_quad, gg. rewrite fit85.
  assert (E : block_sep1 m0 (fun i => K x i - c0 i) = x) by (extensionality i; unfold block_sep1, tA, tc; rewrite !cat_ge; ring). rewrite E. ring.
Qed.
Lemma run85 k v : run k v = iterate K eq_B c0 rlx xst yst k v.
Proof.
  replace (pdg_A s dsh axes M C Cb st base) with K; [reflexivity|]. extensionality x. symmetry. rewrite pdg_A_cs2 by assumption. apply cs2_A_eq; assumption || exact Hs85.
Qed.
Lemma stationary85 v : rlx <> 0 -> let v' := run 1 v in
  (forall i, (i < m)%nat -> sY v' i = sY v i) -> (forall i, (i < m)%nat -> sU v' i = sU v i) ->
  argmin (fun _ => True) FF (sX v') /\ forall i, (i < n)%nat -> pdg_getcoef s axes C v' i = sX v' i.
Proof.
  intros Hr v' E1 E2. unfold v' in *. rewrite run85 in *.
  destruct (split_stationary mh m Hv (fun _ => 0) K c0 gg (sumn m0 Wv + L1) rlx rho _ _ (Hv_linear s dsh axes (Cb * M) base mu WW) (K_linear s dsh axes (Cb * M) C DD base) gg_conv Lg85 gg_lip Hrho x85 y85 v Hr E1 E2) as [[_ A] B].
  split; [split; [exact Logic.I|]; intros x _; rewrite <- !obj85; apply A; exact Logic.I|].
  intros i Hi. unfold pdg_getcoef, block_sep1. change (pdg_m0 s axes C) with m0. rewrite B by lia. unfold tA, tc. rewrite !cat_ge. ring.
Qed.
Lemma limit85 v : 0 < rlx < 2 -> (exists p, argmin (fun _ => True) FF p) ->
  exists p, argmin (fun _ => True) FF p /\ (forall i, (i < n)%nat -> Un_cv (fun k => sX (run k v) i) (p i)) /\ (forall i, (i < m)%nat -> Un_cv (fun k => sY (run k v) i) (K p i - c0 i)).
Proof.
  intros Hr [p0 [_ H0]].
  destruct (split_limit n mh m Hv (fun _ => 0) K c0 gg (sumn m0 Wv + L1) rlx rho _ _ (Hv_linear s dsh axes (Cb * M) base mu WW) (Hv_local s dsh axes (Cb * M) C base mu WW ND Hne H2 HC) (K_linear s dsh axes (Cb * M) C DD base)
     (K_local s dsh axes (Cb * M) C DD base ND Hne H2 HC) gg_conv gg_pos Lg85 gg_lip Hrho x85 y85 1 ltac:(lra) (inj79 s dsh axes (Cb * M) C DD base mu WW) v Hr) as (p & [_ A] & B1 & B2).
  { exists p0. split; [exact Logic.I|]. intros x _. rewrite !obj85. apply H0. exact Logic.I. }
  exists p. split; [split; [exact Logic.I|]; intros x _; rewrite <- !obj85; apply A; exact Logic.I|].
  split; intros i Hi.
  - apply (cv_ext (fun k => sX (iterate K eq_B c0 rlx xst yst k v) i)); [intros k; rewrite run85; reflexivity|apply B1; exact Hi].
  - apply (cv_ext (fun k => sY (iterate K eq_B c0 rlx xst yst k v) i)); [intros k; rewrite run85; reflexivity|apply B2; exact Hi].
Qed.
(** The adjoint of the constraint. *)
Lemma AT85 u v : dot n (fun i => pdg_A0T s dsh axes M C st base (block_sep0 u) i + block_sep1 m0 u i) v = dot m u (K v).
Proof.
  pose proof (P_pos' s axes Hs85) as HP. unfold dot at 2. rewrite sumn_split. unfold dot.
  rewrite (sumn_ext n _ (fun i => pdg_A0T s dsh axes M C st base (block_sep0 u) i * v i + u (m0 + i)%nat * K v (m0 + i)%nat)) by (intros i _; unfold tA; rewrite cat_ge; unfold block_sep1; ring).
  rewrite sumn_plus. f_equal.
  rewrite (pdg_A0T_adjs s dsh axes M C st base Hne).
  pose proof (adjs_dot s dsh axes (Cb * M) C DD ND Hne Hs85 (arr s axes (block_sep0 u)) (arr s axes v) base) as A.
  assert (Q : forall w c k, (k < P)%nat -> arr s axes w c (place s axes base k) = w (c * P + k)%nat) by (intros w c k Hk; unfold arr; rewrite rank_place by (assumption || exact Hs85); reflexivity).
  transitivity (sumn (Cb * M) (fun k => total s axes (fun p => adjs s dsh axes C DD (arr s axes (block_sep0 u)) k p * arr s axes v k p) base)).
  - rewrite sumn_flat by exact HP. apply sumn_ext. intros k Hk. rewrite <- (sum_slice s axes base Hs85). apply sumn_ext. intros j Hj. unfold cs_flat. rewrite div_at, mod_at by exact Hj. rewrite Q by exact Hj. reflexivity.
  - etransitivity; [exact A|]. unfold blk. rewrite sumn_flat by exact HP. apply sumn_ext. intros c Hc. rewrite <- (sum_slice s axes base Hs85). apply sumn_ext. intros j Hj.
    assert (Hi : (c * P + j < m0)%nat) by (unfold blk; nia). unfold tA. change (C * P)%nat with m0. rewrite cat_lt by exact Hi. rewrite Lw_at by assumption. rewrite Q by exact Hj. reflexivity.
Qed.
Lemma dual85 v p d : (forall i, (i < n)%nat -> Un_cv (fun k => sX (run k v) i) (p i)) -> (forall i, (i < m)%nat -> Un_cv (fun k => sY (run k v) i) (K p i - c0 i)) ->
  Un_cv (fun k => dot n (pdg_rsdl_s s dsh axes M C st base rho (run k v)) d) (pdg_gr s axes M Cb base mu Wgrd p + pdg_gr s axes M Cb base mu Wgrd d - pdg_gr s axes M Cb base mu Wgrd (fun i => p i + d i)).
Proof.
  intros Cx Cy. apply cv_shift_S.
  apply (cv_ext (fun k => rho * dot m (sU (iterate K eq_B c0 rlx xst yst (Datatypes.S k) v)) (K d))).
  - intros k. rewrite <- run85. rewrite <- AT85. unfold dot. rewrite <- sumn_scal. apply sumn_ext. intros i _. unfold pdg_rsdl_s. change (pdg_m0 s axes C) with m0. ring.
  - replace (pdg_gr s axes M Cb base mu Wgrd p + pdg_gr s axes M Cb base mu Wgrd d - pdg_gr s axes M Cb base mu Wgrd (fun i => p i + d i)) with (- dot mh (Hv p) (Hv d))
      by (rewrite (bilin mh Hv (Hv_linear s dsh axes (Cb * M) base mu WW)), !f85; ring).
    apply (dual_limit n mh m Hv K c0 gg rlx rho xst yst (Hv_linear s dsh axes (Cb * M) base mu WW) (Hv_local s dsh axes (Cb * M) C base mu WW ND Hne H2 HC) (K_linear s dsh axes (Cb * M) C DD base)
      (K_local s dsh axes (Cb * M) C DD base ND Hne H2 HC) x85).
    + intros i Hi. generalize (Cx i Hi). apply cv_ext. intros k. rewrite run85. reflexivity.
    + intros i Hi. generalize (Cy i Hi). apply cv_ext. intros k. rewrite run85. reflexivity.
Qed.
(** The dual residual inherited from ConvL1L1Grd vanishes in the limit. *)
Lemma inherited85 v p d : (forall i, (i < m)%nat -> Un_cv (fun k => sY (run k v) i) (K p i - c0 i)) ->
  Un_cv (fun k => dot n (grd_rsdl_s s dsh axes M C st base rho (sY (run k v)) (sY (run (Datatypes.S k) v))) d) 0.
Proof.
  intros Cy. apply (cv_ext (fun k => rho * dot m (fun j => sY (run k v) j - sY (run (Datatypes.S k) v) j) (K d))).
  - intros k. rewrite <- AT85. unfold dot. rewrite <- sumn_scal. apply sumn_ext. intros i _. unfold grd_rsdl_s. change (pdg_m0 s axes C) with m0. ring.
  - apply cv_scal_0. replace 0 with (dot m (fun i => (K p i - c0 i) - (K p i - c0 i)) (K d)) by (unfold dot; apply sumn_0; intros; ring).
    apply (cv_dot m (fun k i => sY (run k v) i - sY (run (Datatypes.S k) v) i) (fun _ => K d)); [|intros; apply cv_const]. intros i Hi.
    apply (CV_minus (fun k => sY (run k v) i) (fun k => sY (run (Datatypes.S k) v) i)); [apply Cy; exact Hi|]. apply (cv_S (fun k => sY (run k v) i)). apply Cy. exact Hi.
Qed.
Lemma exists85 a : 0 < a -> (forall x, a * sumn n (fun i => Rabs (x i)) <= g1 x) -> exists p, argmin (fun _ => True) FF p.
Proof.
  intros Ha Hb.
  assert (LF : loc_lip n FF).
  { apply (lip_ext_fun n (split_obj mh Hv (fun _ => 0) K c0 gg)); [exact obj85|]. unfold split_obj. apply lip_plus.
    - apply (lip_lsq n mh Hv (fun _ => 0) (Hv_linear s dsh axes (Cb * M) base mu WW)). intros; apply (Hv_local s dsh axes (Cb * M) C base mu WW ND Hne H2 HC); assumption.
    - unfold gg. apply (lip_plus n (fun x => sumn m0 (fun i => Rabs (Wv i * (K x i - c0 i)))) (fun x => g1 (block_sep1 m0 (fun i => K x i - c0 i)))).
      + apply (lip_sumn n m0 (fun i x => Rabs (Wv i * (K x i - c0 i)))). intros i Hi. apply lip_abs. apply lip_scal. apply (lip_plus n (fun x => K x i) (fun _ => - c0 i)); [|apply lip_const].
        apply (lip_linear n m K i (K_linear s dsh axes (Cb * M) C DD base) (K_local s dsh axes (Cb * M) C DD base ND Hne H2 HC)). lia.
      + apply (lip_ext_fun n g1); [|exact (glob_lip n g1 L1 HL1 G_lip)]. intros x. f_equal. extensionality i. unfold block_sep1, tA, tc. rewrite !cat_ge. ring. }
  apply (coercive_min n (fun _ => True) FF a 0 (boxes_true n) LF Ha). intros x _. specialize (Hb x). unfold FF, pdg_quad. rewrite <- f85, <- fit85.
  assert (0 <= f x) by (unfold lsq; pose proof (nrm2_nonneg mh (fun i => Hv x i - 0)); lra).
  assert (0 <= sumn m0 (fun i => Rabs (Wv i * (K x i - c0 i)))) by (apply sumn_nonneg; intros; apply Rabs_pos). lra.
Qed.
End gen.

(** The gradient term is quadratic. *)
Lemma gr_double p : pdg_gr s axes M Cb base mu Wgrd (fun i => p i + p i) = 4 * pdg_gr s axes M Cb base mu Wgrd p.
Proof.
  rewrite <- !f85. unfold lsq. replace (nrm2 mh (fun i => Hv (fun j => p j + p j) i - 0)) with (4 * nrm2 mh (fun i => Hv p i - 0)); [ring|].
  unfold nrm2, dot. rewrite <- sumn_scal. apply sumn_ext. intros i _. replace (Hv (fun j => p j + p j) i) with (Hv p i + Hv p i); [ring|].
  pose proof (Hv_linear s dsh axes (Cb * M) base mu WW 1 p 1 p i) as A. rewrite !Rmult_1_l in A. symmetry. refine (eq_trans _ A). apply (f_equal (fun h => Hv h i)). extensionality j. ring.
Qed.
Lemma below q p : (forall d, Un_cv (fun k => dot n (q k) d) (pdg_gr s axes M Cb base mu Wgrd p + pdg_gr s axes M Cb base mu Wgrd d - pdg_gr s axes M Cb base mu Wgrd (fun i => p i + d i))) ->
  0 < pdg_gr s axes M Cb base mu Wgrd p -> exists eps N, 0 < eps /\ forall k, (N <= k)%nat -> eps <= nrm n (q k).
Proof.
  intros H Hp. specialize (H p). rewrite gr_double in H. set (a := pdg_gr s axes M Cb base mu Wgrd p) in *. replace (a + a - 4 * a) with (- (2 * a)) in H by ring.
  destruct (H a Hp) as [N HN]. set (r := nrm n p). assert (Hr : 0 <= r) by apply sqrt_pos. exists (a / (r + 1)), N. split; [apply Rdiv_lt_0_compat; lra|].
  intros k Hk. specialize (HN k Hk). unfold R_dist in HN. apply Rabs_def2 in HN. destruct HN as [H1 H3].
  pose proof (cauchy_schwarz n (q k) p) as CS. fold r in CS. assert (a <= nrm n (q k) * r) by (pose proof (Rle_abs (- dot n (q k) p)) as Q; rewrite Rabs_Ropp in Q; lra).
  assert (0 <= nrm n (q k)) by apply sqrt_pos. apply (Rmult_le_reg_r (r + 1)); [lra|]. unfold Rdiv. rewrite Rmult_assoc, Rinv_l by lra. lra.
Qed.

Section l1.
Variable wl1 : vec.
Hypothesis Hw : forall i, (i < n)%nat -> 0 <= wl1 i.
Notation run k v := (pdg_iterate s dsh axes M C Cb S st base mu Wgrd rlx rho lmbda wl1 Wv k v).
Notation F := (pdg_objective s dsh axes M C Cb (f_D st) (f_B st) S W base mu Wgrd lmbda wl1).
Notation g1 := (fun x => lmbda * wl1norm n wl1 x).
Notation ys1 := (fun v => prox_l1 v (fun i => lmbda / rho * wl1 i)).
Lemma l1_conv : convex_on (fun _ => True) g1. Proof. exact (l1reg_convex (fun _ => True) n lmbda wl1 Hl (fun _ _ _ _ _ _ => Logic.I)). Qed.
Lemma l1_pos y : 0 <= g1 y. Proof. apply Rmult_le_pos; [exact Hl|]. apply sumn_nonneg. intros; apply Rabs_pos. Qed.
Lemma l1_L : 0 <= lmbda * sumn n wl1. Proof. apply Rmult_le_pos; [exact Hl|]. apply sumn_nonneg. exact Hw. Qed.
Lemma l1_glip a b : Rabs (g1 a - g1 b) <= (lmbda * sumn n wl1) * nrm n (fun i => a i - b i).
Proof.
  cbv beta. unfold wl1norm. rewrite <- Rmult_minus_distr_l, Rabs_mult, (Rabs_pos_eq lmbda) by exact Hl. rewrite Rmult_assoc. apply Rmult_le_compat_l; [exact Hl|].
  apply l1_lip; [lia|exact Hw].
Qed.
Lemma l1_prox v : subgradient n (fun _ => True) g1 (ys1 v) (fun i => rho * (v i - ys1 v i)).
Proof.
  destruct (bpdn_y n false lmbda rho wl1 v (fun _ => 0) Hl Hrho Hw) as [_ B]. intros y _. specialize (B y ltac:(discriminate)).
  assert (E : bpdn_ystep false lmbda rho wl1 v (fun _ => 0) = ys1 v) by (extensionality i; unfold bpdn_ystep, clip, prox_l1; cbn [andb]; rewrite Rplus_0_r; reflexivity).
  rewrite E in B. unfold l1reg in B. unfold wl1norm.
  rewrite (dot_ext n (fun i => rho * (v i - ys1 v i)) (fun i => y i - ys1 v i) (fun i => rho * (v i + 0 - ys1 v i)) (fun i => y i - ys1 v i)); [exact B|intros; cbv beta; ring|reflexivity].
Qed.

(** If an iteration leaves Y and U unchanged then X minimises the documented objective and getcoef returns it. *)
Theorem C85_stationary v : rlx <> 0 -> let v' := run 1%nat v in
  (forall i, (i < m)%nat -> sY v' i = sY v i) -> (forall i, (i < m)%nat -> sU v' i = sU v i) ->
  argmin (fun _ => True) F (sX v') /\ forall i, (i < n)%nat -> pdg_getcoef s axes C v' i = sX v' i.
Proof. exact (stationary85 g1 _ ys1 l1_conv l1_L l1_glip l1_prox v). Qed.
(** X and the coefficients returned by solve converge to a minimiser p; the dual residual of this class (571) converges weakly to
    minus the gradient of the gradient term at p, and the dual residual of ConvL1L1Grd to zero. *)
Theorem C85_limit v : 0 < rlx < 2 -> (exists p, argmin (fun _ => True) F p) ->
  exists p, argmin (fun _ => True) F p /\ (forall i, (i < n)%nat -> Un_cv (fun k => sX (run k v) i) (p i) /\ Un_cv (fun k => pdg_getcoef s axes C (run k v) i) (p i)) /\
  (forall d, Un_cv (fun k => dot n (pdg_rsdl_s s dsh axes M C st base rho (run k v)) d) (pdg_gr s axes M Cb base mu Wgrd p + pdg_gr s axes M Cb base mu Wgrd d - pdg_gr s axes M Cb base mu Wgrd (fun i => p i + d i))) /\
  (forall d, Un_cv (fun k => dot n (grd_rsdl_s s dsh axes M C st base rho (sY (run k v)) (sY (run (Datatypes.S k) v))) d) 0).
Proof.
  intros Hr Ex. destruct (limit85 g1 _ ys1 l1_conv l1_pos l1_L l1_glip l1_prox v Hr Ex) as (p & A & Cx & Cy).
  exists p. split; [exact A|]. split; [|split].
  - intros i Hi. split; [apply (Cx i Hi)|]. specialize (Cy (m0 + i)%nat ltac:(lia)). replace (K p (m0 + i)%nat - c0 (m0 + i)%nat) with (p i) in Cy by (unfold tA, tc; rewrite !cat_ge; ring). exact Cy.
  - intros d. exact (dual85 g1 ys1 v p d Cx Cy).
  - intros d. exact (inherited85 ys1 v p d Cy).
Qed.
Theorem C85_exists : 0 < lmbda -> (forall i, (i < n)%nat -> 0 < wl1 i) -> exists p, argmin (fun _ => True) F p.
Proof.
  intros Hl0 Hw0. destruct (l1_coercive n lmbda wl1 Hl0 Hw0) as (a & Ha & B). exact (exists85 g1 _ l1_L l1_glip a Ha B).
Qed.
(** The dual residual of this class stays away from zero whenever the gradient term of no minimiser vanishes: the stopping
    test can then never be met with a small tolerance although the iteration converges. *)
Theorem C85_dual_positive v : 0 < rlx < 2 -> (exists p, argmin (fun _ => True) F p) -> (forall p, argmin (fun _ => True) F p -> 0 < pdg_gr s axes M Cb base mu Wgrd p) ->
  exists eps N, 0 < eps /\ forall k, (N <= k)%nat -> eps <= nrm n (pdg_rsdl_s s dsh axes M C st base rho (run k v)).
Proof.
  intros Hr Ex Hp. destruct (C85_limit v Hr Ex) as (p & A & _ & B & _). exact (below (fun k => pdg_rsdl_s s dsh axes M C st base rho (run k v)) p B (Hp p A)).
Qed.
End l1.

Section joint.
Variable wl21 : vec.
Hypothesis Hw : forall j, (j < M * P)%nat -> 0 <= wl21 j.
Notation run k v := (pdgj_iterate s dsh axes M C Cb S st base mu Wgrd rlx rho lmbda wl21 Wv k v).
Notation F := (pdgj_objective s dsh axes M C Cb (f_D st) (f_B st) S W base mu Wgrd lmbda wl21).
Notation g1 := (fun x => lmbda * wl21norm Cb (M * P) wl21 x).
Notation ys1 := (fun v i => prox_l2 Cb (fun b => prox_l1 v (fun _ => 0) (b * (M * P) + i mod (M * P))%nat) (lmbda / rho * wl21 (i mod (M * P))%nat) (i / (M * P))%nat).
Lemma nN : n = (Cb * (M * P))%nat. Proof. lia. Qed.
Lemma MP_pos : (0 < M * P)%nat. Proof. pose proof (P_pos' s axes Hs85). nia. Qed.
Lemma j_lip a b : Rabs (g1 a - g1 b) <= (lmbda * sumn (M * P) wl21) * nrm n (fun i => a i - b i).
Proof. rewrite nN. apply (groups_lip Cb (M * P) lmbda wl21 MP_pos Hl Hw). Qed.
Lemma j_prox v : subgradient n (fun _ => True) g1 (ys1 v) (fun i => rho * (v i - ys1 v i)).
Proof. rewrite nN. exact (groups_prox Cb (M * P) lmbda rho wl21 MP_pos Hl Hrho Hw v). Qed.
Theorem C85_joint_stationary v : rlx <> 0 -> let v' := run 1%nat v in
  (forall i, (i < m)%nat -> sY v' i = sY v i) -> (forall i, (i < m)%nat -> sU v' i = sU v i) ->
  argmin (fun _ => True) F (sX v') /\ forall i, (i < n)%nat -> pdg_getcoef s axes C v' i = sX v' i.
Proof. exact (stationary85 g1 _ ys1 (groups_conv Cb (M * P) lmbda wl21 Hl Hw) (groups_L (M * P) lmbda wl21 Hl Hw) j_lip j_prox v). Qed.
Theorem C85_joint_limit v : 0 < rlx < 2 -> (exists p, argmin (fun _ => True) F p) ->
  exists p, argmin (fun _ => True) F p /\ (forall i, (i < n)%nat -> Un_cv (fun k => sX (run k v) i) (p i) /\ Un_cv (fun k => pdg_getcoef s axes C (run k v) i) (p i)) /\
  (forall d, Un_cv (fun k => dot n (pdg_rsdl_s s dsh axes M C st base rho (run k v)) d) (pdg_gr s axes M Cb base mu Wgrd p + pdg_gr s axes M Cb base mu Wgrd d - pdg_gr s axes M Cb base mu Wgrd (fun i => p i + d i))) /\
  (forall d, Un_cv (fun k => dot n (grd_rsdl_s s dsh axes M C st base rho (sY (run k v)) (sY (run (Datatypes.S k) v))) d) 0).
Proof.
  intros Hr Ex. destruct (limit85 g1 _ ys1 (groups_conv Cb (M * P) lmbda wl21 Hl Hw) (groups_pos Cb (M * P) lmbda wl21 Hl Hw) (groups_L (M * P) lmbda wl21 Hl Hw) j_lip j_prox v Hr Ex) as (p & A & Cx & Cy).
  exists p. split; [exact A|]. split; [|split].
  - intros i Hi. split; [apply (Cx i Hi)|]. specialize (Cy (m0 + i)%nat ltac:(lia)). replace (K p (m0 + i)%nat - c0 (m0 + i)%nat) with (p i) in Cy by (unfold tA, tc; rewrite !cat_ge; ring). exact Cy.
  - intros d. exact (dual85 g1 ys1 v p d Cx Cy).
  - intros d. exact (inherited85 ys1 v p d Cy).
Qed.
Theorem C85_joint_exists : 0 < lmbda -> (forall j, (j < M * P)%nat -> 0 < wl21 j) -> exists p, argmin (fun _ => True) F p.
Proof.
  intros Hl0 Hw0. destruct (groups_coercive Cb (M * P) lmbda wl21 MP_pos Hw Hl0 Hw0) as (a & Ha & B). rewrite <- nN in B. exact (exists85 g1 _ (groups_L (M * P) lmbda wl21 Hl Hw) j_lip a Ha B).
Qed.
End joint.
End main.
Print Assumptions C85_stationary.
Print Assumptions C85_limit.
Print Assumptions C85_exists.
Print Assumptions C85_dual_positive.
Print Assumptions C85_joint_stationary.
Print Assumptions C85_joint_limit.
Print Assumptions C85_joint_exists.

(** ** A case in which the dual residual stays away from zero *)
Definition ex85_S (c : nat) (p : index) : R := if Nat.eqb (p 0%nat) 1 then 1 else 0.
Definition ex85_st : pd_fac := mkFac (fun _ _ => 1) (fun _ => 1) (fun _ _ => 1) (fun _ _ => 1) (fun _ _ _ => Cplx.c0).
Notation F85 := (pdg_objective ex_s (fun _ => 1%nat) [O] 1 1 1 (fun _ _ => 1) (fun _ _ => 1) ex85_S (fun _ _ => 1) (fun _ => O) (1/10) (fun _ => 1) (1/10) (fun _ => 1)).
Lemma ex85_gr x : pdg_gr ex_s [O] 1 1 (fun _ => O) (1/10) (fun _ => 1) x = 1/10 * ((x 1%nat - x O) * (x 1%nat - x O)).
Proof.
  unfold pdg_gr, pdg_grad, grad_term, sqn, chan, coefs, arr, diff, back, set_at, ex_s. cbn. lra.
Qed.
Lemma ex85_F x : F85 x = Rabs (x O) + Rabs (x 1%nat - 1) + 1/10 * ((x 1%nat - x O) * (x 1%nat - x O)) + 1/10 * (Rabs (x O) + Rabs (x 1%nat)).
Proof.
  unfold pdg_objective, pdg_quad. rewrite ex85_gr. unfold pdg_fit. cbn [sumn total ex_s Nat.eqb]. rewrite !ex_pd_synth by (unfold set_at; simpl; lia).
  unfold chan, coefs, arr, ex85_S, set_at, wl1norm, ex_s. cbn. rewrite !Rmult_1_l, !Rplus_0_l. replace (x O - 0) with (x O) by ring. lra.
Qed.
Lemma ex85_positive p : argmin (fun _ => True) F85 p -> 0 < pdg_gr ex_s [O] 1 1 (fun _ => O) (1/10) (fun _ => 1) p.
Proof.
  intros [_ H]. rewrite ex85_gr. specialize (H (fun i => match i with O => 0 | _ => 1 end) Logic.I). rewrite !ex85_F in H.
  rewrite Rabs_R0, (Rminus_diag_eq 1 1 eq_refl), Rabs_R0, Rabs_R1 in H.
  destruct (Req_dec (p 1%nat) (p O)) as [E|E].
  - exfalso. rewrite E in H. pose proof (Rabs_pos (p O)). pose proof (Rabs_triang (p O) (- (p O - 1))) as T. replace (p O + - (p O - 1)) with 1 in T by ring. rewrite Rabs_Ropp, Rabs_R1 in T. lra.
  - assert (0 < (p 1%nat - p O) * (p 1%nat - p O)) by (apply Rsqr_pos_lt; lra). lra.
Qed.
Theorem C85_dual_refuted : exists s dsh axes M C Cb S W st base mu Wgrd lmbda wl1,
  NoDup axes /\ axes <> [] /\ (forall ax, In ax axes -> (2 <= s ax)%nat) /\ (0 < M)%nat /\ (0 < C)%nat /\ eigen Cb (gram C (f_B st)) (f_Gamma st) (f_Q st) /\
  0 < mu /\ 0 < lmbda /\ forall rho rlx v, 0 < rho -> 0 < rlx < 2 ->
  let run := fun k => pdg_iterate s dsh axes M C Cb S st base mu Wgrd rlx rho lmbda wl1 (cs_flat s axes base W) k v in
  let n := (Cb * M * size s axes)%nat in
  (exists p, argmin (fun _ => True) (pdg_objective s dsh axes M C Cb (f_D st) (f_B st) S W base mu Wgrd lmbda wl1) p /\ forall i, (i < n)%nat -> Un_cv (fun k => pdg_getcoef s axes C (run k) i) (p i)) /\
  exists eps N, 0 < eps /\ forall k, (N <= k)%nat -> eps <= nrm n (pdg_rsdl_s s dsh axes M C st base rho (run k)).
Proof.
  exists ex_s, (fun _ => 1%nat), [O], 1%nat, 1%nat, 1%nat, ex85_S, (fun _ _ => 1), ex85_st, (fun _ => O), (1/10), (fun _ => 1), (1/10), (fun _ => 1).
  assert (ND : NoDup [O]) by (constructor; [intros []|constructor]).
  assert (H2 : forall ax, In ax [O] -> (2 <= ex_s ax)%nat) by (intros ax [<-|[]]; unfold ex_s; simpl; lia).
  assert (He : eigen 1 (gram 1 (f_B ex85_st)) (f_Gamma ex85_st) (f_Q ex85_st)).
  { split; [|split]; intros i j Hi Hj; assert (i = O) by lia; assert (j = O) by lia; subst; cbn; ring. }
  assert (Ex : exists p, argmin (fun _ => True) F85 p).
  { apply (C85_exists ex_s (fun _ => 1%nat) [O] 1 1 1 ex85_S (fun _ _ => 1) ex85_st (fun _ => O) (1/10) (fun _ => 1) (1/10)); try assumption; try discriminate; try lia; try lra; intros; cbv beta; lra. }
  split; [exact ND|]. split; [discriminate|]. split; [exact H2|]. split; [lia|]. split; [lia|]. split; [exact He|]. split; [lra|]. split; [lra|].
  intros rho rlx v Hrho Hrlx run n. split.
  - destruct (C85_limit ex_s (fun _ => 1%nat) [O] 1 1 1 ex85_S (fun _ _ => 1) ex85_st (fun _ => O) (1/10) (fun _ => 1) rho rlx (1/10) ND ltac:(discriminate) H2 ltac:(lia) ltac:(lia) He Hrho ltac:(lra) ltac:(intros; cbv beta; lra) ltac:(lra) ltac:(intros; cbv beta; lra)
      (fun _ => 1) ltac:(intros; cbv beta; lra) v Hrlx Ex) as (p & A & B & _). exists p. split; [exact A|]. intros i Hi. apply (B i Hi).
  - exact (C85_dual_positive ex_s (fun _ => 1%nat) [O] 1 1 1 ex85_S (fun _ _ => 1) ex85_st (fun _ => O) (1/10) (fun _ => 1) rho rlx (1/10) ND ltac:(discriminate) H2 ltac:(lia) ltac:(lia) He Hrho ltac:(lra) ltac:(intros; cbv beta; lra) ltac:(lra) ltac:(intros; cbv beta; lra)
      (fun _ => 1) ltac:(intros; cbv beta; lra) v Hrlx Ex ex85_positive).
Qed.
Print Assumptions C85_dual_refuted.

(** Two channels which B mixes, a mask, group sparsity and over-relaxation: the hypotheses hold and the iteration converges. *)
Example C85_instance : let B := fun c b => match c, b with O, O => 3 / 5 | O, _ => 4 / 5 | _, O => - (8 / 5) | _, _ => 6 / 5 end in
  let st := mkFac B (fun b => match b with O => 1 | _ => 4 end) (fun i j => match i, j with O, O => 3 / 5 | O, _ => - (4 / 5) | _, O => 4 / 5 | _, _ => 3 / 5 end) (fun m p => INR (m + p O)) (fun _ _ _ => Cplx.c0) in
  let W := fun (_ : nat) (p : index) => if Nat.eqb (p 0%nat) 1 then 0 else 1 in
  let F := pdgj_objective (fun _ => 3%nat) (fun _ => 2%nat) [O] 2 2 2 (fun m p => INR (m + p O)) B (fun c p => INR (c + p O)) W (fun _ => O) (1/2) (fun m => INR m) (1/10) (fun j => INR j + 1) in
  exists p, argmin (fun _ => True) F p /\ forall i, (i < 12)%nat ->
    Un_cv (fun k => pdg_getcoef (fun _ => 3%nat) [O] 2 (pdgj_iterate (fun _ => 3%nat) (fun _ => 2%nat) [O] 2 2 2 (fun c p => INR (c + p O)) st (fun _ => O) (1/2) (fun m => INR m)
      (18/10) 2 (1/10) (fun j => INR j + 1) (cs_flat (fun _ => 3%nat) [O] (fun _ => O) W) k (mkState (fun _ => 0) (fun _ => 0) (fun _ => 0) (fun _ => 0))) i) (p i).
Proof.
  intros B st W F.
  assert (ND : NoDup [O]) by (constructor; [intros []|constructor]).
  assert (He : eigen 2 (gram 2 (f_B st)) (f_Gamma st) (f_Q st)).
  { split; [|split]; intros i j Hi Hj; destruct i as [|[|i]]; try lia; destruct j as [|[|j]]; try lia; unfold delta, gram; cbn; lra. }
  assert (HW : forall c k, (c < 2)%nat -> (k < size (fun _ => 3%nat) [O])%nat -> 0 <= W c (place (fun _ => 3%nat) [O] (fun _ => O) k)) by (intros c k _ _; unfold W; destruct (Nat.eqb _ 1); lra).
  assert (Pi : forall k, 0 <= INR k) by (intros; apply pos_INR).
  assert (Ex : exists p, argmin (fun _ => True) F p).
  { apply (C85_joint_exists (fun _ => 3%nat) (fun _ => 2%nat) [O] 2 2 2 (fun c p => INR (c + p O)) W st (fun _ => O) (1/2) (fun m => INR m) (1/10)); try assumption; try discriminate; try lia; try lra; intros; cbv beta; try lia; try apply Pi; try (specialize (Pi j); lra). }
  destruct (C85_joint_limit (fun _ => 3%nat) (fun _ => 2%nat) [O] 2 2 2 (fun c p => INR (c + p O)) W st (fun _ => O) (1/2) (fun m => INR m) 2 (18/10) (1/10) ND ltac:(discriminate) ltac:(intros; cbv beta; lia) ltac:(lia) ltac:(lia) He ltac:(lra) ltac:(lra) ltac:(intros; apply Pi) ltac:(lra) HW
     (fun j => INR j + 1) ltac:(intros j _; specialize (Pi j); cbv beta; lra) (mkState (fun _ : nat => 0) (fun _ : nat => 0) (fun _ : nat => 0) (fun _ : nat => 0)) ltac:(lra) Ex) as (p & A & C' & _).
  exists p. split; [exact A|]. intros i Hi. apply (C' i). cbn [size]. lia.
Qed.
