(** C83: the proximal gradient solvers for convolutional sparse coding in any number of dimensions. *)
Require Import List Arith ZArith Reals Bool Lia Lra FunctionalExtensionality.
Require Import Verif.RVec Verif.Cplx Verif.FftModel Verif.FftProofs Verif.FftInv Verif.FftProps Verif.AdmmSpec Verif.AdmmProps Verif.StepsModel Verif.StepsSpec Verif.StepsProofs Verif.ProxModel.
Require Import Verif.CscModel Verif.CscSpec Verif.CscIterModel Verif.CscIterProofs Verif.PgmModel Verif.PgmSpec Verif.PgmProofs Verif.PgmProps.
Require Import Verif.CcmFit Verif.PgnModel Verif.PgnSpec Verif.PgnProofs.
Require Verif.PgmConvProofs.
Import ListNotations.
Local Open Scope R_scope.

Section main.
Variables (Nv dsh : nat -> nat) (dN B Cd M : nat) (D : nat -> nat -> index -> R) (S : nat -> index -> R).
Hypothesis HN : (0 < dN)%nat.
Hypothesis HB : (0 < B)%nat.
Hypothesis HC : (0 < Cd)%nat.
Hypothesis Hs : forall a, (a < dN)%nat -> (0 < Nv a)%nat.
Notation nv := (pshape Nv dN B).
Notation P := (pP Nv dN B).
Notation n := (M * P)%nat.
Notation maps := (arr nv (paxB dN)).
Notation fwd := (pn_fwd Nv dN B M).
Notation inv := (pn_inv Nv dN B).
Notation one := (fun (_ : nat) (_ : index) => 1).
Notation fit w := (pfit nv dsh dN B Cd M maps D S w).
Notation grad := (pn_grad Nv dsh dN B Cd M D S).
Notation mgrad w := (pnm_grad Nv dsh dN B Cd M D S w).
Notation Dq := (pn_Df Nv dsh dN B D).

Lemma fwd_add x y : padd (fwd x) (fwd y) = fwd (fun i => x i + y i).
Proof.
  assert (E : (fun i : nat => x i + y i) = (fun i => x i + 1 * y i)) by (extensionality i; ring). rewrite E, (fwd_lin Nv dN B Cd M HN HB HC Hs). f_equal.
  extensionality m. extensionality k. unfold pscal. set (a := fwd y m k). destruct a as [a1 a2]. unfold cmul, ofR, re, im. cbn [fst snd]. f_equal; ring.
Qed.
Lemma fwd_scal r x : pscal r (fwd x) = fwd (fun i => r * x i).
Proof.
  assert (E : (fun i : nat => r * x i) = (fun i => (fun _ => 0) i + r * x i)) by (extensionality i; ring). rewrite E, (fwd_lin Nv dN B Cd M HN HB HC Hs).
  assert (E0 : forall m k, fwd (fun _ => 0) m k = c0).
  { intros m k. unfold pn_fwd, pcut. destruct (_ && _)%bool; [|reflexivity]. change (paxN dN) with (seq 0 dN).
    transitivity (rfftn nv (seq 0 dN) (fun p => 0 * 0 + 0 * 0) (pat Nv dN B k)); [apply (f_equal (fun h => rfftn nv (seq 0 dN) h (pat Nv dN B k))); extensionality p; unfold arr; ring|].
    rewrite (rfftn_lin nv (seq 0 dN) 0 (fun _ => 0) 0 (fun _ => 0)) by (apply (axes_ne Nv dN B Cd HN HB HC Hs)). set (a := rfftn _ _ _ _). unfold cadd, cmul, ofR, c0, re, im. cbn [fst snd]. f_equal; ring. }
  extensionality m. extensionality k. unfold padd. rewrite E0. set (a := pscal r (fwd x) m k). destruct a as [a1 a2]. unfold cadd, c0, re, im. cbn [fst snd]. f_equal; ring.
Qed.
Lemma inv_agree x : agree n (inv (fwd x)) x.
Proof. intros i Hi. apply (inv_fwd Nv dN B Cd M HN HB HC Hs). exact Hi. Qed.

(** ** The gradient, the value and the Hessian of the data term *)
Lemma grad_of (w : nat -> index -> R) gr : (forall x, gr (fwd x) = fwd (gw Nv dsh dN B Cd M D S w x)) -> is_gradient n (fit w) (fun x => inv (gr (fwd x))).
Proof.
  intros Hg x d. pose proof (qf_gradient n _ _ _ (fw_exp Nv dsh dN B Cd M D S HN HB HC Hs w) (qw_nonneg Nv dsh dN B Cd M D w) x d) as G.
  assert (E : dot n (inv (gr (fwd x))) d = dot n (gw Nv dsh dN B Cd M D S w x) d).
  { apply sumn_ext. intros i Hi. rewrite Hg. rewrite (inv_agree _ i Hi). reflexivity. }
  rewrite E. replace (fun t : R => fit w (fun i => x i + t * d i)) with (fun t : R => fw Nv dsh dN B Cd M D S w (fun i => x i + t * d i)); [exact G|].
  extensionality t. apply (fw_pfit Nv dsh dN B Cd M D S HN HB HC).
Qed.
(** grad_f computes the gradient of the data term, without and with the mask. *)
Theorem C83_gradient : is_gradient n (fit one) (fun x => inv (grad (fwd x))).
Proof. apply grad_of. intros x. apply (gw_plain Nv dsh dN B Cd M D S HN HB HC Hs one). reflexivity. Qed.
Theorem C83_gradient_mask w : is_gradient n (fit w) (fun x => inv (mgrad w (fwd x))).
Proof. apply grad_of. intros x. apply (gw_masked Nv dsh dN B Cd M D S HN HB HC Hs w). Qed.
(** obfn_dfd computes its value from the half spectrum. *)
Theorem C83_value x : pn_dfd Nv dsh dN B Cd M D S (fwd x) = fit one x.
Proof. rewrite (dfd_plain Nv dsh dN B Cd M D S HN HB HC Hs one) by reflexivity. apply (fw_pfit Nv dsh dN B Cd M D S HN HB HC). Qed.
Theorem C83_value_mask w x : pnm_dfd Nv dsh dN B Cd M D S w (fwd x) = fit w x.
Proof. rewrite (dfd_masked Nv dsh dN B Cd M D S HN HB HC Hs w). apply (fw_pfit Nv dsh dN B Cd M D S HN HB HC). Qed.
(** hessian_f is the derivative of grad_f. *)
Theorem C83_hessian x t d : grad (fwd (fun i => x i + t * d i)) = padd (grad (fwd x)) (pscal t (pn_hess Nv dsh dN B Cd M D (fwd d))).
Proof.
  rewrite (fwd_lin Nv dN B Cd M HN HB HC Hs). extensionality m. extensionality k. unfold pn_grad, pn_hess, padd, pscal, pcut. destruct (_ && _)%bool; [|unfold cadd, cmul, ofR, c0, re, im; cbn [fst snd]; f_equal; ring].
  change (fun m0 k0 => cadd (fwd x m0 k0) (cmul (ofR t) (fwd d m0 k0))) with (padd (fwd x) (pscal t (fwd d))).
  rewrite <- csumn_scal, <- csumn_plus. apply csumn_ext. intros c _.
  assert (E : pn_syn Nv dsh dN B M D (padd (fwd x) (pscal t (fwd d))) c (pat Nv dN B k) = cadd (pn_syn Nv dsh dN B M D (fwd x) c (pat Nv dN B k)) (cmul (ofR t) (pn_syn Nv dsh dN B M D (fwd d) c (pat Nv dN B k)))).
  { unfold pn_syn. rewrite <- csumn_scal, <- csumn_plus. apply csumn_ext. intros j _. unfold pn_un, padd, pscal. ring. }
  unfold pn_Rf. rewrite E. ring.
Qed.
(** reconstruct returns the sum of the convolutions. *)
Theorem C83_reconstruct x c p : (c < Cd)%nat -> (forall a, (a < dN)%nat -> (p a < Nv a)%nat) -> (p dN < B)%nat -> (forall a, (dN < a)%nat -> p a = O) ->
  pn_recon Nv dsh dN B M D x c p = pmodel nv dsh dN M maps D x c p.
Proof.
  intros _ H1 H2 H3. assert (Hp : on_slice nv (paxB dN) idx0 p).
  { split; intros a Ha; rewrite (axB_in dN B Cd HN HB HC) in Ha; [|apply H3; lia]. destruct (Nat.eq_dec a dN) as [->|N]; [rewrite nv_dN; exact H2|rewrite nv_sp by lia; apply H1; lia]. }
  unfold pn_recon. change (paxN dN) with (seq 0 dN). rewrite <- (sy_pmodel Nv dsh dN B Cd M D HN HB HC).
  set (y := synth nv nv (seq 0 dN) M (fun c m => padR dsh (seq 0 dN) (pD dN D c m)) (CcmSpec.filt dN (dd Nv dN B x)) c).
  transitivity (irfftn nv (seq 0 dN) (rfftn nv (seq 0 dN) y) p).
  - apply irfftn_slice; [apply seq_NoDup|apply (axes_ne Nv dN B Cd HN HB HC Hs)|apply (onB_self Nv dN B Cd HN HB HC); exact Hp|]. intros i Hi. apply (syn_spec Nv dsh dN B Cd M D HN HB HC Hs). apply (on_sub Nv dN B Cd HN HB HC p i Hp Hi).
  - apply (inv_rfft nv (seq 0 dN) y); [apply seq_NoDup|apply (axes_ne Nv dN B Cd HN HB HC Hs)|apply (onB_inr Nv dN B Cd HN HB HC); exact Hp].
Qed.

(** ** Convergence *)
(** [L] bounds the gain of the dictionary at every frequency. *)
Definition gain (L : R) : Prop := forall i v, (forall a, (a < dN)%nat -> (i a < Nv a)%nat) ->
  sumn Cd (fun c => cabs2 (csumn M (fun m => cmul (Dq c m i) (v m)))) <= L * sumn M (fun m => cabs2 (v m)).
(** A bound from the spectra of the filters, which is sharp for one channel. *)
Theorem C83_gain L : (forall i, (forall a, (a < dN)%nat -> (i a < Nv a)%nat) -> sumn Cd (fun c => sumn M (fun m => cabs2 (Dq c m i))) <= L) -> gain L.
Proof.
  intros H i v Hi. eapply Rle_trans; [|apply Rmult_le_compat_r; [apply sumn_nonneg; intros; apply cabs2_nonneg|apply (H i Hi)]].
  rewrite <- sumn_scal_r. apply sumn_le. intros c _. apply PgmConvProofs.cs_cplx.
Qed.
Theorem C83_gain_one L : Cd = 1%nat -> 0 <= L -> (gain L <-> forall i, (forall a, (a < dN)%nat -> (i a < Nv a)%nat) -> sumn M (fun m => cabs2 (Dq O m i)) <= L).
Proof.
  intros E1 HL. split.
  - intros H i Hi. specialize (H i (fun m => conj (Dq O m i)) Hi). rewrite E1 in H. cbn [sumn] in H. rewrite Rplus_0_l in H.
    assert (Q : csumn M (fun m => cmul (Dq O m i) (conj (Dq O m i))) = ofR (sumn M (fun m => cabs2 (Dq O m i)))).
    { rewrite <- csumn_ofR. apply csumn_ext. intros m _. unfold cmul, conj, ofR, cabs2, re, im. cbn [fst snd]. f_equal; ring. }
    rewrite Q in H. rewrite (sumn_ext M (fun m => cabs2 (conj (Dq O m i))) (fun m => cabs2 (Dq O m i))) in H by (intros; apply cabs2_conj).
    set (T := sumn M (fun m => cabs2 (Dq O m i))) in *. assert (T0 : 0 <= T) by (apply sumn_nonneg; intros; apply cabs2_nonneg).
    assert (H' : T * T <= L * T) by (unfold cabs2, ofR, re, im in H; cbn [fst snd] in H; lra).
    destruct (Req_dec T 0) as [->|NZ]; [exact HL|]. apply (Rmult_le_reg_r T); lra.
  - intros H. apply C83_gain. intros i Hi. rewrite E1. cbn [sumn]. rewrite Rplus_0_l. apply H. exact Hi.
Qed.

Variables (z : nat -> bool) (nonneg : bool) (lmbda : R) (wl1 : vec).
Hypothesis Hlam : 0 <= lmbda.
Hypothesis Hwl1 : forall i, (i < n)%nat -> 0 <= wl1 i.
Notation E := (masked n z nonneg).
Notation prox := (pn_prox z nonneg lmbda wl1).
Notation g := (pn_reg Nv dN B M lmbda wl1).
Notation obj w := (pobjective nv dsh dN B Cd M n maps D S w lmbda wl1).
Notation drun_ dfd gr mono mom K X0 L := (drun pspec padd pscal fwd inv dfd g gr prox mono mom K (dinit pspec fwd X0 L)).

Section gen.
Variables (w : nat -> index -> R) (dfd : pspec -> R) (gr : pspec -> pspec) (W2 L0 L : R).
Hypothesis Hd : forall x, dfd (fwd x) = fw Nv dsh dN B Cd M D S w x.
Hypothesis Hg : forall x, gr (fwd x) = fwd (gw Nv dsh dN B Cd M D S w x).
Hypothesis HW0 : 0 <= W2.
Hypothesis HL0 : 0 <= L0.
Hypothesis HL : 0 < L.
Hypothesis HLW : W2 * L0 <= L.
Hypothesis Hw : forall c p, (c < Cd)%nat -> on_slice nv (paxB dN) idx0 p -> w c p * w c p <= W2.
Hypothesis HG : gain L0.
Notation f := (fw Nv dsh dN B Cd M D S w).
Notation gf := (gw Nv dsh dN B Cd M D S w).
Lemma G1 : is_gradient n f gf. Proof. apply (qf_gradient n _ _ _ (fw_exp Nv dsh dN B Cd M D S HN HB HC Hs w) (qw_nonneg Nv dsh dN B Cd M D w)). Qed.
Lemma G2 : convex_on (fun _ => True) f. Proof. apply (qf_convex n _ _ _ (fw_exp Nv dsh dN B Cd M D S HN HB HC Hs w) (qw_nonneg Nv dsh dN B Cd M D w)). Qed.
Lemma G3 x y : majorises n f gf L x y.
Proof.
  apply (qf_maj n _ _ _ (fw_exp Nv dsh dN B Cd M D S HN HB HC Hs w)). intros d.
  eapply Rle_trans; [apply (qw_bound Nv dsh dN B Cd M D HN HB HC Hs w L0 W2 HL0 HW0 Hw)|].
  - intros i v [Hi _]. apply HG. intros a Ha. rewrite <- (nv_sp Nv dN B a Ha). apply Hi. apply (axB_in dN B Cd HN HB HC). lia.
  - apply Rmult_le_compat_r; [apply nrm2_nonneg|lra].
Qed.
Lemma FE x : obj w x = eval_objfn f g x.
Proof. unfold pobjective, eval_objfn. rewrite (fw_pfit Nv dsh dN B Cd M D S HN HB HC w). reflexivity. Qed.
Lemma argmin_F xs : argmin E (obj w) xs -> argmin E (eval_objfn f g) xs.
Proof. intros [A C]. split; [exact A|]. intros y Hy. rewrite <- !FE. apply C, Hy. Qed.
Lemma F_agree x y : agree n x y -> obj w x = obj w y.
Proof. intros H. rewrite !FE. unfold eval_objfn. rewrite (reg_agree Nv dN B M lmbda wl1 x y H). f_equal. apply (f_local n f gf G2 G1). exact H. Qed.
Lemma rate X0 K xs : argmin E (obj w) xs ->
  obj w (dX pspec (drun_ dfd gr false Nesterov (Datatypes.S K) X0 L)) - obj w xs <= 2 * L * nrm2 n (fun i => X0 i - xs i) / (INR (Datatypes.S K) + 1) ^ 2.
Proof.
  intros Hxs. destruct (C42_dft_same n f g gf gf prox false false Nesterov pspec padd pscal fwd inv dfd gr
    fwd_add fwd_scal (fwd_local Nv dN B Cd M HN HB HC Hs) inv_agree Hd Hg (prox_agree Nv dN B M z nonneg lmbda wl1) (reg_agree Nv dN B M lmbda wl1) X0 L (Datatypes.S K) eq_refl) as (st & ER & EA).
  pose proof (C42_rate_fixed n E f g gf gf prox false false Nesterov G2 G1 (reg_convex Nv dN B M z nonneg lmbda wl1 Hlam) (prox_min Nv dN B M z nonneg lmbda wl1 Hlam Hwl1) xs (argmin_F xs Hxs) X0 L K st HL ltac:(discriminate) G3 C41_nesterov_accelerates ER) as H.
  pose proof (nesterov_rate (L * nrm2 n (fun i => X0 i - xs i)) K ltac:(apply Rmult_le_pos; [lra|apply nrm2_nonneg])) as H2.
  rewrite (F_agree _ _ EA), !FE. rewrite S_INR. replace (INR K + 1 + 1) with (INR K + 2) by ring. rewrite <- Rmult_assoc in H2. lra.
Qed.
Lemma rate_mono X0 K xs : E X0 -> argmin E (obj w) xs ->
  let d := drun_ dfd gr true Nesterov (Datatypes.S K) X0 L in
  obj w (inv (dXf pspec d)) - obj w xs <= 2 * L * nrm2 n (fun i => X0 i - xs i) / (INR (Datatypes.S K) + 1) ^ 2.
Proof.
  intros H0 Hxs d. destruct (C39_dft n f g gf gf prox true false Nesterov pspec padd pscal fwd inv dfd gr
    fwd_add fwd_scal (fwd_local Nv dN B Cd M HN HB HC Hs) inv_agree Hd Hg (prox_agree Nv dN B M z nonneg lmbda wl1) (reg_agree Nv dN B M lmbda wl1) X0 L K eq_refl) as (st & ER & EA & _).
  pose proof (C42_rate_fixed n E f g gf gf prox true false Nesterov G2 G1 (reg_convex Nv dN B M z nonneg lmbda wl1 Hlam) (prox_min Nv dN B M z nonneg lmbda wl1 Hlam Hwl1) xs (argmin_F xs Hxs) X0 L K st HL ltac:(intros _; exact H0) G3 C41_nesterov_accelerates ER) as H.
  pose proof (nesterov_rate (L * nrm2 n (fun i => X0 i - xs i)) K ltac:(apply Rmult_le_pos; [lra|apply nrm2_nonneg])) as H2.
  unfold d. rewrite EA, (F_agree _ _ (inv_agree (getmin st))), !FE. rewrite S_INR. replace (INR K + 1 + 1) with (INR K + 2) by ring. rewrite <- Rmult_assoc in H2. lra.
Qed.
Lemma first_step mono mom X0 : agree n (dX pspec (drun_ dfd gr mono mom 1 X0 L)) (pstep gf prox L X0).
Proof.
  rewrite drun_first. unfold pstep. apply prox_agree. unfold wsub. rewrite Hg, !fwd_scal, fwd_add. intros i Hi. rewrite (inv_agree _ i Hi). ring.
Qed.
Lemma fixed mono mom X0 : agree n (dX pspec (drun_ dfd gr mono mom 1 X0 L)) X0 <-> argmin E (obj w) X0.
Proof.
  pose proof (first_step mono mom X0) as H1. split.
  - intros H. assert (HF : forall i, (i < n)%nat -> pstep gf prox L X0 i = X0 i) by (intros i Hi; rewrite <- (H1 i Hi); apply H; exact Hi).
    destruct (C42_fixed_optimal n E f g gf prox G2 G1 (reg_convex Nv dN B M z nonneg lmbda wl1 Hlam) (prox_min Nv dN B M z nonneg lmbda wl1 Hlam Hwl1) L X0 HL HF) as [[A1 A2] A3]. split.
    + split; [intros Hn i Hi; rewrite <- (HF i Hi); apply A1; assumption|intros i Hi Hz; rewrite <- (HF i Hi); apply A2; assumption].
    + intros y Hy. rewrite <- (F_agree _ _ HF), !FE. apply A3. exact Hy.
  - intros H i Hi. rewrite (H1 i Hi).
    exact (C42_optimal_fixed n E f g gf prox G2 G1 (reg_convex Nv dN B M z nonneg lmbda wl1 Hlam) (prox_min Nv dN B M z nonneg lmbda wl1 Hlam Hwl1) L X0 HL (argmin_F X0 H) (G3 _ _) i Hi).
Qed.
End gen.

Notation run_ mono mom K X0 L := (pn_run Nv dsh dN B Cd M D S z nonneg lmbda wl1 mono mom K X0 L).
Notation runm w mono mom K X0 L := (pnm_run Nv dsh dN B Cd M D S w z nonneg lmbda wl1 mono mom K X0 L).
Lemma plain_dfd x : pn_dfd Nv dsh dN B Cd M D S (fwd x) = fw Nv dsh dN B Cd M D S one x.
Proof. apply (dfd_plain Nv dsh dN B Cd M D S HN HB HC Hs one). reflexivity. Qed.
Lemma plain_grad x : grad (fwd x) = fwd (gw Nv dsh dN B Cd M D S one x).
Proof. apply (gw_plain Nv dsh dN B Cd M D S HN HB HC Hs one). reflexivity. Qed.
Lemma one_le c p : (c < Cd)%nat -> on_slice nv (paxB dN) idx0 p -> one c p * one c p <= 1.
Proof. intros _ _. lra. Qed.
(** ConvBPDN with the default momentum: the objective after K + 1 iterations, for every step parameter at least the gain of the
    dictionary, against every minimiser over the coefficients that are non-negative (NonNegCoef) and zero on [z] (NoBndryCross). *)
Theorem C83_rate X0 L K xs : 0 < L -> gain L -> argmin E (obj one) xs ->
  obj one (run_ false Nesterov (Datatypes.S K) X0 L) - obj one xs <= 2 * L * nrm2 n (fun i => X0 i - xs i) / (INR (Datatypes.S K) + 1) ^ 2.
Proof. intros HL HG Hx. apply (rate one _ _ 1 L L plain_dfd plain_grad); try assumption; try lra. exact one_le. Qed.
(** The solution is unchanged by an iteration from a start exactly if the start is optimal. *)
Theorem C83_fixed mono mom X0 L : 0 < L -> gain L ->
  ((forall i, (i < n)%nat -> run_ mono mom 1 X0 L i = X0 i) <-> argmin E (obj one) X0).
Proof. intros HL HG. apply (fixed one _ _ 1 L L plain_grad); try assumption; try lra. exact one_le. Qed.
(** The masked problem: the gain is multiplied by a bound on the squared mask. *)
Theorem C83_mask_rate w W2 L0 X0 L K xs : 0 <= W2 -> 0 <= L0 -> 0 < L -> W2 * L0 <= L -> gain L0 ->
  (forall c p, (c < Cd)%nat -> (forall a, (a < dN)%nat -> (p a < Nv a)%nat) -> (p dN < B)%nat -> w c p ^ 2 <= W2) ->
  argmin E (obj w) xs ->
  obj w (runm w false Nesterov (Datatypes.S K) X0 L) - obj w xs <= 2 * L * nrm2 n (fun i => X0 i - xs i) / (INR (Datatypes.S K) + 1) ^ 2.
Proof.
  intros HW0 HL0 HL HLW HG Hw Hx. apply (rate w _ _ W2 L0 L); try assumption.
  - intros x. apply (dfd_masked Nv dsh dN B Cd M D S HN HB HC Hs w).
  - intros x. apply (gw_masked Nv dsh dN B Cd M D S HN HB HC Hs w).
  - intros c p Hc [Hp _]. replace (w c p * w c p) with (w c p ^ 2) by ring. apply Hw; [exact Hc| |].
    + intros a Ha. rewrite <- (nv_sp Nv dN B a Ha). apply Hp. apply (axB_in dN B Cd HN HB HC). lia.
    + pose proof (Hp dN ltac:(apply (axB_in dN B Cd HN HB HC); lia)) as Q. rewrite (nv_dN Nv dN B) in Q. exact Q.
Qed.
Theorem C83_mask_fixed w W2 L0 mono mom X0 L : 0 <= W2 -> 0 <= L0 -> 0 < L -> W2 * L0 <= L -> gain L0 ->
  (forall c p, (c < Cd)%nat -> (forall a, (a < dN)%nat -> (p a < Nv a)%nat) -> (p dN < B)%nat -> w c p ^ 2 <= W2) ->
  ((forall i, (i < n)%nat -> runm w mono mom 1 X0 L i = X0 i) <-> argmin E (obj w) X0).
Proof.
  intros HW0 HL0 HL HLW HG Hw. apply (fixed w _ _ W2 L0 L); try assumption.
  - intros x. apply (gw_masked Nv dsh dN B Cd M D S HN HB HC Hs w).
  - intros c p Hc [Hp _]. replace (w c p * w c p) with (w c p ^ 2) by ring. apply Hw; [exact Hc| |].
    + intros a Ha. rewrite <- (nv_sp Nv dN B a Ha). apply Hp. apply (axB_in dN B Cd HN HB HC). lia.
    + pose proof (Hp dN ltac:(apply (axB_in dN B Cd HN HB HC); lia)) as Q. rewrite (nv_dN Nv dN B) in Q. exact Q.
Qed.
(** With the monotone option, the same bound for the transformed solution Xf (the attribute X, which getcoef and reconstruct use, can be a
    rejected candidate: C39_dft_refuted). *)
Theorem C83_mono_rate X0 L K xs : 0 < L -> gain L -> E X0 -> argmin E (obj one) xs ->
  let d := drun pspec padd pscal fwd inv (pn_dfd Nv dsh dN B Cd M D S) g grad prox true Nesterov (Datatypes.S K) (dinit pspec fwd X0 L) in
  obj one (inv (dXf pspec d)) - obj one xs <= 2 * L * nrm2 n (fun i => X0 i - xs i) / (INR (Datatypes.S K) + 1) ^ 2.
Proof. intros HL HG H0 Hx. apply (rate_mono one _ _ 1 L L plain_dfd plain_grad); try assumption; try lra. exact one_le. Qed.
End main.
Print Assumptions C83_gradient. Print Assumptions C83_gradient_mask. Print Assumptions C83_value. Print Assumptions C83_value_mask. Print Assumptions C83_hessian.
Print Assumptions C83_reconstruct. Print Assumptions C83_gain. Print Assumptions C83_gain_one. Print Assumptions C83_rate. Print Assumptions C83_fixed.
Print Assumptions C83_mask_rate. Print Assumptions C83_mask_fixed. Print Assumptions C83_mono_rate.

(** A concrete case: two signals (3, 1) and (0, -2), one filter which is a unit impulse, lambda = 1.  The gain is 1 and the solution is
    (2, 0), (0, -1). *)
Definition x3_Nv : nat -> nat := fun _ => 2%nat.
Definition x3_S (c : nat) (p : index) : R := match p 1%nat, p O with O, O => 3 | O, _ => 1 | _, O => 0 | _, _ => -2 end.
Definition x3_x : vec := fun i => match i with O => 2 | 3%nat => -1 | _ => 0 end.
Example C83_instance :
  gain x3_Nv (fun _ => 1%nat) 1 2 1 1 (fun _ _ _ => 1) 1 /\
  argmin (masked 4 (fun _ => false) false) (pobjective (pshape x3_Nv 1 2) (fun _ => 1%nat) 1 2 1 1 4 (arr (pshape x3_Nv 1 2) (paxB 1)) (fun _ _ _ => 1) x3_S (fun _ _ => 1) 1 (fun _ => 1)) x3_x.
Proof.
  split.
  - apply C83_gain. intros i Hi. cbn [sumn]. rewrite !Rplus_0_l. unfold pn_Df, Df, rfftn, paxN. cbn [seq last removelast]. unfold fftn. cbn [fold_right].
    unfold dft_ax, dft. change (pshape x3_Nv 1 2 O) with 2%nat. unfold csumn. cbn [sumn].
    change (padR (fun _ => 1%nat) [O] (pD 1 (fun _ _ _ => 1) 0 0) (upd i O O)) with 1. change (padR (fun _ => 1%nat) [O] (pD 1 (fun _ _ _ => 1) 0 0) (upd i O 1)) with 0.
    assert (R0 : forall k, ru 2 (- (Z.of_nat 0 * k)) = c1) by (intros k; unfold ru; rewrite Z.mul_0_l; cbn [Z.opp]; unfold Rdiv; rewrite Rmult_0_r, Rmult_0_l; unfold cis; rewrite cos_0, sin_0; reflexivity).
    rewrite R0. set (r := ru 2 _). unfold cabs2, cmul, ofR, c1, re, im. cbn [fst snd]. apply Req_le. ring.
  - split; [split; [intros; discriminate|intros; discriminate]|]. intros y _. unfold pobjective, pfit, pmodel, l1reg, sqn. cbn [seq sumn total]. change (pshape x3_Nv 1 2 O) with 2%nat. cbn [sumn].
    assert (EX : forall X c p, (p O < 2)%nat -> synth (pshape x3_Nv 1 2) (fun _ => 1%nat) [O] 1 (pdict 1 (fun _ _ _ => 1)) X c p = X O p).
    { intros X c p Hp. unfold synth, conv. cbn [sumn total]. change (pshape x3_Nv 1 2 O) with 2%nat. cbn [sumn].
      change (ext (fun _ => 1%nat) [O] (pdict 1 (fun _ _ _ => 1) c 0) (set_at p O O)) with 1. change (ext (fun _ => 1%nat) [O] (pdict 1 (fun _ _ _ => 1) c 0) (set_at p O 1%nat)) with 0.
      assert (E : minus (pshape x3_Nv 1 2) [O] p (set_at p O O) = p).
      { extensionality a. unfold minus. destruct a as [|a]; cbn [existsb Nat.eqb orb]; [|reflexivity]. change (pshape x3_Nv 1 2 O) with 2%nat. change (set_at p O O O) with O.
        destruct (p O) as [|[|k]]; [reflexivity|reflexivity|lia]. }
      rewrite E. ring. }
    rewrite !EX by (unfold set_at, slice; simpl; lia).
    unfold arr, rank, paxB, set_at, slice, x3_S, x3_x. cbn -[Rmult Rplus Ropp Rinv Rminus IZR Rdiv Rabs].
    set (a := y 0%nat). set (b := y 1%nat). set (c := y 2%nat). set (d := y 3%nat).
    pose proof (Rle_abs (1 * a)) as A1. pose proof (Rle_abs (1 * b)) as A2. pose proof (Rabs_pos (1 * c)) as A3. pose proof (Rle_abs (- (1 * d))) as A4. rewrite Rabs_Ropp in A4.
    rewrite (Rabs_pos_eq (1 * 2)), (Rabs_pos_eq (1 * 0)), (Rabs_left (1 * -1)) by lra.
    pose proof (Rle_0_sqr (a - 2)) as Q1. pose proof (Rle_0_sqr b) as Q2. pose proof (Rle_0_sqr c) as Q3. pose proof (Rle_0_sqr (d + 1)) as Q4. unfold Rsqr in *. lra.
Qed.
