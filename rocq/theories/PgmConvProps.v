(** C40, C42: the convolutional solvers pgm.cbpdn.ConvBPDN and ConvBPDNMask. *)
Require Import List Arith ZArith Reals Lra Lia Bool FunctionalExtensionality.
Require Import Verif.RVec Verif.Cplx Verif.FftModel Verif.FftProofs Verif.AdmmSpec Verif.StepsModel Verif.StepsSpec Verif.StepsProofs Verif.ProxModel Verif.ProxProofs.
Require Import Verif.PgmModel Verif.PgmSpec Verif.PgmProofs Verif.PgmRate Verif.PgmProps Verif.PgmConvModel Verif.PgmConvSpec Verif.PgmConvProofs.
Import ListNotations.
Local Open Scope R_scope.

Section cb.
Variables (N M : nat) (D : nat -> nat -> R) (s Wm : vec) (lmbda : R) (wl1 : vec) (nonneg : bool).
Hypothesis HN : (0 < N)%nat.
Hypothesis Hlam : 0 <= lmbda.
Hypothesis Hwl1 : forall p, (p < M * N)%nat -> 0 <= wl1 p.
Notation n := (M * N)%nat.
Notation E := (nonneg_set nonneg n).
Notation g := (pb_g M N lmbda wl1).
Notation prox := (pb_prox lmbda wl1 nonneg).
Notation run dfd grad mono K X0 L := (dX spec (drun spec wadd2 wscal2 (cb_fwd N M) (cb_inv N) dfd g grad prox mono Nesterov K (dinit spec (cb_fwd N M) X0 L))).
Lemma prox_agree L x y : agree n x y -> agree n (prox L x) (prox L y).
Proof. intros H i Hi. unfold pb_prox, clip, prox_l1. rewrite (H i Hi). reflexivity. Qed.
Lemma g_agree x y : agree n x y -> g x = g y.
Proof. intros H. unfold pb_g. f_equal. apply sumn_ext. intros i Hi. rewrite (H i Hi). reflexivity. Qed.
(** FISTA bound for ConvBPDN: the solution returned after K + 1 iterations, against every minimiser of the problem stated in the signal
    domain, for every L at least the largest gain  max_k sum_m |D_m(k)|^2  of the dictionary. *)
Theorem C42_cbpdn X0 L K xs : 0 < L -> (forall k, (k < N)%nat -> sumn M (fun m => cabs2 (cb_Df N D m k)) <= L) ->
  let F x := lsq N (cconv N M D) s x + l1reg n lmbda wl1 x in
  argmin E F xs ->
  F (run (cb_dfd N M D s) (cb_grad N M D s) false (S K) X0 L) - F xs <= 2 * L * nrm2 n (fun i => X0 i - xs i) / (INR (S K) + 1) ^ 2.
Proof.
  intros HL HD F Hxs. set (f := lsq N (cconv N M D) s). set (grad := fun x => ccorr N D (fun j => cconv N M D x j - s j)).
  destruct (C42_dft_same n f g grad grad prox false false Nesterov spec wadd2 wscal2 (cb_fwd N M) (cb_inv N) (cb_dfd N M D s) (cb_grad N M D s)
    (fwd_add2 N M) (fwd_scal2 N M) (fwd_local2 N M HN) (fun x i Hi => inv_fwd2 N M HN x i Hi) (dfd_eq N M D s HN) (grad_eq N M D s) prox_agree g_agree X0 L (S K) eq_refl) as (st & ER & EA).
  assert (Hf : forall x, f x = lsq N (cconv N M D) s x) by reflexivity.
  assert (Hg : forall x i, (i < n)%nat -> grad x i = ccorr N D (cconv N M D x) i - ccorr N D s i) by (intros; apply ccorr_sub).
  pose proof (lsq_class_gradient n N (cconv N M D) (ccorr N D) s f grad (cconv_linear N M D) (cconv_adjoint N M D HN) Hf Hg) as G1.
  pose proof (lsq_class_convex N (cconv N M D) s f (cconv_linear N M D) Hf) as G2.
  pose proof (lsq_class_maj n N (cconv N M D) (ccorr N D) s f grad (cconv_linear N M D) (cconv_adjoint N M D HN) Hf Hg L (cconv_bound N M D s HN L HD)) as G3.
  pose proof (C42_rate_fixed n E f g grad grad prox false false Nesterov G2 G1 (pb_g_convex M N lmbda wl1 nonneg Hlam) (pb_prox_min M N lmbda wl1 nonneg Hlam Hwl1) xs Hxs X0 L K st HL ltac:(discriminate) G3 C41_nesterov_accelerates ER) as H.
  pose proof (nesterov_rate (L * nrm2 n (fun i => X0 i - xs i)) K ltac:(apply Rmult_le_pos; [lra|apply nrm2_nonneg])) as H2.
  set (x := run (cb_dfd N M D s) (cb_grad N M D s) false (S K) X0 L) in *.
  assert (EF : F x = eval_objfn f g (getmin st)).
  { unfold F, eval_objfn. change (l1reg n lmbda wl1 x) with (g x). rewrite (g_agree x (getmin st) EA). f_equal. fold f. apply (f_local n f grad G2 G1). exact EA. }
  rewrite EF. change (F xs) with (eval_objfn f g xs).
  rewrite S_INR. replace (INR K + 1 + 1) with (INR K + 2) by ring. rewrite <- Rmult_assoc in H2. lra.
Qed.
(** The masked problem: the mask enters squared in the gradient. *)
Theorem C42_cbpdn_mask X0 L K xs : 0 < L -> (forall k, (k < N)%nat -> sumn M (fun m => cabs2 (cb_Df N D m k)) <= L) ->
  (forall j, (j < N)%nat -> Rabs (Wm j) <= 1) ->
  let F x := / 2 * nrm2 N (fun j => Wm j * (cconv N M D x j - s j)) + l1reg n lmbda wl1 x in
  argmin E F xs ->
  F (run (cbm_dfd N M D s Wm) (cbm_grad N M D s Wm) false (S K) X0 L) - F xs <= 2 * L * nrm2 n (fun i => X0 i - xs i) / (INR (S K) + 1) ^ 2.
Proof.
  intros HL HD HW F Hxs. set (f := lsq N (mconv N M D Wm) (fun j => Wm j * s j)). set (grad := fun x => ccorr N D (fun j => Wm j ^ 2 * (cconv N M D x j - s j))).
  destruct (C42_dft_same n f g grad grad prox false false Nesterov spec wadd2 wscal2 (cb_fwd N M) (cb_inv N) (cbm_dfd N M D s Wm) (cbm_grad N M D s Wm)
    (fwd_add2 N M) (fwd_scal2 N M) (fwd_local2 N M HN) (fun x i Hi => inv_fwd2 N M HN x i Hi) (dfdm_eq N M D s HN Wm) (gradm_eq N M D s HN Wm) prox_agree g_agree X0 L (S K) eq_refl) as (st & ER & EA).
  assert (Hf : forall x, f x = lsq N (mconv N M D Wm) (fun j => Wm j * s j) x) by reflexivity.
  assert (Hg : forall x i, (i < n)%nat -> grad x i = mcorr N D Wm (mconv N M D Wm x) i - mcorr N D Wm (fun j => Wm j * s j) i).
  { intros x i _. unfold mcorr, mconv. rewrite <- ccorr_sub. unfold grad. f_equal. extensionality j. ring. }
  pose proof (lsq_class_gradient n N (mconv N M D Wm) (mcorr N D Wm) (fun j => Wm j * s j) f grad (mconv_linear N M D Wm) (mconv_adjoint N M D HN Wm) Hf Hg) as G1.
  pose proof (lsq_class_convex N (mconv N M D Wm) (fun j => Wm j * s j) f (mconv_linear N M D Wm) Hf) as G2.
  assert (HB : forall x, nrm2 N (mconv N M D Wm x) <= L * nrm2 n x).
  { intros x. eapply Rle_trans; [|apply (cconv_bound N M D s HN L HD x)]. unfold nrm2, dot. apply sumn_le. intros j Hj. unfold mconv. specialize (HW j Hj).
    set (c := cconv N M D x j). replace (Wm j * c * (Wm j * c)) with (Wm j * Wm j * (c * c)) by ring.
    assert (Wm j * Wm j <= 1). { rewrite <- (Rabs_pos_eq (Wm j * Wm j)) by apply Rle_0_sqr. rewrite Rabs_mult. pose proof (Rabs_pos (Wm j)). nra. }
    pose proof (Rle_0_sqr c) as Q. unfold Rsqr in Q. nra. }
  pose proof (lsq_class_maj n N (mconv N M D Wm) (mcorr N D Wm) (fun j => Wm j * s j) f grad (mconv_linear N M D Wm) (mconv_adjoint N M D HN Wm) Hf Hg L HB) as G3.
  assert (FE : forall x, F x = eval_objfn f g x).
  { intros x. unfold F, eval_objfn, f, lsq. f_equal. f_equal. apply nrm2_ext. intros j _. unfold mconv. ring. }
  assert (Hxs' : argmin E (eval_objfn f g) xs) by (destruct Hxs as [A B]; split; [exact A|intros y Hy; rewrite <- !FE; apply B, Hy]).
  pose proof (C42_rate_fixed n E f g grad grad prox false false Nesterov G2 G1 (pb_g_convex M N lmbda wl1 nonneg Hlam) (pb_prox_min M N lmbda wl1 nonneg Hlam Hwl1) xs Hxs' X0 L K st HL ltac:(discriminate) G3 C41_nesterov_accelerates ER) as H.
  pose proof (nesterov_rate (L * nrm2 n (fun i => X0 i - xs i)) K ltac:(apply Rmult_le_pos; [lra|apply nrm2_nonneg])) as H2.
  set (x := run (cbm_dfd N M D s Wm) (cbm_grad N M D s Wm) false (S K) X0 L) in *.
  assert (EF : F x = eval_objfn f g (getmin st)).
  { rewrite FE. unfold eval_objfn. rewrite (g_agree x (getmin st) EA). f_equal. apply (f_local n f grad G2 G1). exact EA. }
  rewrite EF, (FE xs).
  rewrite S_INR. replace (INR K + 1 + 1) with (INR K + 2) by ring. rewrite <- Rmult_assoc in H2. lra.
Qed.
End cb.
(** The convolution in the statement is the usual one. *)
Theorem C42_cconv_usual N M D x j : (j < N)%nat -> cconv N M D x j = cconv' N M D x j.
Proof. intros Hj. apply cconv_same; [lia|exact Hj]. Qed.

(** ** C40: the line search of the convolutional solvers tests the bound on the half spectrum, without weights *)
Lemma ru4 : ru 4 0 = c1 /\ ru 4 1 = (0, 1) /\ ru 4 2 = (-1, 0) /\ ru 4 3 = (0, -1).
Proof.
  unfold ru. cbn [INR]. repeat split.
  - replace (2 * PI * 0 / (1 + 1 + 1 + 1)) with 0 by field. apply cis_0.
  - replace (2 * PI * 1 / (1 + 1 + 1 + 1)) with (PI / 2) by field. unfold cis. rewrite cos_PI2, sin_PI2. reflexivity.
  - replace (2 * PI * 2 / (1 + 1 + 1 + 1)) with PI by field. unfold cis. rewrite cos_PI, sin_PI. reflexivity.
  - replace (2 * PI * 3 / (1 + 1 + 1 + 1)) with (3 * (PI / 2)) by field. unfold cis. rewrite cos_3PI2, sin_3PI2. reflexivity.
Qed.
Lemma dft4 (x : nat -> R) : dft 4 (fun j => ofR (x j)) 0 = (x 0%nat + x 1%nat + x 2%nat + x 3%nat, 0) /\
  dft 4 (fun j => ofR (x j)) 1 = (x 0%nat - x 2%nat, x 3%nat - x 1%nat) /\ dft 4 (fun j => ofR (x j)) 2 = (x 0%nat - x 1%nat + x 2%nat - x 3%nat, 0).
Proof.
  destruct ru4 as (R0 & R1 & R2 & R3).
  assert (R : forall a b, (a mod 4 = b mod 4)%Z -> ru 4 a = ru 4 b) by (intros a b H; apply (ru_mod 4); [lia|exact H]).
  repeat split; unfold dft, csumn, sumn; cbn [Z.of_nat Z.mul Pos.mul Z.opp Pos.of_succ_nat Pos.succ Pos.add].
  - rewrite R0. unfold cmul, ofR, c1, re, im. cbn [fst snd]. f_equal; ring.
  - rewrite R0, (R (-1) 3)%Z, (R (-2) 2)%Z, (R (-3) 1)%Z, R1, R2, R3 by reflexivity. unfold cmul, ofR, c1, re, im. cbn [fst snd]. f_equal; ring.
  - rewrite R0, (R (-2) 2)%Z, (R (-4) 0)%Z, (R (-6) 2)%Z, R0, R2 by reflexivity. unfold cmul, ofR, c1, re, im. cbn [fst snd]. f_equal; ring.
Qed.
Definition h_D (m j : nat) : R := match j with O => 2 | 1%nat => -1 | _ => 0 end.
Definition h_s (j : nat) : R := match j with O => 3 | 3%nat => 3 | _ => 1 end.
Definition h_x (j : nat) : R := match j with O => 5 / 3 | 1%nat => 1 / 3 | 2%nat => -1 / 3 | _ => 1 end.
(** One filter (2, -1), signal (3, 1, 1, 3), start at zero, no regularisation, L = 3: h_x is the point of the gradient step; the test of the line
    search accepts it, and the quadratic upper bound of the data term is violated there. *)
Theorem C40_half_spectrum_refuted : exists N M D s L x,
  (forall p, (p < M * N)%nat -> x p = - / L * ccorr N D (fun j => - s j) p) /\
  cb_obfn_f N M D s (cb_fwd N M x) <= cb_quad N M D s L (cb_fwd N M x) (cb_fwd N M (fun _ => 0)) /\
  ~ majorises (M * N) (lsq N (cconv N M D) s) (fun x => ccorr N D (fun j => cconv N M D x j - s j)) L x (fun _ => 0).
Proof.
  exists 4%nat, 1%nat, h_D, h_s, 3, h_x. split; [|split].
  - intros p Hp. unfold ccorr. destruct p as [|[|[|[|p]]]]; [| | | |lia]; cbn -[Rmult Rplus Ropp Rinv IZR]; lra.
  - unfold cb_quad, cb_obfn_f. rewrite <- !Rsqr_pow2, !Rsqr_sqrt by (repeat (apply sumn_nonneg; intros); apply cabs2_nonneg).
    unfold cb_grad, cb_Rf, cb_fwd, cb_Sf, cb_Df, cut. change (4 / 2 + 1)%nat with 3%nat. cbn [sumn Nat.ltb Nat.leb]. unfold csumn. cbn [sumn].
    change (fun j : nat => ofR (h_x (0 * 4 + j)%nat)) with (fun j : nat => ofR (h_x j)).
    destruct (dft4 (h_D 0)) as (-> & -> & ->). destruct (dft4 h_s) as (-> & -> & ->). destruct (dft4 h_x) as (-> & -> & ->). destruct (dft4 (fun _ => 0)) as (-> & -> & ->).
    unfold h_D, h_s, h_x, cabs2, cmul, csub, cadd, copp, conj, re, im. cbn [fst snd Nat.leb]; cbn [fst snd]. lra.
  - unfold majorises, lsq, cconv, ccorr, nrm2, dot. cbn -[Rmult Rplus Ropp Rinv Rminus IZR Rdiv]. lra.
Qed.
Example C42_cbpdn_ex : forall k, (k < 4)%nat -> sumn 1 (fun m => cabs2 (cb_Df 4 h_D m k)) <= 9.
Proof.
  intros k Hk. cbn [sumn]. rewrite Rplus_0_l. unfold cb_Df. destruct (dft4 (h_D 0)) as (E0 & E1 & E2).
  destruct k as [|[|[|[|k]]]]; [rewrite E0|rewrite E1|rewrite E2| |lia]; try (unfold h_D, cabs2, re, im; cbn [fst snd]; lra).
  pose proof (dft_hermitian 4 (h_D 0) 1%nat ltac:(lia)) as H. change (4 - 1)%nat with 3%nat in H. rewrite H, cabs2_conj, E1. unfold h_D, cabs2, re, im. cbn [fst snd]. lra.
Qed.
Print Assumptions C42_cbpdn. Print Assumptions C42_cbpdn_mask. Print Assumptions C42_cconv_usual. Print Assumptions C40_half_spectrum_refuted.
