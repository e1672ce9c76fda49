(** Auxiliary results for the masked dictionary update. *)
Require Import List Arith Reals Bool Lia Lra FunctionalExtensionality.
Require Import Verif.RVec Verif.Cplx Verif.FftModel Verif.FftProofs Verif.FftInv Verif.CscModel Verif.CscSpec Verif.CscProofs Verif.CscIterModel Verif.CscIterProofs Verif.CscProps.
Require Import Verif.PcnModel Verif.PcnSpec Verif.PcnProofs Verif.CcmModel Verif.CcmSpec Verif.CcmProofs Verif.CcmFit Verif.CcmProps Verif.MduModel Verif.MduSpec.
Require Verif.CnvrepModel Verif.RtvProofs.
Import ListNotations.
Local Open Scope R_scope.

(** A linear function below a quadratic one. *)
Lemma slope0 (a b q : R) : 0 <= q -> (forall t, t * a <= t * b + t * t * q) -> a = b.
Proof.
  intros Hq H. assert (P : forall t, 0 <= t * (b - a) + t * t * q) by (intros t; specialize (H t); lra). clear H.
  set (e := b - a) in *. assert (E0 : e = 0); [|unfold e in E0; lra].
  pose proof (P (- e / (2 * q + 1))) as P1.
  assert (E1 : - e / (2 * q + 1) * e + - e / (2 * q + 1) * (- e / (2 * q + 1)) * q = - (e * e) * (q + 1) / ((2 * q + 1) * (2 * q + 1))) by (field; lra).
  rewrite E1 in P1. assert (D : 0 < (2 * q + 1) * (2 * q + 1)) by nra.
  apply (Rmult_le_compat_r _ _ _ (Rlt_le _ _ D)) in P1. unfold Rdiv in P1. rewrite Rmult_assoc, Rinv_l, Rmult_1_r, Rmult_0_l in P1 by lra. pose proof (Rle_0_sqr e) as Q. unfold Rsqr in Q. nra.
Qed.

Section quad.
Variables (nv : nat -> nat) (dN Cd M : nat).
Notation axes := (seq 0 dN).
Notation at_cm := (at_cm dN).
Notation filt := (filt dN).
Notation same := (same_dict nv dN Cd M).
Notation sdot := (sdot nv dN Cd M).
Notation ons c m := (on_slice nv axes (at_cm c m)).
Hypothesis HN : (0 < dN)%nat.
Hypothesis Hs : forall a, (a < dN)%nat -> (0 < nv a)%nat.
Variables (K : nat) (zc : nat -> nat -> index -> R).
Hypothesis HK : (0 < K)%nat.
Notation sy d := (synth nv nv axes M zc (filt d)).
Notation Zq := (fun k m => Df nv nv axes zc k m).

(** The inner product of arrays of signals. *)
Definition pdot (u v : nat -> index -> R) : R := sumn Cd (fun c => sumn K (fun k => total nv axes (fun p => u k p * v k p) (at_cm c 0))).
Lemma pdot_ext u u' v v' : (forall c k p, (c < Cd)%nat -> (k < K)%nat -> ons c 0 p -> u k p = u' k p) -> (forall c k p, (c < Cd)%nat -> (k < K)%nat -> ons c 0 p -> v k p = v' k p) -> pdot u v = pdot u' v'.
Proof.
  intros H1 H2. apply sumn_ext. intros c Hc. apply sumn_ext. intros k Hk. apply CscIterProofs.total_ext; [apply ND0|]. intros p Hp. rewrite (H1 c k p Hc Hk Hp), (H2 c k p Hc Hk Hp). reflexivity.
Qed.
Lemma pdot_lin a u b v w : pdot (fun k p => a * u k p + b * v k p) w = a * pdot u w + b * pdot v w.
Proof.
  unfold pdot. rewrite <- !sumn_scal, <- sumn_plus. apply sumn_ext. intros c _. rewrite <- !sumn_scal, <- sumn_plus. apply sumn_ext. intros k _. rewrite <- total_lin. f_equal. extensionality p. ring.
Qed.
Lemma pdot_nonneg u : 0 <= pdot u u.
Proof. apply sumn_nonneg. intros. apply sumn_nonneg. intros. apply total_nonneg. intros. nra. Qed.

(** The masked fit and its expansion. *)
Definition mf (w sg : nat -> index -> R) (d : index -> R) : R := sumn Cd (fun c => / 2 * sumn K (fun k => sqn nv axes (fun p => w k p * (sy d k p - sg k p)) (at_cm c 0))).
Lemma mf_exp w sg Y z t : mf w sg (fun p => Y p + t * z p) = mf w sg Y + t * pdot (fun k p => w k p * w k p * (sy Y k p - sg k p)) (sy z) + t * t * (/ 2 * pdot (fun k p => w k p * sy z k p) (fun k p => w k p * sy z k p)).
Proof.
  unfold mf, pdot. rewrite <- !sumn_scal, <- !sumn_plus. apply sumn_ext. intros c _. rewrite <- !sumn_scal, <- !sumn_plus. apply sumn_ext. intros k _. unfold sqn.
  set (T1 := total nv axes (fun p => w k p * w k p * (sy Y k p - sg k p) * sy z k p) _). set (T2 := total nv axes (fun p => w k p * sy z k p * (w k p * sy z k p)) _).
  set (T0 := total nv axes (fun p => w k p * (sy Y k p - sg k p) * (w k p * (sy Y k p - sg k p))) _).
  transitivity (/ 2 * (1 * T0 + 1 * (2 * t * T1 + t * t * T2))); [|field]. f_equal. unfold T0, T1, T2. rewrite <- !total_lin. f_equal. extensionality p. rewrite synth_line. ring.
Qed.
Lemma gfit_mf sg Y : gfit nv dN Cd M K zc sg Y = mf (fun _ _ => 1) sg Y.
Proof. apply sumn_ext. intros c _. unfold datafit. f_equal. apply sumn_ext. intros k _. unfold sqn. f_equal. extensionality p. ring. Qed.
Lemma mf_at w sg Y X : mf w sg Y + pdot (fun k p => w k p * w k p * (sy Y k p - sg k p)) (sy (fun p : index => X p - Y p)) <= mf w sg X.
Proof.
  assert (E : mf w sg X = mf w sg (fun p => Y p + 1 * (X p - Y p))) by (f_equal; extensionality p; ring). rewrite E, (mf_exp w sg Y (fun p : index => X p - Y p) 1). pose proof (pdot_nonneg (fun k p => w k p * sy (fun p : index => X p - Y p) k p)). lra.
Qed.
Lemma mf_slope w sg Y z l : (forall t, mf w sg Y + t * l <= mf w sg (fun p => Y p + t * z p)) -> l = pdot (fun k p => w k p * w k p * (sy Y k p - sg k p)) (sy z).
Proof.
  intros H. apply slope0 with (q := / 2 * pdot (fun k p => w k p * sy z k p) (fun k p => w k p * sy z k p)).
  - pose proof (pdot_nonneg (fun k p => w k p * sy z k p)). lra.
  - intros t. specialize (H t). rewrite mf_exp in H. lra.
Qed.
Lemma sy_same d d' c k p : (c < Cd)%nat -> same d d' -> ons c 0 p -> sy d k p = sy d' k p.
Proof.
  intros Hc E Hp. apply (CscIterProofs.synth_ext nv nv axes M zc (at_cm c 0)); [apply ND0|apply (ax_pos nv dN HN Hs K HK)| |exact Hp].
  intros m q Hm Hq. apply (filt_same nv dN Cd M HN K HK d d' c Hc E m q Hm Hq).
Qed.

(** The x-step leaves the dictionary unchanged. *)
Lemma fixed_ch sg U Y xf : solves_eq nv dN M K zc sg 1 (fun p => Y p - U p) xf ->
  (same (of_spec nv dN xf) Y <-> forall z, - sdot U z = pdot (fun k p => sy Y k p - sg k p) (sy z)).
Proof.
  intros Hx. pose proof (fixed_iff nv dN Cd M HN Hs K zc sg HK 1 Y U xf Rlt_0_1 Hx) as F.
  assert (E1 : forall z, pdot (fun k p => 1 * 1 * (sy Y k p - sg k p)) (sy z) = pdot (fun k p => sy Y k p - sg k p) (sy z)).
  { intros z. f_equal. extensionality k. extensionality p. ring. }
  split.
  - intros Ex z. pose proof (proj1 F Ex) as G. rewrite <- E1. apply (mf_slope (fun _ _ => 1)). intros t. specialize (G (fun p => Y p + t * z p)). rewrite !gfit_mf in G.
    assert (E : sdot U (fun p => Y p + t * z p - Y p) = t * sdot U z).
    { transitivity (sdot U (fun p => t * z p + 0 * z p)); [f_equal; extensionality p; ring|]. rewrite sdot_lin_r. ring. }
    rewrite E in G. lra.
  - intros H. apply F. intros X. pose proof (mf_at (fun _ _ => 1) sg Y X) as G. rewrite !gfit_mf. rewrite E1, <- H in G. lra.
Qed.
(** The adjoint of the synthesis. *)
Lemma sy_zero k p : sy (fun _ => 0) k p = 0.
Proof.
  pose proof (synth_line nv dN M zc (fun _ => 0) (fun _ => 0) 1 k p) as H. cbv beta in H.
  assert (E : (fun _ : pos => 0 + 1 * 0) = (fun _ : pos => 0)) by (extensionality q; ring). rewrite E in H. lra.
Qed.
Definition adjf (u : nat -> index -> R) (m : nat) (i : index) : C := csumn K (fun k => cmul (conj (Zq k m i)) (rfftn nv axes (u k) i)).
Lemma adj_sy u z : sdot (of_spec nv dN (adjf u)) z = pdot u (sy z).
Proof.
  pose proof (ax_ne nv dN HN Hs K HK) as Hne. set (sg := fun k p => - u k p).
  assert (E : gs nv dN M K zc sg (fun _ => 0) = of_spec nv dN (adjf u)).
  { unfold gs. f_equal. extensionality m. extensionality i. unfold gq, adjf. apply csumn_ext. intros k _. f_equal.
    rewrite (csumn_ext M _ (fun _ => c0)).
    - assert (Z0 : csumn M (fun _ => c0) = c0). { clear. induction M as [|n IH]; [apply csumn_O|]. rewrite csumn_S, IH. ring. }
      rewrite Z0. unfold CscModel.Sf, sg.
      assert (Q : rfftn nv axes (fun p => - u k p) i = cmul (ofR (-1)) (rfftn nv axes (u k) i)).
      { transitivity (rfftn nv axes (fun p => -1 * u k p + 0 * u k p) i); [apply (f_equal (fun h => rfftn nv axes h i)); extensionality p; ring|]. rewrite rfftn_lin by exact Hne.
        set (a := rfftn _ _ _ _). unfold cadd, cmul, ofR, re, im. cbn [fst snd]. f_equal; ring. }
      rewrite Q. set (a := rfftn _ _ _ _). destruct a as [a1 a2]. unfold csub, cadd, copp, cmul, ofR, c0, re, im. cbn [fst snd]. f_equal; ring.
    - intros j _. assert (Q : rfftn nv axes (filt (fun _ : index => 0) j) i = c0).
      { transitivity (rfftn nv axes (fun p => 0 * u k p + 0 * u k p) i); [apply (f_equal (fun h => rfftn nv axes h i)); extensionality p; unfold CcmSpec.filt; ring|]. rewrite rfftn_lin by exact Hne.
        set (a := rfftn _ _ _ _). unfold cadd, cmul, ofR, c0, re, im. cbn [fst snd]. f_equal; ring. }
      rewrite Q. ring. }
  pose proof (gfit_exact nv dN Cd M HN Hs K zc sg HK (fun _ => 0) z) as G. rewrite E in G. rewrite !gfit_mf in G.
  assert (E2 : (fun p : index => 0 + z p) = (fun p => 0 + 1 * z p)) by (extensionality p; ring). rewrite E2 in G. rewrite mf_exp in G.
  assert (E3 : gfit0 nv dN Cd M K zc z = / 2 * pdot (fun k p => 1 * sy z k p) (fun k p => 1 * sy z k p)).
  { unfold gfit0, pdot, datafit. rewrite <- sumn_scal. apply sumn_ext. intros c _. f_equal. apply sumn_ext. intros k _. unfold sqn. f_equal. extensionality p. ring. }
  rewrite E3 in G. transitivity (pdot (fun k p => 1 * 1 * (sy (fun _ : index => 0) k p - sg k p)) (sy z)); [lra|].
  f_equal. extensionality k. extensionality p. etransitivity; [apply (f_equal (fun v => 1 * 1 * (v - sg k p)) (sy_zero k p))|]. unfold sg. ring.
Qed.
(** The synthesis from the spectrum of the x-step. *)
Lemma sy_spec sg V xf c k p : (c < Cd)%nat -> solves_eq nv dN M K zc sg 1 V xf -> ons c 0 p ->
  irfftn nv axes (fun i => csumn M (fun m => cmul (Zq k m i) (xf m i))) p = sy (of_spec nv dN xf) k p.
Proof.
  intros Hc Hx Hp. pose proof (ax_ne nv dN HN Hs K HK) as Hne. pose proof (ax_pos nv dN HN Hs K HK) as Hpos.
  rewrite <- (C68_reconstruct nv nv axes M zc (filt (of_spec nv dN xf)) k p (ND0 dN) Hne (proj1 Hp)). unfold reconstruct.
  apply irfftn_slice; [apply ND0|exact Hne|apply (self_slice nv dN c p Hp)|]. intros i Hi.
  pose proof (slice_trans nv dN c p i Hp Hi) as Hi'. apply csumn_ext. intros m Hm. f_equal. symmetry.
  rewrite (rfftn_slice nv axes _ (irfftn nv axes (xf m)) i Hne).
  - apply (RtvProofs.xf_inv nv nv axes M K zc sg (ND0 dN) Hne Hpos HK 1 (filt V) xf Rlt_0_1); [|exact Hm|exact (proj1 Hi)].
    intros j k' _ Hk'. apply Hx. exact Hk'.
  - intros q Hq. apply (filt_spec nv dN HN K HK xf c). apply (slice_trans nv dN c i q Hi' Hq).
Qed.
End quad.

(** The first order condition and the constraint function. *)
Section crit.
Variables (nv : nat -> nat) (dN dC Cd K M : nat) (dsz : CnvrepModel.dsize) (zm : bool).
Hypothesis OK : ccm_ok nv dN dC Cd K dsz zm.
Notation fdot := (fdot nv dN Cd).
Notation same := (same_dict nv dN Cd M).
Notation lin_ok := (lin_ok nv dN Cd M dsz zm).
Notation cP := (cPcn nv dN dC Cd M dsz zm).
Notation sdot := (sdot nv dN Cd M).
Notation nf := (nf nv dN Cd M dsz zm dC).
Let HdC := proj1 (proj2 (proj2 (proj2 OK))).
Let HF := proj1 (proj2 (proj2 (proj2 (proj2 OK)))).
Let HV := proj2 (proj2 (proj2 (proj2 (proj2 OK)))).
Lemma crit_gen F b d G : 0 < b -> (forall X : index -> R, F d + sdot G (fun p => X p - d p) <= F X) ->
  (forall z l1 l2, (forall t, F d + t * l1 <= F (fun p => d p + t * z p)) -> (forall t, F d + t * l2 <= F (fun p => d p + t * z p)) -> l1 = l2) ->
  (critical_for nv dN Cd M dsz zm F b d <-> same (cP (fun p => d p - / b * G p)) d).
Proof.
  intros Hb HG HU. split.
  - intros (Ld & Ud & lam & Hl & Hc).
    assert (EG : forall z m, (m < M)%nat -> lin_ok z -> fdot G z m = lam m * fdot d z m).
    { intros z m Hm Lz. apply (HU (only dN m z)); intros t.
      - pose proof (HG (fun p => d p + t * only dN m z p)) as H.
        assert (E : sdot G (fun p => d p + t * only dN m z p - d p) = t * fdot G z m).
        { transitivity (sdot G (fun p => t * only dN m z p + 0 * z p)); [f_equal; extensionality p; ring|]. rewrite sdot_lin_r. unfold CcmFit.sdot.
          rewrite (sumn_ext M (fun m0 => fdot G (only dN m z) m0) (fun m0 => 1 * fdot G (only dN m z) m0)) by (intros; ring). rewrite (sum_only nv dN dC Cd K M dsz zm OK (fun _ => 1) G m z Hm). ring. }
        rewrite <- E. exact H.
      - assert (Lx : lin_ok (fun p => 1 * d p + t * only dN m z p)) by (apply lin_lin; [exact Ld|apply (only_lin nv dN dC Cd K M dsz zm OK); exact Lz]).
        pose proof (Hc _ Lx) as H. rewrite (sumn_ext M _ (fun m0 => t * (lam m0 * fdot d (only dN m z) m0))) in H by (intros; rewrite fdot_lin_r; ring).
        rewrite sumn_scal, (sum_only nv dN dC Cd K M dsz zm OK lam d m z Hm) in H. eapply Rle_trans; [exact H|]. apply Req_le. f_equal. extensionality p. ring. }
    apply (cP_unique nv dN Cd M dsz zm dC HdC HF HV _ d (fun m => 1 - lam m / b)); [exact Ld|exact Ud| |].
    + intros m Hm. specialize (Hl m Hm). apply (Rmult_lt_reg_l b); [exact Hb|]. replace (b * (1 - lam m / b)) with (b - lam m) by (field; lra). lra.
    + intros z m Hm Lz. rewrite fdot_axpy, (EG z m Hm Lz). field. lra.
  - intros E. set (w := fun p => d p - / b * G p) in *.
    assert (Ld : lin_ok d) by (apply (lin_same nv dN Cd M dsz zm (cP w)); [exact E|apply cP_lin; assumption]).
    split; [exact Ld|]. split.
    + intros m Hm. rewrite <- (fdot_ext nv dN Cd M (cP w) (cP w) d d m Hm E E). apply cP_unit; assumption.
    + exists (fun m => b * (1 - nf w m)). split.
      * intros m _. pose proof (nf_pos nv dN Cd M dsz zm dC w m). nra.
      * intros x Lx. eapply Rle_trans; [|apply HG]. apply Rplus_le_compat_l. apply Req_le. unfold CcmFit.sdot. apply sumn_ext. intros m Hm.
        assert (EG : forall z, lin_ok z -> fdot G z m = b * (1 - nf w m) * fdot d z m).
        { intros z Lz. pose proof (cP_dot nv dN Cd M dsz zm dC HdC HF HV w z m Hm Lz) as Q. rewrite (fdot_ext nv dN Cd M (cP w) z d z m Hm E (same_refl nv dN Cd M z)) in Q.
          unfold w at 1 in Q. rewrite fdot_axpy in Q.
          apply (f_equal (Rmult b)) in Q. assert (Q' : b * (fdot d z m - / b * fdot G z m) = b * fdot d z m - fdot G z m) by (field; lra). rewrite Q' in Q. lra. }
        symmetry. etransitivity; [exact (EG _ (lin_sub nv dN Cd M dsz zm x d Lx Ld))|]. rewrite (fdot_sub_r nv dN Cd d x d). ring.
Qed.
End crit.
