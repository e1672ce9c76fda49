(** C84: sparse coding with a product dictionary. *)
Require Import List Arith ZArith Reals Bool Lia Lra FunctionalExtensionality.
Require Import Verif.RVec Verif.Cplx Verif.FftModel Verif.FftProofs Verif.FftProps Verif.FftInv Verif.CscModel Verif.CscSpec Verif.CscProofs Verif.CscProps Verif.CscIterModel Verif.CscIterProofs.
Require Import Verif.AdmmModel Verif.AdmmSpec Verif.AdmmProofs Verif.AdmmConv Verif.AdmmProps Verif.StepsModel Verif.StepsSpec Verif.StepsProofs Verif.ProxModel Verif.CscIterProps.
Require Import Verif.LimitProofs Verif.LimitTwo Verif.PdcModel Verif.PdcSpec Verif.PdcProofs.
Import ListNotations.
Local Open Scope R_scope.

(** ** The x step, for attributes of the solver object which belong to the current dictionaries. *)
Definition consistent (s dsh : nat -> nat) (axes : list nat) (C Cb : nat) (S : nat -> index -> R) (st : pd_fac) : Prop :=
  f_DSfBQ st = pd_DSfBQ s dsh axes C Cb S (f_D st) (f_B st) (f_Q st) /\ eigen Cb (gram C (f_B st)) (f_Gamma st) (f_Q st).
(** What is assumed of np.linalg.eigh, for the matrix it is applied to. *)
Definition eigh_ok (eigh : (nat -> nat -> R) -> (nat -> R) * (nat -> nat -> R)) (C Cb : nat) (B : nat -> nat -> R) : Prop :=
  eigen Cb (gram C B) (fst (eigh (gram C B))) (snd (eigh (gram C B))).
Lemma eigen_abs C Cb B G Q : eigen Cb (gram C B) G Q -> eigen Cb (gram C B) (fun b => Rabs (G b)) Q.
Proof.
  intros H. pose proof (gamma_nonneg C Cb B G Q H) as P. destruct H as (H1 & H2 & H3). split; [exact H1|]. split; [exact H2|].
  intros i j Hi Hj. rewrite H3 by assumption. apply sumn_ext. intros k Hk. rewrite Rabs_pos_eq by (apply P; exact Hk). reflexivity.
Qed.

(** The attributes after the construction, and after a call of setdict with a convolutional dictionary. *)
Theorem C84_init eigh s dsh axes C Cb S D B : eigh_ok eigh C Cb B ->
  let st := pd_init eigh s dsh axes C Cb S D B in f_D st = D /\ f_B st = B /\ consistent s dsh axes C Cb S st.
Proof.
  intros H. unfold pd_init, eigh_ok in *. destruct (eigh (gram C B)) as [G Q]. cbn [fst snd] in H. cbn. split; [reflexivity|]. split; [reflexivity|].
  split; [reflexivity|]. cbn. apply eigen_abs. exact H.
Qed.
Theorem C84_setdict_D eigh s dsh axes C Cb S st D B : consistent s dsh axes C Cb S st -> (forall B', B = Some B' -> eigh_ok eigh C Cb B') ->
  let st' := pd_setdict eigh s dsh axes C Cb S st (Some D) B in
  f_D st' = D /\ f_B st' = match B with Some B' => B' | None => f_B st end /\ consistent s dsh axes C Cb S st'.
Proof.
  intros [H1 H2] HB. unfold pd_setdict. destruct B as [B'|].
  - specialize (HB B' eq_refl). unfold eigh_ok in HB. destruct (eigh (gram C B')) as [G Q]. cbn [fst snd] in HB. cbn. split; [reflexivity|]. split; [reflexivity|].
    split; [reflexivity|]. cbn. apply eigen_abs. exact HB.
  - cbn. split; [reflexivity|]. split; [reflexivity|]. split; [reflexivity|exact H2].
Qed.
Print Assumptions C84_init.
Print Assumptions C84_setdict_D.

Section main.
Variables (s dsh : nat -> nat) (axes : list nat) (M C Cb : nat) (S : nat -> index -> R) (st : pd_fac) (base : index).
Hypothesis ND : NoDup axes.
Hypothesis Hne : axes <> [].
Hypothesis Hs : forall ax, In ax axes -> (0 < s ax)%nat.
Hypothesis HM : (0 < M)%nat.
Hypothesis HC : (0 < C)%nat.
Hypothesis Hc : consistent s dsh axes C Cb S st.
Notation D := (f_D st).
Notation B := (f_B st).
Notation fit := (pd_fit s dsh axes M C Cb D B S).
Notation dist := (pd_dist s axes M Cb).

Lemma strong84 rho Y U X b0 : 0 < rho -> let Z := fun b m p => Y b m p - U b m p in let x := pd_xstep s dsh axes M Cb st rho Y U in
  fit x b0 + rho / 2 * dist x Z b0 + rho / 2 * dist X x b0 <= fit X b0 + rho / 2 * dist X Z b0.
Proof.
  intros Hr Z x. destruct Hc as [Eq He]. rewrite !pd_fit_unflat, !pd_dist_unflat by exact HM. destruct (exists_last Hne) as (r & l & El). 
  pose proof (strong_min s dsh r l (Cb * M) C (pdict M D B) S QNone) as H. rewrite <- El in H.
  specialize (H ND Hs Logic.I rho (unflat M Z) (unflat M (pd_xstepf s dsh axes M Cb st rho Y U)) (unflat M X) b0 Hr).
  cbv zeta in H. unfold qterm, near in H.
  assert (P : forall i m, (m < Cb * M)%nat ->
    sys (Cb * M) C (fun c k => Df s dsh axes (pdict M D B) c k i) (fun k => ediag s r l QNone i k + rho) (fun k => unflat M (pd_xstepf s dsh axes M Cb st rho Y U) k i) m =
    rhs C (fun c k => Df s dsh axes (pdict M D B) c k i) rho (fun c => Sf s axes S c i) (fun k => rfftn s axes (unflat M Z k) i) m).
  { intros i m Hm. cbn [ediag]. exact (pd_solves s dsh axes M C Cb D B S Hne HM st eq_refl Eq He rho Y U i m Hr Hm). }
  specialize (H P). match goal with |- ?a + ?b + ?c <= ?d + ?e => enough (a + 0 + b + c <= d + 0 + e) by lra; exact H end.
Qed.
(** For every Y and U: the sub-problem of any X exceeds that of the x step by at least rho/2 times the squared distance; so the x
    step is the minimiser, and the only one. *)
Theorem C84_xstep rho Y U X : 0 < rho -> let Z := fun b m p => Y b m p - U b m p in let x := pd_xstep s dsh axes M Cb st rho Y U in
  fit x base + rho / 2 * dist x Z base + rho / 2 * dist X x base <= fit X base + rho / 2 * dist X Z base.
Proof. apply strong84. Qed.

(** reconstruct computes the product dictionary synthesis, and obfn_dfd its distance from the signal. *)
Lemma pd_spec_csc Vf c i : pd_spec s dsh axes M Cb st Vf c i = csumn (Cb * M) (fun k => cmul (CscModel.Df s dsh axes (pdict M D B) c k i) (unflat M Vf k i)).
Proof.
  unfold pd_spec. rewrite RtvProofs.csumn_flat by exact HM. apply csumn_ext. intros b _. rewrite <- csumn_scal. apply csumn_ext. intros m Hm.
  rewrite pdict_Df by exact Hne. unfold unflat. rewrite div_at, mod_at by exact Hm. ring.
Qed.
Theorem C84_reconstruct X c p : (forall ax, In ax axes -> (p ax < s ax)%nat) ->
  pd_reconstruct s dsh axes M Cb st X c p = pd_synth s dsh axes M Cb D B X c p.
Proof.
  intros Hp. rewrite pd_synth_unflat by exact HM. rewrite <- C68_reconstruct by assumption. unfold pd_reconstruct, reconstruct.
  apply (f_equal (fun h => irfftn s axes h p)). extensionality i. apply pd_spec_csc.
Qed.
Theorem C84_fidelity d X : good_axes d s axes ->
  pd_dfd s dsh axes M C Cb S st d (fun b m => rfftn s axes (X b m)) =
  / 2 * sumn C (fun c => total s (seq 0 d) (fun p => (pd_synth s dsh axes M Cb D B X c p - S c p) * (pd_synth s dsh axes M Cb D B X c p - S c p)) (fun _ => O)).
Proof.
  intros G. pose proof (C68_fidelity d s dsh axes (Cb * M) C (pdict M D B) S (unflat M X) G) as H.
  transitivity (obfn_dfd s dsh axes (Cb * M) C (pdict M D B) S d (fun m => rfftn s axes (unflat M X m))).
  - unfold pd_dfd, obfn_dfd. f_equal. apply sumn_ext. intros c _. f_equal. extensionality i. f_equal. apply pd_spec_csc.
  - rewrite H. unfold residual_norm2. f_equal. apply sumn_ext. intros c _. apply (f_equal (fun h => total s (seq 0 d) h _)). extensionality p. rewrite pd_synth_unflat by exact HM. reflexivity.
Qed.

(** ** The iteration, for any regularisation with its proximal map. *)
Notation P := (size s axes).
Notation n := (Cb * M * size s axes)%nat.
Definition pd_smooth (x : vec) : R := fit (chan M (arr s axes x)) base.
Notation PD := (pdict M D B).
Notation L := (Lop s dsh axes (Cb * M) C PD QNone base).
Notation scf := (sc_f n ((C + nG axes (Cb * M) QNone) * size s axes) L (sv s axes C S base) (q_mu QNone)).
Lemma smooth84 x : pd_smooth x = scf x.
Proof.
  unfold pd_smooth. rewrite pd_fit_unflat by exact HM. rewrite <- (prob_f_sc s dsh axes (Cb * M) C PD S QNone base ND Hne Hs) by exact Logic.I.
  unfold prob_f, quad_term. rewrite Rplus_0_r. f_equal. extensionality k. apply unflat_chan. exact HM.
Qed.
Lemma x84 rho g y u : 0 < rho -> argmin (fun _ => True) (fun x => auglag n eq_A eq_B eq_c rho scf g x y u) (pd_xs s dsh axes M Cb st rho base y u).
Proof.
  intros Hr. split; [exact Logic.I|]. intros x _. unfold auglag. rewrite <- !smooth84. unfold pd_smooth.
  pose proof (strong84 rho (chan M (arr s axes y)) (chan M (arr s axes u)) (chan M (arr s axes x)) base Hr) as H. cbv zeta in H.
  set (xs := pd_xstep s dsh axes M Cb st rho (chan M (arr s axes y)) (chan M (arr s axes u))) in *.
  rewrite !pd_fit_unflat, !pd_dist_unflat in * by exact HM.
  assert (Ex : forall x, unflat M (chan M (arr s axes x)) = arr s axes x) by (intros; extensionality k; apply unflat_chan; exact HM).
  assert (Ed : unflat M (fun b m (p : index) => chan M (arr s axes y) b m p - chan M (arr s axes u) b m p) = arr s axes (fun i => y i - u i)).
  { extensionality k. transitivity (fun p => arr s axes y k p - arr s axes u k p); [|reflexivity]. unfold unflat. extensionality p. unfold chan.
    replace (k / M * M + k mod M)%nat with k by (pose proof (Nat.div_mod k M ltac:(lia)); lia). reflexivity. }
  rewrite !Ex in H |- *. rewrite !Ed in H.
  assert (E : forall k p, (k < Cb * M)%nat -> on_slice s axes base p -> unflat M xs k p = arr s axes (pd_xs s dsh axes M Cb st rho base y u) k p).
  { intros k p Hk Hp. symmetry. unfold pd_xs. rewrite arr_flat by assumption. reflexivity. }
  rewrite (CscIterProofs.datafit_ext s dsh axes (Cb * M) C PD S base ND Hs (unflat M xs) (arr s axes (pd_xs s dsh axes M Cb st rho base y u)) E) in H.
  assert (N0 : 0 <= rho / 2 * sumn (Cb * M) (fun k => sqn s axes (fun p => arr s axes x k p - unflat M xs k p) base)).
  { apply Rmult_le_pos; [lra|]. apply sumn_nonneg. intros k _. unfold sqn. rewrite <- sum_place by exact Hs. apply sumn_nonneg. intros. apply Rle_0_sqr. }
  assert (Q1 : rho / 2 * sumn (Cb * M) (fun k => sqn s axes (fun p => unflat M xs k p - arr s axes (fun i => y i - u i) k p) base)
     = rho / 2 * nrm2 n (fun i => pd_xs s dsh axes M Cb st rho base y u i - (y i - u i))).
  { rewrite <- (near_flat s axes (Cb * M) base ND Hs rho (fun i => y i - u i)). unfold near. f_equal. apply sumn_ext. intros k Hk.
    apply CscIterProofs.sqn_ext; [exact ND|]. intros p Hp. rewrite (E k p Hk Hp). reflexivity. }
  assert (Q2 : rho / 2 * sumn (Cb * M) (fun k => sqn s axes (fun p => arr s axes x k p - arr s axes (fun i => y i - u i) k p) base)
     = rho / 2 * nrm2 n (fun i => x i - (y i - u i))) by (rewrite <- (near_flat s axes (Cb * M) base ND Hs rho (fun i => y i - u i)); reflexivity).
  rewrite Q1, Q2 in H.
  assert (Q : forall x, nrm2 n (fun i => eq_A x i + eq_B y i - eq_c i + u i) = nrm2 n (fun i => x i - (y i - u i))) by (intros; apply nrm2_ext; intros; unfold eq_A, eq_B, eq_c; ring).
  rewrite !Q, !Ex. lra.
Qed.

Section generic.
Variables (rho rlx : R) (E : vec -> Prop) (g : vec -> R) (ystep : vec -> vec -> vec).
Hypothesis Hr : 0 < rho.
Hypothesis Cg : convex_on E g.
Hypothesis HY : forall ax u, E (ystep ax u) /\ subgradient n E g (ystep ax u) (fun i => rho * (ax i + u i - ystep ax u i)).
Hypothesis HE : closed n E.
Hypothesis Hg : loc_lip n g.
Notation run := (iterate eq_A eq_B eq_c rlx (pd_xs s dsh axes M Cb st rho base) ystep).
Notation F := (fun x => pd_smooth x + g x).
Lemma argmin84 p : argmin E F p <-> argmin E (fun x => scf x + g x) p.
Proof. split; intros [A1 A2]; (split; [exact A1|]); intros x Hx; specialize (A2 x Hx); cbv beta in *; rewrite !smooth84 in *; exact A2. Qed.
Lemma mu84 : 0 <= q_mu QNone. Proof. simpl. lra. Qed.
Lemma stationary84 st0 : rlx <> 0 ->
  (forall i, (i < n)%nat -> sY (run 1 st0) i = sY st0 i) -> (forall i, (i < n)%nat -> sU (run 1 st0) i = sU st0 i) ->
  (forall i, (i < n)%nat -> sX (run 1 st0) i = sY (run 1 st0) i) /\ argmin E F (sY (run 1 st0)).
Proof.
  intros H0 H1 H2.
  destruct (sc_stationary_min n ((C + nG axes (Cb * M) QNone) * size s axes) L (sv s axes C S base) (q_mu QNone)
    (Lop_linear s dsh axes (Cb * M) C PD QNone base) (Lop_local s dsh axes (Cb * M) C PD QNone base ND Hne Hs) E g rlx rho
    (pd_xs s dsh axes M Cb st rho base) ystep mu84 Hr Cg (fun y u => x84 rho g y u Hr) HY st0 H0 H1 H2) as [P1 P2].
  split; [exact P1|]. apply argmin84. exact P2.
Qed.
Lemma convergence84 st0 p : 0 < rlx < 2 -> argmin E F p ->
  Un_cv (fun k => nrm n (fun i => sX (run k st0) i - sY (run k st0) i)) 0 /\
  Un_cv (fun k => nrm n (fun i => rho * (sY (run (Datatypes.S k) st0) i - sY (run k st0) i))) 0 /\
  Un_cv (fun k => F (sY (run k st0))) (F p).
Proof.
  intros H0 Hp. apply argmin84 in Hp. destruct (Lop_adjoint s dsh axes (Cb * M) C PD QNone base ND Hne Hs) as [LT HA].
  destruct (sc_convergence_min n ((C + nG axes (Cb * M) QNone) * size s axes) L LT (sv s axes C S base) (q_mu QNone)
    (Lop_linear s dsh axes (Cb * M) C PD QNone base) HA E g rlx rho
    (pd_xs s dsh axes M Cb st rho base) ystep mu84 Hr Cg (fun y u => x84 rho g y u Hr) HY st0 p H0 Hp) as (P1 & P2 & _).
  split; [exact P1|]. split; [exact P2|].
  pose proof (sc_objective_Y n ((C + nG axes (Cb * M) QNone) * size s axes) L LT (sv s axes C S base) (q_mu QNone)
    (Lop_linear s dsh axes (Cb * M) C PD QNone base) HA (Lop_local s dsh axes (Cb * M) C PD QNone base ND Hne Hs) E g rlx rho
    (pd_xs s dsh axes M Cb st rho base) ystep mu84 Hr Cg (fun y u => x84 rho g y u Hr) HY st0 p H0 Hp) as P3.
  cbv zeta in P3. rewrite <- smooth84 in P3. revert P3. apply cv_ext. intros k. rewrite smooth84. reflexivity.
Qed.
Lemma iterates84 st0 : 0 < rlx < 2 -> (exists p, argmin E F p) ->
  exists p, argmin E F p /\ forall i, (i < n)%nat -> Un_cv (fun k => sX (run k st0) i) (p i) /\ Un_cv (fun k => sY (run k st0) i) (p i).
Proof.
  intros H0 [p0 Hp]. apply argmin84 in Hp. destruct (Lop_adjoint s dsh axes (Cb * M) C PD QNone base ND Hne Hs) as [LT HA].
  destruct (sc_iterates n ((C + nG axes (Cb * M) QNone) * size s axes) L LT (sv s axes C S base) (q_mu QNone)
    (Lop_linear s dsh axes (Cb * M) C PD QNone base) HA (Lop_local s dsh axes (Cb * M) C PD QNone base ND Hne Hs) E g rlx rho
    (pd_xs s dsh axes M Cb st rho base) ystep mu84 Hr Cg (fun y u => x84 rho g y u Hr) HY HE Hg st0 H0 (ex_intro _ p0 Hp)) as (p & P1 & P2).
  exists p. split; [apply argmin84; exact P1|exact P2].
Qed.
End generic.
Lemma exists84 E g lmbda wl1 : boxes n E -> loc_lip n g -> 0 < lmbda -> (forall i, (i < n)%nat -> 0 < wl1 i) -> (forall x, l1reg n lmbda wl1 x <= g x) ->
  exists p, argmin E (fun x => pd_smooth x + g x) p.
Proof.
  intros HE Hg Hl Hw Hb. destruct (l1_coercive n lmbda wl1 Hl Hw) as (a & Ha & Ba). apply (coercive_min n E _ a 0 HE); [|exact Ha|].
  - apply lip_plus; [|exact Hg]. apply (lip_ext_fun n scf); [intros; symmetry; apply smooth84|].
    unfold sc_f. apply lip_plus; [apply lip_lsq; [apply Lop_linear|apply Lop_local; assumption]|apply lip_ridge].
  - intros x _. specialize (Ba x). specialize (Hb x). assert (0 <= pd_smooth x); [|lra].
    unfold pd_smooth, pd_fit. apply Rmult_le_pos; [lra|]. apply sumn_nonneg. intros c _. unfold sqn. rewrite <- sum_place by exact Hs. apply sumn_nonneg. intros. apply Rle_0_sqr.
Qed.

(** ** ConvProdDictBPDN *)
Section bpdn.
Variables (rho rlx lmbda : R) (z : nat -> bool) (nonneg : bool) (wl1 : vec).
Hypothesis Hr : 0 < rho.
Hypothesis Hl : 0 <= lmbda.
Hypothesis Hw : forall i, (i < n)%nat -> 0 <= wl1 i.
Definition pd_objective (lmbda : R) (wl1 x : vec) : R := pd_smooth x + lmbda * sumn n (fun i => Rabs (wl1 i * x i)).
Notation run := (pd_iterate s dsh axes M Cb st rho rlx base z nonneg lmbda wl1).
Lemma allowed84 (F : vec -> R) p : argmin (allowed n z nonneg) F p <-> argmin (masked n z nonneg) F p.
Proof. split; intros [A1 A2]; (split; [apply allowed72; exact A1|]); intros x Hx; apply A2; apply allowed72; exact Hx. Qed.
Theorem C84_stationary st0 : rlx <> 0 ->
  (forall i, (i < n)%nat -> sY (run 1%nat st0) i = sY st0 i) -> (forall i, (i < n)%nat -> sU (run 1%nat st0) i = sU st0 i) ->
  (forall i, (i < n)%nat -> sX (run 1%nat st0) i = sY (run 1%nat st0) i) /\ argmin (allowed n z nonneg) (pd_objective lmbda wl1) (sY (run 1%nat st0)).
Proof.
  intros H0 H1 H2. destruct (stationary84 rho rlx (masked n z nonneg) (l1reg n lmbda wl1) (cs_ystep z nonneg lmbda rho wl1) Hr (l1reg_convex _ n lmbda wl1 Hl (masked_convex n z nonneg))
    (fun ax u => cs_y n z nonneg lmbda rho wl1 ax u Hl Hr Hw) st0 H0 H1 H2) as [P1 P2]. split; [exact P1|]. apply allowed84. exact P2.
Qed.
Theorem C84_convergence st0 p : 0 < rlx < 2 -> argmin (allowed n z nonneg) (pd_objective lmbda wl1) p ->
  Un_cv (fun k => nrm n (fun i => sX (run k st0) i - sY (run k st0) i)) 0 /\
  Un_cv (fun k => nrm n (fun i => rho * (sY (run (Datatypes.S k) st0) i - sY (run k st0) i))) 0 /\
  Un_cv (fun k => pd_objective lmbda wl1 (sY (run k st0))) (pd_objective lmbda wl1 p).
Proof.
  intros H0 Hp. apply allowed84 in Hp. exact (convergence84 rho rlx (masked n z nonneg) (l1reg n lmbda wl1) (cs_ystep z nonneg lmbda rho wl1) Hr (l1reg_convex _ n lmbda wl1 Hl (masked_convex n z nonneg))
    (fun ax u => cs_y n z nonneg lmbda rho wl1 ax u Hl Hr Hw) st0 p H0 Hp).
Qed.
Theorem C84_iterates st0 : 0 < rlx < 2 -> (exists p, argmin (allowed n z nonneg) (pd_objective lmbda wl1) p) ->
  exists p, argmin (allowed n z nonneg) (pd_objective lmbda wl1) p /\ forall i, (i < n)%nat -> Un_cv (fun k => sX (run k st0) i) (p i) /\ Un_cv (fun k => sY (run k st0) i) (p i).
Proof.
  intros H0 [p Hp]. apply allowed84 in Hp. destruct (iterates84 rho rlx (masked n z nonneg) (l1reg n lmbda wl1) (cs_ystep z nonneg lmbda rho wl1) Hr (l1reg_convex _ n lmbda wl1 Hl (masked_convex n z nonneg))
    (fun ax u => cs_y n z nonneg lmbda rho wl1 ax u Hl Hr Hw) (closed_masked n z nonneg) (lip_l1reg n lmbda wl1) st0 H0 (ex_intro _ p Hp)) as (p' & P1 & P2).
  exists p'. split; [apply allowed84; exact P1|exact P2].
Qed.
Theorem C84_exists : 0 < lmbda -> (forall i, (i < n)%nat -> 0 < wl1 i) -> exists p, argmin (allowed n z nonneg) (pd_objective lmbda wl1) p.
Proof.
  intros H1 H2. destruct (exists84 (masked n z nonneg) (l1reg n lmbda wl1) lmbda wl1 (boxes_masked n z nonneg) (lip_l1reg n lmbda wl1) H1 H2 (fun x => Rle_refl _)) as [p Hp].
  exists p. apply allowed84. exact Hp.
Qed.
End bpdn.

(** ** ConvProdDictBPDNJoint without NonNegCoef; NoBndryCross zeroes the same entries of every channel. *)
Section joint.
Variables (rho rlx lmbda mu : R) (z : nat -> bool) (wl1 : vec).
Hypothesis Hr : 0 < rho.
Hypothesis Hl : 0 <= lmbda.
Hypothesis Hmu : 0 <= mu.
Hypothesis Hw : forall i, (i < n)%nat -> 0 <= wl1 i.
Notation N := (M * size s axes)%nat.
Hypothesis Hz : forall b j, (b < Cb)%nat -> (j < N)%nat -> z (b * N + j)%nat = z j.
Definition pdj_objective (lmbda mu : R) (wl1 x : vec) : R :=
  pd_smooth x + (lmbda * sumn n (fun i => Rabs (wl1 i * x i)) + mu * sumn N (fun j => nrm Cb (fun b => x (b * N + j)%nat))).
Notation run := (pdj_iterate s dsh axes M Cb st rho rlx base z false lmbda mu wl1).
Notation gj := (fun y => l1reg n lmbda wl1 y + l2_groups Cb N mu y).
Lemma nN : n = (Cb * N)%nat. Proof. lia. Qed.
Lemma N_pos : (0 < N)%nat. Proof. pose proof (size_pos s axes Hs). nia. Qed.
Lemma yj84 ax u : masked n z false (pdj_ystep s axes M Cb z false lmbda mu rho wl1 ax u) /\
  subgradient n (masked n z false) gj (pdj_ystep s axes M Cb z false lmbda mu rho wl1 ax u) (fun i => rho * (ax i + u i - pdj_ystep s axes M Cb z false lmbda mu rho wl1 ax u i)).
Proof.
  assert (Hp : forall b j, (b < Cb)%nat -> (j < N)%nat -> pdj_ystep s axes M Cb z false lmbda mu rho wl1 ax u (b * N + j)%nat =
    if z j then 0 else prox_l2 Cb (prox_l1 (fun b => ax (b * N + j)%nat + u (b * N + j)%nat) (fun b => lmbda / rho * wl1 (b * N + j)%nat)) (mu / rho) b).
  { intros b j Hb Hj. unfold pdj_ystep. rewrite Hz by assumption. destruct (z j); [reflexivity|]. unfold clip. cbn [andb]. rewrite div_at, mod_at by exact Hj. reflexivity. }
  rewrite nN in *. split.
  - apply (joint_masked N Cb z lmbda mu rho wl1 ax u _ N_pos Hz Hp).
  - apply (joint_groups_y N Cb z lmbda mu rho wl1 ax u _ N_pos Hz Hl Hmu Hr Hw Hp).
Qed.
Lemma cj84 : convex_on (masked n z false) gj.
Proof. apply plus_convex; [apply l1reg_convex; [exact Hl|apply masked_convex]|apply l2_groups_convex; [exact Hmu|apply masked_convex]]. Qed.
Lemma lj84 : loc_lip n gj.
Proof.
  apply lip_plus; [apply lip_l1reg|]. unfold l2_groups. apply lip_scal. apply (lip_sumn n N (fun j x => nrm Cb (fun b => x (b * N + j)%nat))). intros j Hj.
  apply (lip_nrm n Cb (fun x b => x (b * N + j)%nat)). intros b Hb. apply lip_coord. nia.
Qed.
Theorem C84_joint_stationary st0 : rlx <> 0 ->
  (forall i, (i < n)%nat -> sY (run 1%nat st0) i = sY st0 i) -> (forall i, (i < n)%nat -> sU (run 1%nat st0) i = sU st0 i) ->
  (forall i, (i < n)%nat -> sX (run 1%nat st0) i = sY (run 1%nat st0) i) /\ argmin (allowed n z false) (pdj_objective lmbda mu wl1) (sY (run 1%nat st0)).
Proof.
  intros H0 H1 H2. destruct (stationary84 rho rlx (masked n z false) gj (pdj_ystep s axes M Cb z false lmbda mu rho wl1) Hr cj84 yj84 st0 H0 H1 H2) as [P1 P2].
  split; [exact P1|]. apply allowed84. exact P2.
Qed.
Theorem C84_joint_iterates st0 : 0 < rlx < 2 -> (exists p, argmin (allowed n z false) (pdj_objective lmbda mu wl1) p) ->
  exists p, argmin (allowed n z false) (pdj_objective lmbda mu wl1) p /\ forall i, (i < n)%nat -> Un_cv (fun k => sX (run k st0) i) (p i) /\ Un_cv (fun k => sY (run k st0) i) (p i).
Proof.
  intros H0 [p Hp]. apply allowed84 in Hp. destruct (iterates84 rho rlx (masked n z false) gj (pdj_ystep s axes M Cb z false lmbda mu rho wl1) Hr cj84 yj84 (closed_masked n z false) lj84 st0 H0 (ex_intro _ p Hp)) as (p' & P1 & P2).
  exists p'. split; [apply allowed84; exact P1|exact P2].
Qed.
Theorem C84_joint_exists : 0 < lmbda -> (forall i, (i < n)%nat -> 0 < wl1 i) -> exists p, argmin (allowed n z false) (pdj_objective lmbda mu wl1) p.
Proof.
  intros H1 H2. destruct (exists84 (masked n z false) gj lmbda wl1 (boxes_masked n z false) lj84 H1 H2) as [p Hp].
  - intros x. assert (0 <= l2_groups Cb N mu x); [|lra]. apply Rmult_le_pos; [exact Hmu|]. apply sumn_nonneg. intros. apply nrm_nonneg.
  - exists p. apply allowed84. exact Hp.
Qed.
End joint.
End main.
Print Assumptions C84_xstep.
Print Assumptions C84_reconstruct.
Print Assumptions C84_fidelity.
Print Assumptions C84_stationary.
Print Assumptions C84_convergence.
Print Assumptions C84_iterates.
Print Assumptions C84_exists.
Print Assumptions C84_joint_stationary.
Print Assumptions C84_joint_iterates.
Print Assumptions C84_joint_exists.

(** ** setdict with B only *)
Definition eigh1 (A : nat -> nat -> R) : (nat -> R) * (nat -> nat -> R) := (fun _ => A O O, fun _ _ => 1).
Lemma eigh1_ok B : eigh_ok eigh1 1 1 B.
Proof.
  split; [|split]; intros i j Hi Hj; assert (i = O) by lia; assert (j = O) by lia; subst; cbn; ring.
Qed.
Lemma ex_pd_synth v X c p : (p O < 2)%nat -> pd_synth ex_s (fun _ => 1%nat) [O] 1 1 (fun _ _ => 1) (fun _ _ => v) X c p = v * X O O p.
Proof.
  intros Hp. unfold pd_synth. cbn [sumn]. pose proof (ex_synth (X O) c p Hp) as H. unfold synth in H. cbn [sumn] in H. rewrite Rplus_0_l in H. rewrite H. ring.
Qed.
(** After a call of setdict with a new B and without D, the x step does not minimise the sub-problem of the new dictionary: DSfBQ
    is still that of the old B (lines 116-120). *)
Theorem C84_setdict_B_refuted : exists eigh s dsh axes M C Cb S D B B',
  NoDup axes /\ axes <> [] /\ (forall ax, In ax axes -> (0 < s ax)%nat) /\ (0 < M)%nat /\ (0 < C)%nat /\ eigh_ok eigh C Cb B /\ eigh_ok eigh C Cb B' /\
  let st := pd_setdict eigh s dsh axes C Cb S (pd_init eigh s dsh axes C Cb S D B) None (Some B') in
  let F := fun X => pd_fit s dsh axes M C Cb D B' S X (fun _ => O) + 1 / 2 * pd_dist s axes M Cb X (fun _ _ _ => 0) (fun _ => O) in
  exists X, F X < F (pd_xstep s dsh axes M Cb st 1 (fun _ _ _ => 0) (fun _ _ _ => 0)).
Proof.
  exists eigh1, ex_s, (fun _ => 1%nat), [O], 1%nat, 1%nat, 1%nat, ex_S, (fun _ _ => 1), (fun _ _ => 1), (fun _ _ => 2).
  split; [repeat constructor; simpl; tauto|]. split; [discriminate|]. split; [intros ax [<-|[]]; unfold ex_s; simpl; lia|]. split; [lia|]. split; [lia|].
  split; [apply eigh1_ok|]. split; [apply eigh1_ok|]. cbv zeta. exists (fun _ _ p => 2 / 5 * ex_S O p).
  set (st := pd_setdict _ _ _ _ _ _ _ _ _ _). set (S' := fun c p => / 2 * ex_S c p).
  assert (Hc : consistent ex_s (fun _ => 1%nat) [O] 1 1 S' st).
  { split; [|apply eigen_abs; apply (eigh1_ok (fun _ _ => 2))]. cbn -[pd_DSfBQ]. extensionality b. extensionality m. extensionality i. unfold pd_DSfBQ. rewrite !csumn_S, !csumn_O. cbn [sumn].
    assert (Es : pd_Sf ex_s [O] S' 0 i = cmul (ofR (/ 2)) (pd_Sf ex_s [O] ex_S 0 i)).
    { unfold pd_Sf. transitivity (rfftn ex_s [O] (fun p => / 2 * ex_S O p + 0 * ex_S O p) i); [apply (f_equal (fun h => rfftn ex_s [O] h i)); extensionality p; unfold S'; ring|].
      rewrite CcmFit.rfftn_lin by discriminate. change (ofR 0) with c0. ring. }
    rewrite Es. set (d := pd_Df _ _ _ _ _ _). set (v := pd_Sf _ _ _ _ _). replace (0 + 2 * 1) with 2 by ring. replace (0 + 1 * 1) with 1 by ring.
    transitivity (cmul (cmul (ofR 2) (ofR (/ 2))) (cmul (conj d) v)).
    - rewrite <- ofR_mul, Rinv_r by lra. change (ofR 1) with c1. ring.
    - ring. }
  pose proof (C84_xstep ex_s (fun _ => 1%nat) [O] 1 1 1 S' st (fun _ => O)) as H.
  specialize (H ltac:(repeat constructor; simpl; tauto) ltac:(discriminate) ltac:(intros ax [<-|[]]; unfold ex_s; simpl; lia) ltac:(lia) Hc 1 (fun _ _ _ => 0) (fun _ _ _ => 0) (fun _ _ p => 1 / 5 * ex_S O p) ltac:(lra)).
  cbv zeta in H. revert H. set (x := pd_xstep _ _ _ _ _ _ _ _ _). change (f_D st) with (fun _ : nat => fun _ : index => 1). change (f_B st) with (fun _ _ : nat => 2).
  unfold pd_fit, pd_dist, sqn. cbn [sumn total ex_s Nat.eqb]. rewrite !ex_pd_synth by (unfold set_at; simpl; lia).
  unfold S', ex_S, set_at. cbn [Nat.eqb].
  set (x0 := x O O (fun k => if Nat.eqb k 0 then O else O)). set (x1 := x O O (fun k => if Nat.eqb k 0 then 1%nat else O)). intros H.
  assert (Q : (x0 - 3 / 5) * (x0 - 3 / 5) + (x1 - 1 / 5) * (x1 - 1 / 5) <= 0) by nra.
  assert (E0 : x0 = 3 / 5) by (pose proof (Rle_0_sqr (x1 - 1 / 5)) as Q1; unfold Rsqr in Q1; assert (Q2 : (x0 - 3 / 5) * (x0 - 3 / 5) <= 0) by lra; nra).
  assert (E1 : x1 = 1 / 5) by (rewrite E0 in Q; nra).
  rewrite E0, E1. lra.
Qed.
Print Assumptions C84_setdict_B_refuted.

(** A signal with two channels and a matrix B which mixes the channels: the hypotheses of the theorems hold. *)
Example C84_instance : let B := fun c b => match c, b with O, O => 3 / 5 | O, _ => 4 / 5 | _, O => - (8 / 5) | _, _ => 6 / 5 end in
  let eigh := fun _ : nat -> nat -> R => (fun b => match b with O => 1 | _ => 4 end, fun i j => match i, j with O, O => 3 / 5 | O, _ => - (4 / 5) | _, O => 4 / 5 | _, _ => 3 / 5 end) in
  consistent ex_s (fun _ => 2%nat) [O] 2 2 ex_S (pd_init eigh ex_s (fun _ => 2%nat) [O] 2 2 ex_S (fun m p => INR (m + p O)) B).
Proof.
  intros B eigh. assert (H : eigh_ok eigh 2 2 B).
  { split; [|split]; intros i j Hi Hj; destruct i as [|[|i]]; try lia; destruct j as [|[|j]]; try lia; unfold delta, gram; cbn; lra. }
  exact (proj2 (proj2 (C84_init eigh ex_s (fun _ => 2%nat) [O] 2 2 ex_S (fun m p => INR (m + p O)) B H))).
Qed.
