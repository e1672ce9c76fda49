(** C74: the arrays computed by the sparse coding solvers converge to a minimiser, which exists. *)
Require Import List Reals Lra Lia Arith Bool FunctionalExtensionality.
Require Import Verif.RVec Verif.ProxModel Verif.ProxProofs Verif.NucModel Verif.AdmmModel Verif.AdmmSpec Verif.AdmmProofs Verif.AdmmConv Verif.AdmmProps Verif.Compact Verif.AdmmLimit.
Require Import Verif.StepsModel Verif.StepsSpec Verif.StepsProofs Verif.StepsProps Verif.LimitProofs Verif.Lagrange Verif.LimitTwo Verif.LimitMinl1.
Require Import Verif.FftModel Verif.FftInv Verif.CscModel Verif.CscSpec Verif.CscProofs Verif.CscProps Verif.CscIterModel Verif.CscIterProofs Verif.CscIterProps.
Require Import Verif.CscTwoModel Verif.CscTwoProofs Verif.CscTwoProps.
Import ListNotations.
Local Open Scope R_scope.
Local Notation vec := (nat -> R).

(** A sequence of states of which X and Y both converge, entry by entry, to [p]. *)
Definition tends_to (n : nat) (st : nat -> state) (p : vec) : Prop :=
  forall i, (i < n)%nat -> Un_cv (fun k => sX (st k) i) (p i) /\ Un_cv (fun k => sY (st k) i) (p i).

Section C74_bpdn.
Variables (Nr Nc Nm : nat) (solve : mat -> R -> vec -> vec) (D : mat) (S : vec).
Hypothesis HC : (0 < Nc)%nat.
Hypothesis HN : (0 < Nm)%nat.
Hypothesis Hsolve : ATAI_contract Nr Nc Nm solve.
Notation n := (Nc * Nm)%nat.
Notation f := (lsq (Nr * Nm) (mm Nc Nm D) S).
Variables (rlx rho : R).
Hypothesis Hrho : 0 < rho.
Hypothesis Hrlx : 0 < rlx < 2.
Notation xs0 := (run_X n (Nr * Nm) (mm Nc Nm D) (mm Nr Nm (tr D)) S 0 (mm_linear Nc Nm D) (mm_adjoint Nr Nc Nm D HN)).

(** BPDN and ElasticNet (mu > 0) with any penalty: the problem has a minimiser ... *)
Theorem C74_bpdn_exists nonneg lmbda mu wl1 : 0 <= lmbda -> 0 <= mu -> (0 < lmbda /\ forall i, (i < n)%nat -> 0 < wl1 i) \/ 0 < mu ->
  exists p, argmin (nonneg_set nonneg n) (fun x => f x + ridge n mu x + l1reg n lmbda wl1 x) p.
Proof.
  intros Hl Hm H. exact (sc_exists n (Nr * Nm) (mm Nc Nm D) S mu lmbda wl1 (nonneg_set nonneg n) (mm_linear Nc Nm D) (mm_loc Nr Nc Nm D HN) Hm Hl (boxes_nonneg n nonneg) H).
Qed.
(** ... and if it has one, X and Y converge to one. *)
Theorem C74_bpdn nonneg lmbda wl1 st : 0 <= lmbda -> (forall i, (i < n)%nat -> 0 <= wl1 i) ->
  (exists p, argmin (nonneg_set nonneg n) (fun x => f x + l1reg n lmbda wl1 x) p) ->
  exists p, argmin (nonneg_set nonneg n) (fun x => f x + l1reg n lmbda wl1 x) p /\
    tends_to n (fun k => iterate eq_A eq_B eq_c rlx (bpdn_xstep Nr Nm solve D S rho) (bpdn_ystep nonneg lmbda rho wl1) k st) p.
Proof.
  intros Hl Hw [p0 H0].
  destruct (sc_iterates n (Nr * Nm) (mm Nc Nm D) (mm Nr Nm (tr D)) S 0 (mm_linear Nc Nm D) (mm_adjoint Nr Nc Nm D HN) (mm_loc Nr Nc Nm D HN) (nonneg_set nonneg n) (l1reg n lmbda wl1) rlx rho
    (bpdn_xstep Nr Nm solve D S rho) (bpdn_ystep nonneg lmbda rho wl1) ltac:(lra) Hrho (l1reg_convex _ n lmbda wl1 Hl (nonneg_convex nonneg n))
    (xs0 (l1reg n lmbda wl1) rho (bpdn_xstep Nr Nm solve D S rho) ltac:(lra) Hrho (fun Y U => bpdn_X Nr Nc Nm solve D S Hsolve rho Y U Hrho))
    (fun ax u => bpdn_y n nonneg lmbda rho wl1 ax u Hl Hrho Hw) (closed_nonneg n nonneg) (lip_l1reg n lmbda wl1) st Hrlx) as (p & P1 & P2).
  { exists p0. apply argmin_f0. exact H0. }
  exists p. split; [apply argmin_f0 in P1; exact P1|exact P2].
Qed.
Theorem C74_enet nonneg lmbda mu wl1 st : 0 <= lmbda -> 0 <= mu -> (forall i, (i < n)%nat -> 0 <= wl1 i) ->
  (exists p, argmin (nonneg_set nonneg n) (fun x => f x + ridge n mu x + l1reg n lmbda wl1 x) p) ->
  exists p, argmin (nonneg_set nonneg n) (fun x => f x + ridge n mu x + l1reg n lmbda wl1 x) p /\
    tends_to n (fun k => iterate eq_A eq_B eq_c rlx (enet_xstep Nr Nm solve D S mu rho) (bpdn_ystep nonneg lmbda rho wl1) k st) p.
Proof.
  intros Hl Hm Hw H0.
  exact (sc_iterates n (Nr * Nm) (mm Nc Nm D) (mm Nr Nm (tr D)) S mu (mm_linear Nc Nm D) (mm_adjoint Nr Nc Nm D HN) (mm_loc Nr Nc Nm D HN) (nonneg_set nonneg n) (l1reg n lmbda wl1) rlx rho
    (enet_xstep Nr Nm solve D S mu rho) (bpdn_ystep nonneg lmbda rho wl1) Hm Hrho (l1reg_convex _ n lmbda wl1 Hl (nonneg_convex nonneg n))
    (run_X n (Nr * Nm) (mm Nc Nm D) (mm Nr Nm (tr D)) S mu (mm_linear Nc Nm D) (mm_adjoint Nr Nc Nm D HN) (l1reg n lmbda wl1) rho (enet_xstep Nr Nm solve D S mu rho) Hm Hrho (fun Y U => enet_X Nr Nc Nm solve D S Hsolve mu rho Y U Hm Hrho))
    (fun ax u => bpdn_y n nonneg lmbda rho wl1 ax u Hl Hrho Hw) (closed_nonneg n nonneg) (lip_l1reg n lmbda wl1) st Hrlx H0).
Qed.

(** BPDNJoint without non-negativity. *)
Lemma lip_l21 mu : loc_lip n (l21reg Nc Nm mu).
Proof.
  unfold l21reg. apply lip_scal. apply (lip_sumn n Nc (fun i x => nrm Nm (row Nm i x))). intros i Hi. apply (lip_nrm n Nm (fun x => row Nm i x)). intros k Hk. unfold row. apply lip_coord. nia.
Qed.
Theorem C74_joint_exists lmbda mu wl1 : 0 <= mu -> 0 < lmbda -> (forall i, (i < n)%nat -> 0 < wl1 i) ->
  exists p, argmin (fun _ => True) (fun x => f x + (l1reg n lmbda wl1 x + l21reg Nc Nm mu x)) p.
Proof.
  intros Hm Hl Hw. destruct (l1_coercive n lmbda wl1 Hl Hw) as (a & Ha & Ba). apply (coercive_min n _ _ a 0 (boxes_true n)); [|exact Ha|].
  - apply lip_plus; [apply (lip_lsq n (Nr * Nm) _ S (mm_linear Nc Nm D) (mm_loc Nr Nc Nm D HN))|]. apply lip_plus; [apply lip_l1reg|apply lip_l21].
  - intros x _. specialize (Ba x). assert (0 <= f x) by (unfold lsq; pose proof (nrm2_nonneg (Nr * Nm) (fun i => mm Nc Nm D x i - S i)); lra).
    assert (0 <= l21reg Nc Nm mu x) by (unfold l21reg; apply Rmult_le_pos; [exact Hm|]; apply sumn_nonneg; intros; apply nrm_nonneg). lra.
Qed.
Theorem C74_joint lmbda mu wl1 st : 0 <= lmbda -> 0 <= mu -> (forall i, (i < n)%nat -> 0 <= wl1 i) ->
  (exists p, argmin (fun _ => True) (fun x => f x + (l1reg n lmbda wl1 x + l21reg Nc Nm mu x)) p) ->
  exists p, argmin (fun _ => True) (fun x => f x + (l1reg n lmbda wl1 x + l21reg Nc Nm mu x)) p /\
    tends_to n (fun k => iterate eq_A eq_B eq_c rlx (bpdn_xstep Nr Nm solve D S rho) (joint_ystep Nm false lmbda mu rho wl1) k st) p.
Proof.
  intros Hl Hm Hw [p0 H0].
  destruct (sc_iterates n (Nr * Nm) (mm Nc Nm D) (mm Nr Nm (tr D)) S 0 (mm_linear Nc Nm D) (mm_adjoint Nr Nc Nm D HN) (mm_loc Nr Nc Nm D HN) (fun _ => True) (fun y => l1reg n lmbda wl1 y + l21reg Nc Nm mu y) rlx rho
    (bpdn_xstep Nr Nm solve D S rho) (joint_ystep Nm false lmbda mu rho wl1) ltac:(lra) Hrho (plus_convex _ _ _ (l1reg_convex _ n lmbda wl1 Hl true_convex) (l21reg_convex _ Nc Nm mu Hm true_convex))
    (xs0 _ rho (bpdn_xstep Nr Nm solve D S rho) ltac:(lra) Hrho (fun Y U => bpdn_X Nr Nc Nm solve D S Hsolve rho Y U Hrho))
    (fun ax u => Logic.conj Logic.I (joint_y Nc Nm lmbda mu rho wl1 ax u HN Hl Hm Hrho Hw)) (closed_true n) (lip_plus n _ _ (lip_l1reg n lmbda wl1) (lip_l21 mu)) st Hrlx) as (p & P1 & P2).
  { exists p0. apply (argmin_f0 Nr Nc Nm D S (fun _ => True) (fun x => l1reg n lmbda wl1 x + l21reg Nc Nm mu x)). exact H0. }
  exists p. split; [apply (argmin_f0 Nr Nc Nm D S (fun _ => True) (fun x => l1reg n lmbda wl1 x + l21reg Nc Nm mu x)) in P1; exact P1|exact P2].
Qed.

(** BPDNProjL1 without non-negativity: the constraint set is bounded, so that a minimiser always exists. *)
Lemma lip_nrm1 k : (k < Nm)%nat -> loc_lip n (fun x => nrm1 Nc (col Nm k x)).
Proof. intros Hk. unfold nrm1. apply (lip_sumn n Nc (fun i x => Rabs (col Nm k x i))). intros i Hi. apply lip_abs. unfold col. apply lip_coord. nia. Qed.
Lemma projl1_exists gamma : 0 <= gamma -> exists p, argmin (l1ball_cols Nc Nm gamma) f p.
Proof.
  intros Hg.
  assert (In : forall x, l1ball_cols Nc Nm gamma x -> within n gamma x).
  { intros x Hx i Hi. assert (Hk : (i mod Nm < Nm)%nat) by (apply Nat.mod_upper_bound; lia). specialize (Hx _ Hk). unfold nrm1 in Hx.
    assert (Hd : (i / Nm < Nc)%nat) by (apply Nat.div_lt_upper_bound; lia).
    pose proof (sumn_ge_term Nc (fun j => Rabs (col Nm (i mod Nm) x j)) (i / Nm) ltac:(intros; apply Rabs_pos) Hd) as Q. cbv beta in Q. unfold col at 1 in Q.
    replace (i / Nm * Nm + i mod Nm)%nat with i in Q by (rewrite (Nat.div_mod i Nm) at 1 by lia; lia). lra. }
  destruct (constrained_min n (within n gamma) f 1 (INR n * gamma) Nm (fun k x => nrm1 Nc (col Nm k x) + - gamma) (fun _ => 0)) as [p [[P1 P2] P3]].
  - apply boxes_bounded. exact Hg.
  - apply (lip_lsq n (Nr * Nm) _ S (mm_linear Nc Nm D) (mm_loc Nr Nc Nm D HN)).
  - intros k Hk. apply lip_plus; [apply lip_nrm1; exact Hk|apply lip_const].
  - lra.
  - intros x Hx. assert (0 <= f x) by (unfold lsq; pose proof (nrm2_nonneg (Nr * Nm) (fun i => mm Nc Nm D x i - S i)); lra).
    pose proof (dist_zero n gamma x Hx) as Q. unfold dist1 in Q. rewrite (sumn_ext n (fun i => Rabs (x i - 0)) (fun i => Rabs (x i))) in Q by (intros; rewrite Rminus_0_r; reflexivity). lra.
  - apply zero_within. exact Hg.
  - intros k Hk. unfold nrm1. rewrite (sumn_0 Nc) by (intros i _; unfold col; apply Rabs_R0). lra.
  - exists p. split; [intros k Hk; specialize (P2 k Hk); cbv beta in P2; lra|]. intros x Hx. apply P3. split; [apply In; exact Hx|]. intros k Hk. specialize (Hx k Hk). lra.
Qed.
Theorem C74_projl1 gamma st : 0 <= gamma ->
  exists p, argmin (l1ball_cols Nc Nm gamma) f p /\
    tends_to n (fun k => iterate eq_A eq_B eq_c rlx (bpdn_xstep Nr Nm solve D S rho) (projl1_ystep Nc Nm false gamma) k st) p.
Proof.
  intros Hg. destruct (projl1_exists gamma Hg) as [p0 [H1 H2]].
  assert (Cl : closed n (l1ball_cols Nc Nm gamma)).
  { apply (closed_all n nat (fun k => (k < Nm)%nat) (fun k x => nrm1 Nc (col Nm k x) <= gamma)). intros k Hk. apply closed_level. apply lip_nrm1. exact Hk. }
  destruct (sc_iterates n (Nr * Nm) (mm Nc Nm D) (mm Nr Nm (tr D)) S 0 (mm_linear Nc Nm D) (mm_adjoint Nr Nc Nm D HN) (mm_loc Nr Nc Nm D HN) (l1ball_cols Nc Nm gamma) (fun _ => 0) rlx rho
    (bpdn_xstep Nr Nm solve D S rho) (projl1_ystep Nc Nm false gamma) ltac:(lra) Hrho (ball_convex Nc Nm gamma)
    (xs0 _ rho (bpdn_xstep Nr Nm solve D S rho) ltac:(lra) Hrho (fun Y U => bpdn_X Nr Nc Nm solve D S Hsolve rho Y U Hrho))
    (fun ax u => projl1_y Nc Nm gamma rho ax u HC HN Hg Hrho) Cl (lip_const n 0) st Hrlx) as (p & P1 & P2).
  { exists p0. apply (argmin_f0 Nr Nc Nm D S (l1ball_cols Nc Nm gamma) (fun _ => 0)). split; [exact H1|]. intros x Hx. specialize (H2 x Hx). lra. }
  exists p. split; [|exact P2]. apply (argmin_f0 Nr Nc Nm D S (l1ball_cols Nc Nm gamma) (fun _ => 0)) in P1. destruct P1 as [P1 P3]. split; [exact P1|]. intros x Hx. specialize (P3 x Hx). cbv beta in P3. lra.
Qed.
(** MinL1InL2Ball, if some allowed coefficients have the residual of every column strictly inside the ball. *)
Theorem C74_minl1 nonneg epsilon wl1 st x0 : (0 < Nr)%nat -> (forall i, (i < n)%nat -> 0 < wl1 i) ->
  nonneg_set nonneg n x0 -> (forall k, (k < Nm)%nat -> nrm Nr (fun i => col Nm k (mm Nc Nm D x0) i - col Nm k S i) < epsilon) ->
  let run k := iterate (tb_A n (fun x => x) (mm Nc Nm D)) tb_B (block_cat n (fun _ => 0) (fun _ => 0)) rlx (minl1_xstep Nr Nc Nm solve D) (minl1_ystep Nr Nc Nm S nonneg rho wl1 epsilon) k st in
  exists p, argmin (fun x => nonneg_set nonneg n x /\ l2ball_cols Nr Nm S epsilon (mm Nc Nm D x)) (l1reg n 1 wl1) p /\ tends_to n run p.
Proof. intros HR Hw E0 Sl. exact (minl1_limit Nr Nc Nm solve D S HR HN Hsolve rlx rho epsilon nonneg wl1 Hrho Hrlx Hw st x0 E0 Sl). Qed.
End C74_bpdn.
Print Assumptions C74_bpdn_exists.
Print Assumptions C74_bpdn.
Print Assumptions C74_enet.
Print Assumptions C74_joint_exists.
Print Assumptions C74_joint.
Print Assumptions C74_projl1.
Print Assumptions C74_minl1.

(** Convolutional sparse coding: ConvBPDN, ConvElasticNet and ConvBPDNGradReg. *)
Section C74_csc.
Variables (s dsh : nat -> nat) (axes : list nat) (M Cd : nat) (D : nat -> nat -> index -> R) (S W : nat -> index -> R) (q : quad) (base : index).
Variables (rho rlx lmbda epsilon : R) (z : nat -> bool) (nonneg : bool) (wl1 : vec).
Hypothesis ND : NoDup axes.
Hypothesis Hne : axes <> [].
Hypothesis Hs : forall ax, In ax axes -> (0 < s ax)%nat.
Hypothesis HC : (0 < Cd)%nat.
Hypothesis Hq : quad_valid s axes M q.
Hypothesis Hrho : 0 < rho.
Hypothesis Hrlx : 0 < rlx < 2.
Hypothesis Hl : 0 <= lmbda.
Notation n := (M * size s axes)%nat.
Notation m0 := (Cd * size s axes)%nat.
Hypothesis Hw : forall i, (i < n)%nat -> 0 <= wl1 i.
Notation F := (csc_objective s dsh axes M Cd D S q base lmbda wl1).

Theorem C74_csc_exists : (0 < lmbda /\ forall i, (i < n)%nat -> 0 < wl1 i) \/ (exists mu, q = QElastic mu /\ 0 < mu) -> exists p, argmin (allowed n z nonneg) F p.
Proof.
  intros H. destruct (sc_exists n ((Cd + nG axes M q) * size s axes) (Lop s dsh axes M Cd D q base) (sv s axes Cd S base) (q_mu q) lmbda wl1 (masked n z nonneg)
    (Lop_linear s dsh axes M Cd D q base) (Lop_local s dsh axes M Cd D q base ND Hne Hs) (mu_nonneg72 s axes M q Hq) Hl (boxes_masked n z nonneg)) as [p [P1 P2]].
  { destruct H as [H|[mu [-> Hmu]]]; [left; exact H|right; exact Hmu]. }
  exists p. split; [apply allowed72; exact P1|]. intros x Hx. apply allowed72 in Hx. specialize (P2 x Hx). cbv beta in P2. rewrite !obj72 in P2 by assumption. exact P2.
Qed.
Theorem C74_csc st : (exists p, argmin (allowed n z nonneg) F p) ->
  exists p, argmin (allowed n z nonneg) F p /\ tends_to n (fun k => cs_iterate s dsh axes M Cd D S q rho rlx base z nonneg lmbda wl1 k st) p.
Proof.
  intros [p0 [H1 H2]]. destruct (Lop_adjoint s dsh axes M Cd D q base ND Hne Hs) as [LT HA].
  destruct (sc_iterates n ((Cd + nG axes M q) * size s axes) (Lop s dsh axes M Cd D q base) LT (sv s axes Cd S base) (q_mu q)
    (Lop_linear s dsh axes M Cd D q base) HA (Lop_local s dsh axes M Cd D q base ND Hne Hs) (masked n z nonneg) (l1reg n lmbda wl1) rlx rho
    (cs_xstep s dsh axes M Cd D S q rho base) (cs_ystep z nonneg lmbda rho wl1) (mu_nonneg72 s axes M q Hq) Hrho (l1reg_convex _ n lmbda wl1 Hl (masked_convex n z nonneg))
    (x72 s dsh axes M Cd D S q base rho lmbda wl1 ND Hne Hs HC Hq Hrho)
    (fun ax u => cs_y n z nonneg lmbda rho wl1 ax u Hl Hrho Hw) (closed_masked n z nonneg) (lip_l1reg n lmbda wl1) st Hrlx) as (p & [P1 P2] & P3).
  { exists p0. split; [apply allowed72; exact H1|]. intros x Hx. apply allowed72 in Hx. rewrite !obj72 by assumption. apply H2. exact Hx. }
  exists p. split; [|exact P3]. split; [apply allowed72; exact P1|]. intros x Hx. apply allowed72 in Hx. specialize (P2 x Hx). cbv beta in P2. rewrite !obj72 in P2 by assumption. exact P2.
Qed.

(** ConvBPDNMaskDcpl: X and the coefficients returned by solve converge to a minimiser. *)
Notation FM := (fun x => masked_fit s dsh axes M Cd D S W base x + lmbda * wl1norm n wl1 x).
Notation L := (Lw s dsh axes M Cd D base).
Notation S0 := (s0 s axes S base).
Notation Wv := (cs_flat s axes base W).
Notation mrun := (mask_iterate s dsh axes M Cd D S base rlx rho z nonneg lmbda wl1 (cs_flat s axes base W)).
Notation brun := (ball_iterate s dsh axes M Cd D S base rlx rho z nonneg wl1 epsilon).
Definition coefs_tend_to (st : nat -> state) (p : vec) : Prop :=
  forall i, (i < n)%nat -> Un_cv (fun k => sX (st k) i) (p i) /\ Un_cv (fun k => getcoef s axes Cd (st k) i) (p i).
Theorem C74_mask_exists : 0 < lmbda -> (forall i, (i < n)%nat -> 0 < wl1 i) -> exists p, argmin (allowed n z nonneg) FM p.
Proof.
  intros Hl0 Hw0. destruct (mask_exists n m0 L S0 Wv (masked n z nonneg) lmbda wl1 (Lw_linear s dsh axes M Cd D base) (Lw_local s dsh axes M Cd D base ND Hne Hs HC) Hl0 Hw0 (boxes_masked n z nonneg)) as [p [P1 P2]].
  exists p. split; [apply allowed72; exact P1|]. intros x Hx. apply allowed72 in Hx. specialize (P2 x Hx). rewrite !obj_mask in P2 by assumption. exact P2.
Qed.
Lemma tfeas_true x : tfeas L S0 (fun _ => True) (masked n z nonneg) x <-> masked n z nonneg x.
Proof. unfold tfeas. tauto. Qed.
Theorem C74_mask st : (exists p, argmin (allowed n z nonneg) FM p) -> exists p, argmin (allowed n z nonneg) FM p /\ coefs_tend_to (fun k => mrun k st) p.
Proof.
  intros [p0 [H1 H2]].
  assert (M0 : argmin (masked n z nonneg) (tobj L S0 (wfit m0 Wv) (l1reg n lmbda wl1)) p0).
  { split; [apply allowed72; exact H1|]. intros x Hx. apply allowed72 in Hx. rewrite !obj_mask by assumption. apply H2. exact Hx. }
  destruct (mask_saddle n m0 L S0 Wv (masked n z nonneg) (l1reg n lmbda wl1) rho (Lw_linear s dsh axes M Cd D base) (Lw_local s dsh axes M Cd D base ND Hne Hs HC)
    (l1reg_convex _ n lmbda wl1 Hl (masked_convex n z nonneg)) Hrho p0 M0) as [u Sd].
  destruct (two_iterates n m0 L S0 (fun _ => True) (masked n z nonneg) (wfit m0 Wv) (l1reg n lmbda wl1) rlx rho (cs2_xstep s dsh axes M Cd D S base) (mask_ystep s axes Cd S base z nonneg lmbda rho wl1 Wv)
    (Lw_linear s dsh axes M Cd D base) (Lw_local s dsh axes M Cd D base ND Hne Hs HC) (wfit_convex m0 Wv)
    (l1reg_convex _ n lmbda wl1 Hl (masked_convex n z nonneg)) Hrho (cs2_x s dsh axes M Cd D S base ND Hne Hs HC)
    (mask_Y0 m0 S0 Wv rho (mask_ystep s axes Cd S base z nonneg lmbda rho wl1 Wv) Hrho (mask_ys s axes Cd S W base rho lmbda z nonneg wl1))
    (mask_y1 s axes M Cd S W base rho lmbda z nonneg wl1 Hrho Hl Hw)
    (closed_true m0) (closed_masked n z nonneg) (lip_wfit m0 Wv) (lip_l1reg n lmbda wl1) st _ _ u Hrlx Sd) as (p & [[_ P1] P2] & P3).
  exists p. split.
  - split; [apply allowed72; exact P1|]. intros x Hx. apply allowed72 in Hx. specialize (P2 x (Logic.conj Logic.I Hx)). rewrite !obj_mask in P2 by assumption. exact P2.
  - intros i Hi. destruct (P3 i Hi) as [Q1 Q2]. split; [revert Q1|revert Q2]; apply cv_ext; intros k; unfold mask_iterate; rewrite iterate_A by assumption; reflexivity.
Qed.

(** ConvMinL1InL2Ball, if some allowed coefficients have the residual of every channel strictly inside the ball. *)
Notation in_balls := (fun x => (forall c, (c < Cd)%nat -> channel_residual s dsh axes M D S base x c <= epsilon) /\ allowed n z nonneg x).
Lemma residual_row x c : (c < Cd)%nat -> nrm (size s axes) (row (size s axes) c (fun i => L x i - S0 i)) = channel_residual s dsh axes M D S base x c.
Proof.
  intros Hc. unfold nrm, channel_residual, nrm2, dot, sqn. f_equal. rewrite <- (sum_slice s axes base Hs). apply sumn_ext. intros k Hk. unfold row. rewrite Lw_at, s0_at by assumption. reflexivity.
Qed.
Theorem C74_ball_exists x0 : (forall i, (i < n)%nat -> 0 < wl1 i) -> in_balls x0 -> exists p, argmin in_balls (wl1norm n wl1) p.
Proof.
  intros Hw0 [H0 A0]. assert (E0 : 0 <= epsilon) by (eapply Rle_trans; [|apply (H0 O HC)]; apply sqrt_pos). assert (P0 : (0 < size s axes)%nat) by (apply P_pos'; exact Hs).
  destruct (ball_exists n (size s axes) Cd L S0 (masked n z nonneg) epsilon P0 (Lw_linear s dsh axes M Cd D base) (Lw_local s dsh axes M Cd D base ND Hne Hs HC) E0 1 wl1 x0) as [p [P1 P2]].
  all: try assumption; try lra.
  { apply boxes_masked. }
  { apply allowed72. exact A0. }
  { intros c Hc. rewrite residual_row by exact Hc. apply H0. exact Hc. }
  exists p. split; [apply (feas_ball s dsh axes M Cd D S base epsilon z nonneg Hs HC); exact P1|]. intros x Hx. apply (feas_ball s dsh axes M Cd D S base epsilon z nonneg Hs HC) in Hx.
  specialize (P2 x Hx). rewrite !obj_ball in P2. exact P2.
Qed.
Theorem C74_ball st x0 : (forall i, (i < n)%nat -> 0 < wl1 i) ->
  allowed n z nonneg x0 -> (forall c, (c < Cd)%nat -> channel_residual s dsh axes M D S base x0 c < epsilon) ->
  exists p, argmin in_balls (wl1norm n wl1) p /\ coefs_tend_to (fun k => brun k st) p.
Proof.
  intros Hw0 A0 H0. assert (Heps : 0 <= epsilon) by (left; eapply Rle_lt_trans; [|apply (H0 O HC)]; apply sqrt_pos). assert (P0 : (0 < size s axes)%nat) by (apply P_pos'; exact Hs).
  destruct (C74_ball_exists x0 Hw0) as [p0 [I0 M0]]; [split; [intros c Hc; left; apply H0; exact Hc|exact A0]|].
  assert (Cv : convex_on (masked n z nonneg) (l1reg n 1 wl1)) by (apply l1reg_convex; [lra|apply masked_convex]).
  destruct (ball_saddle n (size s axes) Cd L S0 (masked n z nonneg) (l1reg n 1 wl1) rho epsilon P0 (Lw_linear s dsh axes M Cd D base) (Lw_local s dsh axes M Cd D base ND Hne Hs HC) Cv Hrho) with (x0 := x0) (p := p0) as [u Sd].
  all: try assumption.
  { apply allowed72. exact A0. }
  { intros c Hc. rewrite residual_row by exact Hc. apply H0. exact Hc. }
  { split; [apply (feas_ball s dsh axes M Cd D S base epsilon z nonneg Hs HC); exact I0|]. intros x Hx. apply (feas_ball s dsh axes M Cd D S base epsilon z nonneg Hs HC) in Hx.
    rewrite !obj_ball. apply M0. exact Hx. }
  destruct (two_iterates n m0 L S0 (balls s axes Cd epsilon) (masked n z nonneg) (fun _ => 0) (l1reg n 1 wl1) rlx rho (cs2_xstep s dsh axes M Cd D S base) (ball_ystep s axes Cd S base z nonneg rho wl1 epsilon)
    (Lw_linear s dsh axes M Cd D base) (Lw_local s dsh axes M Cd D base ND Hne Hs HC) (balls_convex s axes Cd epsilon) Cv Hrho (cs2_x s dsh axes M Cd D S base ND Hne Hs HC)
    (fun ax u => ball_Y0 s axes Cd S base Hs HC z nonneg rho wl1 epsilon ax u Hrho Heps) (ball_y1 s axes M Cd S base rho epsilon z nonneg wl1 Hrho Hw)) with (st := st) (p0 := p0) (y0 := block_cat m0 (fun i => L p0 i - S0 i) p0) (u0 := u) as (p & [P1 P2] & P3).
  all: try assumption.
  { apply (closed_all m0 nat (fun c => (c < Cd)%nat) (fun c y => nrm (size s axes) (row (size s axes) c y) <= epsilon)). intros c Hc. apply closed_level. apply (lip_nrm m0 _ (fun y => row (size s axes) c y)).
    intros k Hk. unfold row. apply lip_coord. nia. }
  { apply closed_masked. }
  { apply lip_const. }
  { apply lip_l1reg. }
  exists p. split.
  - split; [apply (feas_ball s dsh axes M Cd D S base epsilon z nonneg Hs HC); exact P1|]. intros x Hx. apply (feas_ball s dsh axes M Cd D S base epsilon z nonneg Hs HC) in Hx.
    specialize (P2 x Hx). rewrite !obj_ball in P2. exact P2.
  - intros i Hi. destruct (P3 i Hi) as [Q1 Q2]. split; [revert Q1|revert Q2]; apply cv_ext; intros k; unfold ball_iterate; rewrite iterate_A by assumption; reflexivity.
Qed.
End C74_csc.
Print Assumptions C74_csc_exists.
Print Assumptions C74_csc.
Print Assumptions C74_mask_exists.
Print Assumptions C74_mask.
Print Assumptions C74_ball_exists.
Print Assumptions C74_ball.
(** In the problem of C72_ex, from any start X and Y converge to the signal reduced by 1/2. *)
Example C74_ex st rho rlx : 0 < rho -> 0 < rlx < 2 ->
  tends_to 2 (fun k => cs_iterate ex_s (fun _ => 1%nat) [O] 1 1 (fun _ _ _ => 1) ex_S QNone rho rlx (fun _ => O) (fun _ => false) true (1 / 2) (fun _ => 1) k st) (fun i => match i with O => 5 / 2 | _ => 1 / 2 end).
Proof.
  intros Hr Hx. assert (ND : NoDup [O]) by (constructor; [simpl; tauto|constructor]).
  assert (Hs : forall ax, In ax [O] -> (0 < ex_s ax)%nat) by (intros ax [<-|[]]; unfold ex_s; simpl; lia).
  destruct (C74_csc ex_s (fun _ => 1%nat) [O] 1 1 (fun _ _ _ => 1) ex_S QNone (fun _ => O) rho rlx (1 / 2) (fun _ => false) true (fun _ => 1) ND ltac:(discriminate) Hs ltac:(lia) Logic.I Hr Hx ltac:(lra) ltac:(intros; lra) st) as (p & [P1 P2] & P3).
  { apply C74_csc_exists; try assumption; try discriminate; try lia; try lra; try exact Logic.I; try (intros; lra). left. split; [lra|intros; lra]. }
  destruct C72_ex as [Q1 Q2]. specialize (P2 _ Q1). clear Q2.
  change (1 * size ex_s [O])%nat with 2%nat in *.
  assert (E : p 0%nat = 5 / 2 /\ p 1%nat = 1 / 2).
  { destruct (P1 0%nat ltac:(lia)) as [H0 _]. destruct (P1 1%nat ltac:(lia)) as [H1 _]. specialize (H0 eq_refl). specialize (H1 eq_refl).
    revert P2. unfold csc_objective. change (1 * size ex_s [O])%nat with 2%nat. unfold datafit, sqn, quad_term. cbn [sumn total ex_s Nat.eqb]. rewrite !ex_synth by (unfold set_at; simpl; lia).
    unfold ex_S, set_at. cbn [rank size Nat.eqb Nat.mul Nat.add ex_s].
    rewrite !Rmult_1_l, (Rabs_pos_eq (p O)), (Rabs_pos_eq (p 1%nat)), (Rabs_pos_eq (5 / 2)), (Rabs_pos_eq (1 / 2)) by lra. intros P2.
    assert (Q : (p O - 5 / 2) * (p O - 5 / 2) + (p 1%nat - 1 / 2) * (p 1%nat - 1 / 2) <= 0) by lra.
    pose proof (Rle_0_sqr (p O - 5 / 2)) as Z0. pose proof (Rle_0_sqr (p 1%nat - 1 / 2)) as Z1. unfold Rsqr in *.
    assert (Y0 : (p O - 5 / 2) * (p O - 5 / 2) = 0) by lra. assert (Y1 : (p 1%nat - 1 / 2) * (p 1%nat - 1 / 2) = 0) by lra.
    apply Rmult_integral in Y0. apply Rmult_integral in Y1. lra. }
  destruct E as [E0 E1]. intros i Hi. specialize (P3 i Hi). destruct i as [|[|i]]; [rewrite E0 in P3|rewrite E1 in P3|lia]; exact P3.
Qed.
