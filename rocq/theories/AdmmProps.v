(** C35, C36 (general form) and C38: the ADMM solver classes. *)
Require Import Reals Lra Lia FunctionalExtensionality Arith.
Require Import Verif.RVec Verif.AdmmModel Verif.AdmmSpec Verif.AdmmProofs Verif.AdmmConv.
Local Open Scope R_scope.

(** ** C35 *)
Lemma nrm_opp n x : nrm n (fun i => - x i) = nrm n x.
Proof. unfold nrm, nrm2, dot. f_equal. apply sumn_ext. intros. ring. Qed.
Lemma nrm_zero n : nrm n (fun _ => 0) = 0.
Proof. unfold nrm. rewrite nrm2_zero. apply sqrt_0. Qed.

Theorem C35_equal : forall rlx rho n X Y Yprev AX U i,
  eq_relax_AX rlx X Y i = relax_AX eq_A eq_B eq_c rlx X Y i /\
  eq_rsdl_r AX Y i = rsdl_r eq_B eq_c AX Y i /\
  eq_rsdl_s rho Yprev Y i = rsdl_s eq_AT eq_B rho Yprev Y i /\
  eq_rsdl_rn n AX Y = rsdl_rn eq_B eq_c n AX Y /\
  eq_rsdl_sn rho n U = rsdl_sn eq_AT rho n U.
Proof.
  intros. unfold eq_relax_AX, relax_AX, eq_rsdl_r, rsdl_r, eq_rsdl_s, rsdl_s, eq_rsdl_rn, rsdl_rn, eq_rsdl_sn, rsdl_sn, eq_A, eq_AT, eq_B, eq_c.
  repeat split; try ring.
  - destruct (Req_EM_T rlx 1); [reflexivity|ring].
  - rewrite nrm_opp, nrm_zero. symmetry. apply Rmax_left. eapply Rle_trans; [apply (nrm_nonneg n AX)|apply Rmax_l].
Qed.

Lemma nrm2_cat b m1 x y : nrm2 (b + m1) (block_cat b x y) = nrm2 b x + nrm2 m1 y.
Proof.
  unfold nrm2, dot. rewrite sumn_split. f_equal; apply sumn_ext; intros i Hi; unfold block_cat.
  - destruct (Nat.ltb_spec i b); [reflexivity|lia].
  - destruct (Nat.ltb_spec (b + i) b); [lia|]. replace (b + i - b)%nat with i by lia. reflexivity.
Qed.
Lemma cat_shift b c0 c1 Y i : block_cat b (fun j => block_sep0 Y j + c0 j) (fun j => block_sep1 b Y j + c1 j) i = Y i + block_cat b c0 c1 i.
Proof.
  unfold block_cat, block_sep0, block_sep1. destruct (Nat.ltb_spec i b); [reflexivity|]. replace (b + (i - b))%nat with i by lia. reflexivity.
Qed.

(** The two-block class, for the constraint constant made of the two blocks. *)
Theorem C35_two_block : forall b m1 A0 A0T A1 A1T c0 c1 rlx rho n X Y Yprev AX U i,
  tb_relax_AX b A0 A1 c0 c1 rlx X Y i = relax_AX (tb_A b A0 A1) tb_B (block_cat b c0 c1) rlx X Y i /\
  tb_rsdl_r b c0 c1 AX Y i = rsdl_r tb_B (block_cat b c0 c1) AX Y i /\
  tb_rsdl_s b A0T A1T rho Yprev Y i = rsdl_s (tb_AT b A0T A1T) tb_B rho Yprev Y i /\
  tb_rsdl_rn b c0 c1 m1 AX Y = rsdl_rn tb_B (block_cat b c0 c1) (b + m1) AX Y /\
  tb_rsdl_sn b A0T A1T rho n U = rsdl_sn (tb_AT b A0T A1T) rho n U.
Proof.
  intros. repeat split.
  - unfold tb_relax_AX, relax_AX, tb_B. destruct (Req_EM_T rlx 1); [reflexivity|]. rewrite cat_shift. ring.
  - unfold tb_rsdl_r, rsdl_r, tb_B. rewrite cat_shift. ring.
  - unfold tb_rsdl_s, rsdl_s, tb_B. do 2 f_equal. extensionality j. ring.
  - unfold tb_rsdl_rn, rsdl_rn, tb_B. rewrite nrm_opp, !nrm_sqr. f_equal. unfold nrm at 1. rewrite nrm2_cat. reflexivity.
Qed.

(** The overriding dual residual of the two-block problems: the x step solves the normal equations of its least squares
    problem. Without relaxation it is the general one; in general it accumulates. *)
Definition lin (n : nat) (T : vec -> vec) : Prop :=
  forall a x b y i, (i < n)%nat -> T (fun j => a * x j + b * y j) i = a * T x i + b * T y i.
Lemma dual_recurrence n A T c rlx X Yprev Y Uprev U i :
  (i < n)%nat -> lin n T ->
  (forall k, (k < n)%nat -> T (fun j => A X j - (Yprev j - Uprev j + c j)) k = 0) ->
  U = ustep tb_B c (relax_AX A tb_B c rlx X Yprev) Y Uprev ->
  T U i = (1 - rlx) * T Uprev i + T (fun j => Yprev j - Y j) i.
Proof.
  intros Hi L Hx ->.
  assert (E : T (ustep tb_B c (relax_AX A tb_B c rlx X Yprev) Y Uprev) =
              T (fun j => 1 * (fun j => rlx * (fun j => A X j - (Yprev j - Uprev j + c j)) j + (1 - rlx) * Uprev j) j + 1 * (fun j => Yprev j - Y j) j)).
  { f_equal. extensionality j. unfold ustep, rsdl_r. rewrite relax_eq. unfold tb_B. ring. }
  rewrite E, (L 1 _ 1 _ i Hi), (L rlx _ (1 - rlx) _ i Hi), (Hx i Hi). ring.
Qed.
Theorem C35_two_block_dual : forall n b A0 A1 A0T A1T c0 c1 rlx rho X Yprev Y Uprev U i,
  (i < n)%nat -> lin n (tb_AT b A0T A1T) ->
  (forall k, (k < n)%nat -> tb_AT b A0T A1T (fun j => tb_A b A0 A1 X j - (Yprev j - Uprev j + block_cat b c0 c1 j)) k = 0) ->
  U = ustep tb_B (block_cat b c0 c1) (tb_relax_AX b A0 A1 c0 c1 rlx X Yprev) Y Uprev ->
  tb_rsdl_s' b A0T A1T rho U i = (1 - rlx) * tb_rsdl_s' b A0T A1T rho Uprev i + tb_rsdl_s b A0T A1T rho Yprev Y i.
Proof.
  intros n b A0 A1 A0T A1T c0 c1 rlx rho X Yprev Y Uprev U i Hi L Hx HU. unfold tb_rsdl_s', tb_rsdl_s.
  rewrite (dual_recurrence n (tb_A b A0 A1) (tb_AT b A0T A1T) (block_cat b c0 c1) rlx X Yprev Y Uprev U i Hi L Hx); [ring|].
  rewrite HU. f_equal. extensionality j. apply (C35_two_block b 0 A0 A0T A1 A1T c0 c1 rlx rho n X Yprev Y X U j).
Qed.
Theorem C35_two_block_dual_relaxed_refuted : exists n b A0 A1 A0T A1T c0 c1 rlx rho X Yprev Y Uprev U,
  rlx = 18 / 10 /\ lin n (tb_AT b A0T A1T) /\
  (forall k, (k < n)%nat -> tb_AT b A0T A1T (fun j => tb_A b A0 A1 X j - (Yprev j - Uprev j + block_cat b c0 c1 j)) k = 0) /\
  U = ustep tb_B (block_cat b c0 c1) (tb_relax_AX b A0 A1 c0 c1 rlx X Yprev) Y Uprev /\
  nrm n (tb_rsdl_s' b A0T A1T rho U) <> nrm n (tb_rsdl_s b A0T A1T rho Yprev Y).
Proof.
  set (one := fun i => if Nat.eqb i 0 then 1 else 0).
  exists 1%nat, 1%nat, (fun x => x), (fun x => x), (fun x => x), (fun x => x), (fun _ => 0), (fun _ => 0), (18 / 10), 1,
    (fun i => - / 2 * one i), (fun _ => 0), (fun _ => 0), one.
  eexists. split; [reflexivity|]. split; [|split; [|split; [reflexivity|]]].
  - intros a x b y i Hi. unfold tb_AT, block_sep0, block_sep1. ring.
  - intros [|k] Hk; [|lia]. unfold tb_AT, block_sep0, block_sep1, tb_A, block_cat, one. simpl. lra.
  - intros H.
    assert (E2 : nrm 1 (tb_rsdl_s 1 (fun x => x) (fun x => x) 1 (fun _ => 0) (fun _ => 0)) = 0).
    { rewrite <- (nrm_zero 1). apply nrm_ext. intros i _. unfold tb_rsdl_s, tb_AT, block_sep0, block_sep1. ring. }
    rewrite E2 in H. apply nrm_0 with (i := 0%nat) in H; [|lia]. revert H.
    unfold tb_rsdl_s', tb_AT, block_sep0, block_sep1, ustep, rsdl_r, tb_relax_AX, tb_B, tb_A, block_cat, one. simpl.
    destruct (Req_EM_T (18 / 10) 1); [lra|]. intros H. unfold block_sep0, block_sep1 in H. simpl in H. lra.
Qed.
Theorem C35_two_block_dual_norm_refuted : exists n b m1 A0T A1T rho U, 0 < rho /\
  (forall x y, dot (b + m1) (tb_A b (fun x => x) (fun x => x) x) y = dot n x (tb_AT b A0T A1T y)) /\
  tb_rsdl_sn' b rho m1 U <> rsdl_sn (tb_AT b A0T A1T) rho n U.
Proof.
  exists 1%nat, 1%nat, 1%nat, (fun x => x), (fun x => x), 1, (fun i => if Nat.eqb i 0 then 1 else -1). split; [lra|]. split.
  - intros x y. unfold dot, tb_A, tb_AT, block_cat, block_sep0, block_sep1. simpl. ring.
  - unfold tb_rsdl_sn', rsdl_sn, nrm, nrm2, dot, tb_AT, block_sep0, block_sep1. simpl.
    replace (0 + (1 + -1) * (1 + -1)) with 0 by ring. rewrite sqrt_0.
    assert (0 < sqrt (0 + 1 * 1 + -1 * -1)) by (apply sqrt_lt_R0; lra). lra.
Qed.

(** ** Consensus: the blocks stacked in a single vector. *)
Definition flat (n : nat) (X : mvec) : vec := fun p => X (p / n)%nat (p mod n)%nat.
Lemma sumn_flat n nb F : (0 < n)%nat -> sumn (nb * n) F = sumn nb (fun j => sumn n (fun i => F (j * n + i)%nat)).
Proof.
  intros Hn. induction nb as [|nb IH]; [reflexivity|]. simpl sumn at 2. rewrite <- IH.
  replace (S nb * n)%nat with (nb * n + n)%nat by lia. rewrite sumn_split. reflexivity.
Qed.
Lemma flat_at n X j i : (i < n)%nat -> flat n X (j * n + i)%nat = X j i.
Proof.
  intros Hi. unfold flat. replace ((j * n + i) / n)%nat with j.
  - rewrite Nat.add_comm, Nat.mod_add by lia. rewrite Nat.mod_small by exact Hi. reflexivity.
  - rewrite Nat.add_comm, Nat.div_add by lia. rewrite Nat.div_small by exact Hi. reflexivity.
Qed.
Lemma nrm2_flat n nb X : (0 < n)%nat -> nrm2 (nb * n) (flat n X) = sumn nb (fun j => nrm2 n (X j)).
Proof.
  intros Hn. unfold nrm2, dot. rewrite sumn_flat by exact Hn. apply sumn_ext. intros j _. apply sumn_ext. intros i Hi. rewrite flat_at by exact Hi. reflexivity.
Qed.
Lemma nrm_flat n nb X : (0 < n)%nat -> nrm (nb * n) (flat n X) = mnrm nb n X.
Proof. intros Hn. unfold nrm, mnrm. rewrite nrm2_flat by exact Hn. reflexivity. Qed.
Lemma nrm_flat_scaled n nb a Y : (0 < n)%nat -> nrm (nb * n) (flat n (fun j i => a j * Y i)) = sqrt (sumn nb (fun j => a j ^ 2)) * nrm n Y.
Proof.
  intros Hn. unfold nrm. rewrite nrm2_flat by exact Hn. rewrite <- sqrt_mult.
  - f_equal. rewrite <- sumn_scal_r. apply sumn_ext. intros j _. change (fun i => a j * Y i) with (vscal (a j) Y). rewrite nrm2_scal. ring.
  - apply sumn_nonneg. intros. nra.
  - apply nrm2_nonneg.
Qed.

(** Constraint operators: x_j = y for every block. *)
Definition cA (X : vec) : vec := X.
Definition cB (n : nat) (Y : vec) : vec := flat n (fun _ i => - Y i).
Theorem C35_consensus : forall nb n rlx rho X Y Yprev AX U p, (0 < n)%nat ->
  flat n (cn_relax_AX rlx X Y) p = relax_AX cA (cB n) (fun _ => 0) rlx (flat n X) Y p /\
  flat n (cn_rsdl_r AX Y) p = rsdl_r (cB n) (fun _ => 0) (flat n AX) Y p /\
  flat n (cn_ustep AX Y U) p = ustep (cB n) (fun _ => 0) (flat n AX) Y (flat n U) p /\
  (0 <= rho -> nrm n (cn_rsdl_s nb rho Yprev Y) = nrm (nb * n) (rsdl_s cA (cB n) rho Yprev Y)) /\
  cn_rsdl_rn nb n AX Y = rsdl_rn (cB n) (fun _ => 0) (nb * n) (flat n AX) Y /\
  cn_rsdl_sn nb n rho U = rsdl_sn cA rho (nb * n) (flat n U).
Proof.
  intros nb n rlx rho X Y Yprev AX U p Hn.
  assert (S1 : sumn nb (fun _ => 1 ^ 2) = INR nb) by (rewrite sumn_const; ring).
  repeat split.
  - unfold cn_relax_AX, relax_AX, cA, cB. destruct (Req_EM_T rlx 1); [reflexivity|]. unfold flat. ring.
  - unfold cn_rsdl_r, rsdl_r, cB, flat. ring.
  - unfold cn_ustep, ustep, cn_rsdl_r, rsdl_r, cB, flat. ring.
  - intros Hr. unfold cn_rsdl_s, rsdl_s, cA, cB.
    rewrite (nrm_ext (nb * n) _ (flat n (fun j i => 1 * (rho * (Yprev i - Y i))))) by (intros; unfold flat; ring).
    rewrite nrm_flat_scaled by exact Hn. rewrite S1.
    change (fun i => rho * (Yprev i - Y i)) with (vscal rho (fun i => Yprev i - Y i)).
    change (fun i => sqrt (INR nb) * rho * (Yprev i - Y i)) with (vscal (sqrt (INR nb) * rho) (fun i => Yprev i - Y i)).
    rewrite !nrm_scal, Rabs_mult, (Rabs_pos_eq (sqrt (INR nb))) by apply sqrt_pos. ring.
  - unfold cn_rsdl_rn, rsdl_rn. rewrite nrm_zero, nrm_flat by exact Hn. unfold cB.
    rewrite (nrm_ext (nb * n) (flat n (fun _ i => - Y i)) (fun p => - flat n (fun j i => 1 * Y i) p)) by (intros; unfold flat; ring).
    rewrite nrm_opp, nrm_flat_scaled, S1 by exact Hn. symmetry. apply Rmax_left. eapply Rle_trans; [|apply Rmax_l]. apply sqrt_pos.
  - unfold cn_rsdl_sn, rsdl_sn, cA. rewrite nrm_flat by exact Hn. reflexivity.
Qed.

(** Weighted consensus: sqrt(alpha_j) x_j = sqrt(alpha_j) y, with the scaled dual variable sqrt(alpha_j) u_j. *)
Definition wA (n : nat) (alpha : vec) (X : vec) : vec := fun p => sqrt (alpha (p / n)%nat) * X p.
Definition wB (n : nat) (alpha : vec) (Y : vec) : vec := flat n (fun j i => - sqrt (alpha j) * Y i).
Definition wU (n : nat) (alpha : vec) (U : mvec) : vec := flat n (fun j i => sqrt (alpha j) * U j i).
Lemma sqrt_sq_sum nb alpha : (forall j, (j < nb)%nat -> 0 <= alpha j) ->
  sumn nb (fun j => (sqrt (alpha j) * sqrt (alpha j)) ^ 2) = sumn nb (fun j => alpha j ^ 2).
Proof. intros H. apply sumn_ext. intros j Hj. rewrite sqrt_sqrt by (apply H; exact Hj). reflexivity. Qed.
Theorem C35_weighted : forall nb n rlx rho alpha X Y Yprev AX U p, (0 < n)%nat -> (forall j, (j < nb)%nat -> 0 < alpha j) ->
  (let W Z := wA n alpha (flat n Z) in
  W (cn_relax_AX rlx X Y) p = relax_AX (wA n alpha) (wB n alpha) (fun _ => 0) rlx (flat n X) Y p /\
  flat n (wc_rsdl_r alpha AX Y) p = rsdl_r (wB n alpha) (fun _ => 0) (W AX) Y p /\
  wU n alpha (wc_ustep AX Y U) p = ustep (wB n alpha) (fun _ => 0) (W AX) Y (wU n alpha U) p /\
  (0 <= rho -> nrm n (wc_rsdl_s nb rho alpha Yprev Y) = nrm (nb * n) (rsdl_s (wA n alpha) (wB n alpha) rho Yprev Y)) /\
  (sumn nb (fun j => alpha j ^ 2) = sumn nb alpha -> wc_rsdl_rn nb n alpha AX Y = rsdl_rn (wB n alpha) (fun _ => 0) (nb * n) (W AX) Y) /\
  ((forall j, (j < nb)%nat -> alpha j = 1) -> wc_rsdl_sn nb n rho U = rsdl_sn (wA n alpha) rho (nb * n) (wU n alpha U))).
Proof.
  intros nb n rlx rho alpha X Y Yprev AX U p Hn Ha W. repeat split.
  - unfold W, cn_relax_AX, relax_AX, wA, wB. destruct (Req_EM_T rlx 1); [reflexivity|]. unfold flat. ring.
  - unfold W, wc_rsdl_r, rsdl_r, wA, wB, flat. ring.
  - unfold W, wU, wc_ustep, ustep, rsdl_r, wA, wB, flat. ring.
  - intros Hr. unfold wc_rsdl_s, rsdl_s, wA, wB.
    rewrite (nrm_ext (nb * n) _ (flat n (fun j i => sqrt (alpha j) * sqrt (alpha j) * (rho * (Yprev i - Y i))))) by (intros; unfold flat; ring).
    rewrite (nrm_flat_scaled n nb (fun j => sqrt (alpha j) * sqrt (alpha j))) by exact Hn. rewrite sqrt_sq_sum by (intros; apply Rlt_le; apply Ha; assumption).
    change (fun i => rho * (Yprev i - Y i)) with (vscal rho (fun i => Yprev i - Y i)).
    change (fun i => rho * sqrt (sumn nb (fun j => alpha j ^ 2)) * (Yprev i - Y i)) with (vscal (rho * sqrt (sumn nb (fun j => alpha j ^ 2))) (fun i => Yprev i - Y i)).
    rewrite !nrm_scal, Rabs_mult, (Rabs_pos_eq (sqrt (sumn nb (fun j => alpha j ^ 2)))) by apply sqrt_pos. ring.
  - intros E. unfold wc_rsdl_rn, rsdl_rn, W. rewrite nrm_zero. 
    rewrite (nrm_ext (nb * n) (wA n alpha (flat n AX)) (flat n (fun j i => sqrt (alpha j) * AX j i))) by (intros; reflexivity).
    rewrite nrm_flat by exact Hn. unfold wB. rewrite (nrm_ext (nb * n) _ (fun p => - flat n (fun j i => sqrt (alpha j) * Y i) p)) by (intros; unfold flat; ring).
    rewrite nrm_opp, (nrm_flat_scaled n nb (fun j => sqrt (alpha j))) by exact Hn. rewrite E.
    rewrite (sumn_ext nb (fun j => sqrt (alpha j) ^ 2) alpha).
    + symmetry. apply Rmax_left. eapply Rle_trans; [|apply Rmax_l]. apply sqrt_pos.
    + intros j Hj. simpl. rewrite Rmult_1_r. apply sqrt_sqrt. apply Rlt_le. apply Ha. exact Hj.
  - intros E. unfold wc_rsdl_sn, rsdl_sn. f_equal. rewrite <- nrm_flat by exact Hn. apply nrm_ext. intros q Hq. unfold wA, wU, flat.
    rewrite (E (q / n)%nat) by (apply Nat.div_lt_upper_bound; [lia|rewrite Nat.mul_comm; exact Hq]). rewrite sqrt_1. ring.
Qed.
Theorem C35_weighted_norms_refuted : exists nb n rho alpha AX Y U, (0 < n)%nat /\ 0 < rho /\ (forall j, (j < nb)%nat -> 0 < alpha j) /\
  wc_rsdl_rn nb n alpha AX Y <> rsdl_rn (wB n alpha) (fun _ => 0) (nb * n) (wA n alpha (flat n AX)) Y /\
  wc_rsdl_sn nb n rho U <> rsdl_sn (wA n alpha) rho (nb * n) (wU n alpha U).
Proof.
  exists 1%nat, 1%nat, 1, (fun _ => 4), (fun _ _ => 0), (fun _ => 1), (fun _ _ => 1).
  split; [lia|]. split; [lra|]. split; [intros; lra|].
  assert (S4 : sqrt 4 = 2) by (replace 4 with (2 * 2) by ring; apply sqrt_square; lra).
  split.
  - unfold wc_rsdl_rn, rsdl_rn, mnrm, nrm, nrm2, dot, wB, wA, flat. simpl. rewrite S4.
    replace (0 + (0 + 2 * 0 * (2 * 0))) with 0 by ring. replace (0 + 4 * (4 * 1)) with (4 * 4) by ring.
    replace (0 + 1 * 1) with (1 * 1) by ring. replace (0 + 2 * 0 * (2 * 0)) with 0 by ring. replace (0 + - (2) * 1 * (- (2) * 1)) with (2 * 2) by ring.
    replace (0 + 0 * 0) with 0 by ring.
    rewrite ?sqrt_0, ?(sqrt_square 4), ?(sqrt_square 1), ?(sqrt_square 2) by lra.
    unfold Rmax. repeat destruct (Rle_dec _ _); lra.
  - unfold wc_rsdl_sn, rsdl_sn, mnrm, nrm, nrm2, dot, wA, wU, flat. simpl. rewrite S4.
    replace (0 + (0 + 1 * 1)) with (1 * 1) by ring. replace (0 + 2 * (2 * 1) * (2 * (2 * 1))) with (4 * 4) by ring.
    rewrite !sqrt_square by lra. lra.
Qed.

(** ** C36, in general: an iteration which changes neither B Y nor U leaves a saddle point, and so a solution. *)
Lemma saddle_solution m A B c rho D E f g x y u : saddle m A B c rho D E f g x y u -> solution m A B c D E f g x y.
Proof.
  intros [F H]. split; [exact F|]. intros x' y' (Dx & Ey & G). specialize (H x' y' Dx Ey).
  rewrite (dot_ext m u (gap A B c x' y') u (fun _ => 0)) in H by (try reflexivity; exact G).
  unfold dot in H. rewrite (sumn_0 m (fun i => u i * 0)) in H by (intros; ring). lra.
Qed.
Section c36.
Variables (m : nat) (A B : vec -> vec) (c : vec) (rlx rho : R) (D E : vec -> Prop) (f g : vec -> R) (xstep ystep : vec -> vec -> vec).
Hypothesis HA : affine m A.
Hypothesis HB : affine m B.
Hypothesis Hf : convex_on D f.
Hypothesis Hg : convex_on E g.
Hypothesis Hrho : 0 < rho.
Hypothesis HX : forall y u, argmin D (fun x => auglag m A B c rho f g x y u) (xstep y u).
Hypothesis HY : forall ax u, argmin E (fun y => auglag m (fun _ => ax) B c rho (fun _ => 0) g ax y u) (ystep ax u).

Theorem C36_stationary_optimal st : rlx <> 0 ->
  let st' := iteration A B c rlx xstep ystep st in
  (forall i, (i < m)%nat -> B (sY st') i = B (sY st) i) -> (forall i, (i < m)%nat -> sU st' i = sU st i) ->
  solution m A B c D E f g (sX st') (sY st') /\ saddle m A B c rho D E f g (sX st') (sY st') (sU st').
Proof.
  intros Hr st' H1 H2. assert (S : saddle m A B c rho D E f g (sX st') (sY st') (sU st')); [|split; [apply (saddle_solution _ _ _ _ _ _ _ _ _ _ _ _ S)|exact S]].
  apply (stationary_saddle m A B c rlx rho D E f g HA HB Hf Hg Hrho (sX st') (sY st) (sY st') (sU st) (sU st') (relax_AX A B c rlx (sX st') (sY st))); [| | | |exact Hr|exact H1|exact H2].
  - apply (HX' m A B c rho D f g xstep HX).
  - intros i _. apply relax_eq.
  - apply (HY' m B c rho E g ystep HY).
  - reflexivity.
Qed.
(** Saddle points are stationary: the (Y, U) iterates do not leave them, up to what the constraint sees. *)
Theorem C36_optimal_stationary st xs : 0 < rlx < 2 -> saddle m A B c rho D E f g xs (sY st) (sU st) ->
  let st' := iteration A B c rlx xstep ystep st in
  (forall i, (i < m)%nat -> B (sY st') i = B (sY st) i) /\ (forall i, (i < m)%nat -> sU st' i = sU st i).
Proof.
  intros Hr Hs st'.
  assert (Hv : forall v, E v -> 0 <= g v - g (sY st) + rho * dot m (sU st) (fun i => B v i - B (sY st) i)).
  { intros v Ev. destruct Hs as [(Dx & _ & G) H]. specialize (H xs v Dx Ev).
    rewrite (dot_ext m (sU st) (gap A B c xs v) (sU st) (fun i => B v i - B (sY st) i)) in H; [lra|reflexivity|].
    intros i Hi. specialize (G i Hi). unfold gap in *. lra. }
  pose proof (HX' m A B c rho D f g xstep HX (sY st) (sU st)) as Kx. pose proof (HY' m B c rho E g ystep HY (relax_AX A B c rlx (sX st') (sY st)) (sU st)) as Ky.
  assert (Ey : E (sY st)) by apply Hs.
  pose proof (fejer_relaxed m A B c rlx rho D E f g HA Hf Hrho (sX st') (sY st) (sY st') (sU st) (sU st') (relax_AX A B c rlx (sX st') (sY st))
    Kx (fun i _ => relax_eq A B c rlx (sX st') (sY st) i) (fun i _ => eq_refl) xs (sY st) (sU st) ltac:(lra) Hs Ey Hv) as F.
  pose proof (step_bound m A B c rlx rho E g HB Hg Hrho (sX st') (sY st) (sY st') (sU st) (sU st') (relax_AX A B c rlx (sX st') (sY st))
    (fun i _ => relax_eq A B c rlx (sX st') (sY st) i) Ky (fun i _ => eq_refl) Ey Hv) as Sb.
  rewrite (nrm2_ext m (fun i => sU st i - (B (sY st) i - c i) - (sU st i - (B (sY st) i - c i))) (fun _ => 0)) in F by (intros; ring).
  rewrite nrm2_zero in F.
  pose proof (nrm2_nonneg m (fun i => sU st' i - (B (sY st') i - c i) - (sU st i - (B (sY st) i - c i)))) as P1.
  pose proof (nrm2_nonneg m (gap A B c (sX st') (sY st))) as P2. assert (0 < rlx * (2 - rlx)) by nra.
  assert (Z : nrm2 m (gap A B c (sX st') (sY st)) = 0) by nra. rewrite Z in Sb.
  pose proof (nrm2_nonneg m (fun i => B (sY st') i - B (sY st) i)) as P3. pose proof (nrm2_nonneg m (fun i => sU st' i - sU st i)) as P4.
  split; intros i Hi.
  - assert (Q : nrm2 m (fun i => B (sY st') i - B (sY st) i) = 0) by lra. pose proof (nrm2_0 m _ Q i Hi) as K. cbv beta in K. lra.
  - assert (Q : nrm2 m (fun i => sU st' i - sU st i) = 0) by lra. pose proof (nrm2_0 m _ Q i Hi) as K. cbv beta in K. lra.
Qed.

(** ** C38 *)
Theorem C38_distance st xs ys us : rlx = 1 -> saddle m A B c rho D E f g xs ys us ->
  let d k := let s := iterate A B c rlx xstep ystep k st in nrm2 m (fun i => sU s i - us i) + nrm2 m (fun i => B (sY s) i - B ys i) in
  forall k, d (S k) <= d k.
Proof.
  intros Hr Hs d k. pose proof (dyu_step m A B c rlx rho D E f g xstep ystep HA HB Hf Hg Hrho HX HY st xs ys us Hs k Hr) as H.
  pose proof (nrm2_nonneg m (fun i => pri A B c rlx xstep ystep st (S k) i - dy A B c rlx xstep ystep st k i)). unfold dyu, it in H. unfold d. lra.
Qed.
(** With over- or under-relaxation, from the second iterate on. *)
Theorem C38_distance_relaxed st xs ys us : 0 <= rlx <= 2 -> saddle m A B c rho D E f g xs ys us ->
  let z k i := let s := iterate A B c rlx xstep ystep k st in sU s i - (B (sY s) i - c i) in
  let d k := nrm2 m (fun i => z k i - (us i - (B ys i - c i))) in
  forall k, d (S (S k)) <= d (S k).
Proof.
  intros Hr Hs z d k. pose proof (dz_step m A B c rlx rho D E f g xstep ystep HA HB Hf Hg Hrho HX HY st xs ys us Hs k ltac:(lra)) as H.
  pose proof (nrm2_nonneg m (mid A B c rlx xstep ystep st (S k))). assert (0 <= rlx * (2 - rlx)) by nra.
  assert (K : dz m A B c rlx xstep ystep st ys us (S (S k)) <= dz m A B c rlx xstep ystep st ys us (S k)) by nra. exact K.
Qed.
(** Both residuals tend to zero, and the objective to its optimal value, for every relaxation parameter below 2. *)
Theorem C38_convergence st xs ys us : 0 < rlx < 2 -> saddle m A B c rho D E f g xs ys us ->
  let s k := iterate A B c rlx xstep ystep k st in
  Un_cv (fun k => nrm m (rsdl_r B c (A (sX (s k))) (sY (s k)))) 0 /\
  (forall n AT, (exists a, forall v i, (i < n)%nat -> AT v i = sumn m (fun j => a i j * v j)) ->
     (forall y y' i, (i < m)%nat -> B (fun j => y j - y' j) i = B y i - B y' i) ->
     Un_cv (fun k => nrm n (rsdl_s AT B rho (sY (s k)) (sY (s (S k))))) 0) /\
  Un_cv (fun k => f (sX (s k)) + g (sY (s k))) (f xs + g ys).
Proof.
  intros Hr Hs s. split; [|split].
  - apply (pri_cv m A B c rlx rho D E f g xstep ystep HA HB Hf Hg Hrho HX HY st xs ys us Hs Hr).
  - intros n AT [a Ha] Hl.
    pose proof (proj1 (dy_cv m A B c rlx rho D E f g xstep ystep HA HB Hf Hg Hrho HX HY st xs ys us Hs Hr)) as Cd.
    set (K := rho * rho * sumn n (fun i => sumn m (fun j => a i j * a i j))).
    assert (Cn : Un_cv (fun k => K * nrm2 m (dy A B c rlx xstep ystep st k)) 0) by (apply cv_scal_0; exact Cd).
    apply (cv_sqrt_0 (fun k => nrm2 n (rsdl_s AT B rho (sY (s k)) (sY (s (S k)))))); [intros; apply nrm2_nonneg|]. apply (squeeze_0 _ (fun k => K * nrm2 m (dy A B c rlx xstep ystep st k)) O); [|exact Cn]. intros k _. split; [apply nrm2_nonneg|].
    set (q := nrm2 m (dy A B c rlx xstep ystep st k)) in *.
    replace (K * q) with (sumn n (fun i => rho * rho * (sumn m (fun j => a i j * a i j) * q))).
    2:{ unfold K. rewrite sumn_scal. rewrite sumn_scal_r. ring. }
    unfold nrm2, dot. apply sumn_le. intros i Hi. unfold rsdl_s. rewrite (Ha _ i Hi).
    rewrite (sumn_ext m _ (fun j => a i j * dy A B c rlx xstep ystep st k j)) by (intros j Hj; rewrite Hl by exact Hj; reflexivity).
    pose proof (cauchy_schwarz_sq m (a i) (dy A B c rlx xstep ystep st k)) as CS. unfold dot at 1 2 in CS. unfold nrm2 at 1 in CS. unfold dot in CS.
    change (sumn m (fun i0 => a i i0 * a i i0)) with (sumn m (fun j => a i j * a i j)) in CS.
    set (w := sumn m (fun j => a i j * dy A B c rlx xstep ystep st k j)) in *. set (v := sumn m (fun j => a i j * a i j)) in *.
    fold q in CS. assert (0 <= rho * rho) by nra. replace (rho * w * (rho * w)) with (rho * rho * (w * w)) by ring.
    apply Rmult_le_compat_l; assumption.
  - apply (objective_cv m A B c rlx rho D E f g xstep ystep HA HB Hf Hg Hrho HX HY st xs ys us Hs Hr).
Qed.
End c36.

(** ** A concrete problem meeting the hypotheses: minimise (x - 3)^2 / 2 + |y| subject to x = y, over one coordinate.
    The solution is x = y = 2, with rho u = sign(y). *)
Require Import Verif.ProxModel Verif.ProxSpec Verif.ProxProofs.
Section example.
Let f (x : vec) := / 2 * nrm2 1 (vsub x (fun _ => 3)).
Let g (y : vec) := Rabs (y 0%nat).
Let xst (y u : vec) : vec := fun _ => (3 + 2 * (y 0%nat - u 0%nat)) / 3.
Let yst (ax u : vec) : vec := fun _ => prox_l1 (fun _ : nat => ax 0%nat + u 0%nat) (fun _ => / 2) 0%nat.
Lemma ex_n2 x : nrm2 1 x = x 0%nat * x 0%nat. Proof. unfold nrm2, dot. simpl. ring. Qed.
Lemma ex_HA : affine 1 eq_A. Proof. intros x y t i _. reflexivity. Qed.
Lemma ex_HB : affine 1 eq_B. Proof. intros x y t i _. unfold eq_B, seg. ring. Qed.
Lemma ex_Hf : convex_on (fun _ => True) f.
Proof. intros x y t _ _ Ht. split; [exact I|]. unfold f. rewrite !ex_n2. unfold vsub, seg.
  assert (K : 0 <= t * (1 - t) * ((x 0%nat - y 0%nat) * (x 0%nat - y 0%nat))) by (apply Rmult_le_pos; [nra|apply Rle_0_sqr]). nra. Qed.
Lemma ex_Hg : convex_on (fun _ => True) g.
Proof.
  intros x y t _ _ Ht. split; [exact I|]. unfold g, seg. replace (x 0%nat + t * (y 0%nat - x 0%nat)) with ((1 - t) * x 0%nat + t * y 0%nat) by ring. eapply Rle_trans; [apply Rabs_triang|]. rewrite !Rabs_mult, (Rabs_pos_eq t), (Rabs_pos_eq (1 - t)) by lra. lra.
Qed.
Lemma ex_HX y u : argmin (fun _ => True) (fun x => auglag 1 eq_A eq_B eq_c 2 f g x y u) (xst y u).
Proof.
  split; [exact I|]. intros x _. unfold auglag, gap, f. rewrite !ex_n2. unfold eq_A, eq_B, eq_c, xst, vsub.
  set (p := x 0%nat). set (q := y 0%nat). set (w := u 0%nat). pose proof (Rle_0_sqr (p - (3 + 2 * (q - w)) / 3)) as K. unfold Rsqr in K. nra.
Qed.
Lemma ex_HY ax u : argmin (fun _ => True) (fun y => auglag 1 (fun _ => ax) eq_B eq_c 2 (fun _ => 0) g ax y u) (yst ax u).
Proof.
  split; [exact I|]. intros y _. unfold auglag, gap, g. rewrite !ex_n2. unfold eq_B, eq_c, yst, prox_l1.
  set (q := ax 0%nat). set (w := u 0%nat). set (v := y 0%nat).
  pose proof (prox_l1_sub1 (q + w) (/ 2) v ltac:(lra)) as K. cbv zeta in K.
  set (p := sgn (q + w) * Rmax (Rabs (q + w) - / 2) 0) in *. pose proof (Rle_0_sqr (v - p)) as K2. unfold Rsqr in K2. lra.
Qed.
Lemma ex_saddle : saddle 1 eq_A eq_B eq_c 2 (fun _ => True) (fun _ => True) f g (fun _ => 2) (fun _ => 2) (fun _ => / 2).
Proof.
  split; [split; [exact I|split; [exact I|]]|].
  - intros i _. unfold gap, eq_A, eq_B, eq_c. ring.
  - intros x y _ _. unfold f, g, dot, gap, eq_A, eq_B, eq_c. rewrite !ex_n2. unfold vsub. simpl.
    pose proof (Rle_abs (y 0%nat)). pose proof (Rle_0_sqr (x 0%nat - 2)) as K. unfold Rsqr in K. rewrite (Rabs_pos_eq 2) by lra. nra.
Qed.
Example ex_converges st : let s k := iterate eq_A eq_B eq_c (18 / 10) xst yst k st in
  Un_cv (fun k => nrm 1 (rsdl_r eq_B eq_c (sX (s k)) (sY (s k)))) 0 /\ Un_cv (fun k => f (sX (s k)) + g (sY (s k))) (/ 2 * 1 + 2).
Proof.
  intros s. destruct (C38_convergence 1 eq_A eq_B eq_c (18 / 10) 2 _ _ f g xst yst ex_HA ex_HB ex_Hf ex_Hg ltac:(lra) ex_HX ex_HY st _ _ _ ltac:(lra) ex_saddle) as (P1 & _ & P3).
  split; [exact P1|]. assert (E : f (fun _ => 2) + g (fun _ => 2) = / 2 * 1 + 2).
  { unfold f, g. rewrite ex_n2. unfold vsub. rewrite Rabs_pos_eq by lra. lra. } rewrite <- E. exact P3.
Qed.
(** The saddle point is stationary, by C36_optimal_stationary, and an iteration which does not move is optimal. *)
Example ex_stationary : let st := mkState (fun _ => 0) (fun _ => 2) (fun _ => / 2) (fun _ => 0) in
  let st' := iteration eq_A eq_B eq_c (18 / 10) xst yst st in
  solution 1 eq_A eq_B eq_c (fun _ => True) (fun _ => True) f g (sX st') (sY st').
Proof.
  intros st st'. destruct (C36_optimal_stationary 1 eq_A eq_B eq_c (18 / 10) 2 _ _ f g xst yst ex_HA ex_HB ex_Hf ex_Hg ltac:(lra) ex_HX ex_HY st (fun _ => 2) ltac:(lra) ex_saddle) as (P1 & P2).
  apply (C36_stationary_optimal 1 eq_A eq_B eq_c (18 / 10) 2 _ _ f g xst yst ex_HA ex_HB ex_Hf ex_Hg ltac:(lra) ex_HX ex_HY st ltac:(lra) P1 P2).
Qed.
End example.
Print Assumptions C35_equal.
Print Assumptions C35_two_block.
Print Assumptions C35_two_block_dual.
Print Assumptions C35_two_block_dual_relaxed_refuted.
Print Assumptions C35_two_block_dual_norm_refuted.
Print Assumptions C35_consensus.
Print Assumptions C35_weighted.
Print Assumptions C35_weighted_norms_refuted.
Print Assumptions C36_stationary_optimal.
Print Assumptions C36_optimal_stationary.
Print Assumptions C38_distance.
Print Assumptions C38_distance_relaxed.
Print Assumptions C38_convergence.
