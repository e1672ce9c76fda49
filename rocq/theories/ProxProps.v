(** Properties C15, C16, C17, C19 and C20. *)
Require Import Reals Lra Lia Bool Arith.
Require Import Verif.RVec Verif.ProxModel Verif.ProxSpec Verif.ProxProofs.
Local Open Scope R_scope.

(** C15: prox_l1 with a non-negative, possibly element-wise threshold is the unique minimiser of its objective. *)
Theorem C15_prox_l1_minimises n v alpha : (forall i, (i < n)%nat -> 0 <= alpha i) ->
  unique_minimiser n (prox_obj n (wnrm1 n alpha) v) (prox_l1 v alpha).
Proof. intros Ha. apply subgrad_unique. exact (prox_l1_subgrad n v alpha Ha). Qed.
Print Assumptions C15_prox_l1_minimises.

(** The numexpr expression gives the same array. *)
Theorem C15_numexpr_agrees n v alpha : (forall i, (i < n)%nat -> 0 <= alpha i) ->
  forall i, (i < n)%nat -> prox_l1_ne v alpha i = prox_l1 v alpha i.
Proof. intros Ha i Hi. symmetry. apply prox_l1_versions. apply Ha. exact Hi. Qed.
Print Assumptions C15_numexpr_agrees.

Theorem C15_nonexpansive_odd n alpha : (forall i, (i < n)%nat -> 0 <= alpha i) ->
  (forall v w, nrm n (vsub (prox_l1 v alpha) (prox_l1 w alpha)) <= nrm n (vsub v w)) /\
  (forall v i, prox_l1 (fun j => - v j) alpha i = - prox_l1 v alpha i).
Proof.
  intros Ha. split.
  - intros v w. apply (subgrad_nonexpansive n (wnrm1 n alpha)); apply prox_l1_subgrad; exact Ha.
  - intros v i. apply prox_l1_odd.
Qed.
Print Assumptions C15_nonexpansive_odd.

(** For a negative threshold the two expressions differ (at 0): the common value needs alpha >= 0. *)
Theorem C15_negative_threshold_refuted :
  ~ (forall (v alpha : nat -> R) i, prox_l1_ne v alpha i = prox_l1 v alpha i).
Proof.
  intros H. specialize (H (fun _ => 0) (fun _ => -1) O). unfold prox_l1_ne, prox_l1 in H.
  rewrite Rabs_R0, sgn_0 in H.
  assert (E1 : ltb 0 (0 - -1) = true) by (apply ltb_true; lra).
  assert (E2 : leb 0 0 = true) by (apply leb_true; lra). rewrite E1, E2 in H. lra.
Qed.
Print Assumptions C15_negative_threshold_refuted.

Example C15_example :
  let v := fun i => match i with O => 3 | 1%nat => -2 | _ => 1 / 2 end in
  (forall i, (i < 3)%nat -> 0 <= (fun _ : nat => 1) i) /\
  prox_l1 v (fun _ => 1) 0%nat = 2 /\ prox_l1 v (fun _ => 1) 1%nat = -1 /\ prox_l1 v (fun _ => 1) 2%nat = 0.
Proof.
  simpl. split; [intros; lra|]. unfold prox_l1.
  rewrite (sgn_pos 3), (sgn_neg (-2)), (sgn_pos (1 / 2)) by lra.
  rewrite (Rabs_right 3), (Rabs_left (-2)), (Rabs_right (1 / 2)) by lra.
  rewrite !Rmax_left, Rmax_right by lra. repeat split; lra.
Qed.

(** C16: prox_l0 minimises its objective (ties go to the nonzero value). *)
Theorem C16_prox_l0_minimises n v alpha : 0 <= alpha ->
  minimises (prox_obj n (fun x => alpha * nonzeros n x) v) (prox_l0 v alpha).
Proof.
  intros Ha x. pose proof (prox_l0_min n v alpha Ha x) as H. unfold prox_obj in *.
  assert (E : forall y, norm_l0 n y = nonzeros n y).
  { intros y. apply sumn_ext. intros i _. destruct (Req_EM_T (y i) 0) as [Z|Z].
    - rewrite Z, Rabs_R0. assert (F : ltb 0 0 = false) by (apply ltb_false; lra). rewrite F. reflexivity.
    - assert (F : ltb 0 (Rabs (y i)) = true) by (apply ltb_true, Rabs_pos_lt; exact Z). rewrite F. reflexivity. }
  rewrite <- !E. exact H.
Qed.
Print Assumptions C16_prox_l0_minimises.

(** Every entry is kept or set to zero, and the entry is kept exactly when its magnitude reaches sqrt(2 alpha). *)
Theorem C16_hard_threshold v alpha i : 0 <= alpha ->
  (v i * v i < 2 * alpha -> prox_l0 v alpha i = 0) /\ (2 * alpha <= v i * v i -> prox_l0 v alpha i = v i).
Proof.
  intros Ha. unfold prox_l0.
  assert (Q : sqrt (2 * alpha) * sqrt (2 * alpha) = 2 * alpha) by (apply sqrt_sqrt; lra).
  pose proof (sqrt_pos (2 * alpha)) as P. pose proof (Rabs_pos (v i)) as P'.
  assert (V : Rabs (v i) * Rabs (v i) = v i * v i) by (rewrite <- Rabs_mult; apply Rabs_pos_eq, Rle_0_sqr).
  destruct (leb (sqrt (2 * alpha)) (Rabs (v i))) eqn:E; simpl.
  - apply leb_true in E. split; [|intros; ring]. intros H.
    assert (sqrt (2 * alpha) * sqrt (2 * alpha) <= Rabs (v i) * Rabs (v i)) by (apply Rmult_le_compat; lra). lra.
  - apply leb_false in E. split; [intros; ring|]. intros H.
    assert (Rabs (v i) * Rabs (v i) < sqrt (2 * alpha) * sqrt (2 * alpha)) by (apply Rmult_le_0_lt_compat; lra). lra.
Qed.
Print Assumptions C16_hard_threshold.

Example C16_example : prox_l0 (fun i => if Nat.eqb i 0 then 3 else 1) 2 0%nat = 3 /\
                      prox_l0 (fun i => if Nat.eqb i 0 then 3 else 1) 2 1%nat = 0.
Proof.
  split.
  - apply (C16_hard_threshold (fun i => if Nat.eqb i 0 then 3 else 1) 2 0%nat); simpl; lra.
  - apply (C16_hard_threshold (fun i => if Nat.eqb i 0 then 3 else 1) 2 1%nat); simpl; lra.
Qed.

(** C17: prox_l2 is the unique minimiser, for one group and for an array of groups. *)
Theorem C17_prox_l2_minimises n v alpha : 0 <= alpha ->
  unique_minimiser n (prox_obj n (fun x => alpha * nrm n x) v) (prox_l2 n v alpha).
Proof.
  intros Ha. apply subgrad_unique. intros x. pose proof (prox_l2_subgrad n v alpha Ha x) as H.
  rewrite !norm_l2_nrm in H. exact H.
Qed.
Print Assumptions C17_prox_l2_minimises.

Theorem C17_prox_l2_groups g n v alpha : 0 <= alpha ->
  forall x, group_obj g n (fun x => alpha * nrm n x) v (fun j => prox_l2 n (v j) alpha) <=
            group_obj g n (fun x => alpha * nrm n x) v x.
Proof.
  intros Ha x. apply sumn_le. intros j _. apply (proj1 (C17_prox_l2_minimises n (v j) alpha Ha)).
Qed.
Print Assumptions C17_prox_l2_groups.

Theorem C17_proj_l2_nearest n v gamma : 0 <= gamma ->
  nearest n (fun x => nrm n x <= gamma) v (proj_l2 n v gamma) /\
  (nrm n v <= gamma -> forall i, proj_l2 n v gamma i = v i).
Proof.
  intros Hg. destruct (proj_l2_ok n v gamma Hg) as [H1 H2]. rewrite norm_l2_nrm in H2. split; [|exact H2].
  destruct H1 as (A & B & C). rewrite norm_l2_nrm in A. split; [exact A|split].
  - intros x Hx. apply B. rewrite norm_l2_nrm. exact Hx.
  - intros q Hq Hm. apply C; [rewrite norm_l2_nrm; exact Hq|]. intros x Hx. apply Hm. rewrite <- norm_l2_nrm. exact Hx.
Qed.
Print Assumptions C17_proj_l2_nearest.

Theorem C17_proj_l2ball_nearest n b s r : 0 <= r ->
  nearest n (fun x => nrm n (vsub x s) <= r) b (proj_l2ball n b s r) /\
  (nrm n (vsub b s) <= r -> forall i, proj_l2ball n b s r i = b i).
Proof.
  intros Hg. destruct (proj_l2ball_ok n b s r Hg) as [H1 H2]. rewrite norm_l2_nrm in H2. split; [|exact H2].
  destruct H1 as (A & B & C). rewrite norm_l2_nrm in A. split; [exact A|split].
  - intros x Hx. apply B. rewrite norm_l2_nrm. exact Hx.
  - intros q Hq Hm. apply C; [rewrite norm_l2_nrm; exact Hq|]. intros x Hx. apply Hm. rewrite <- norm_l2_nrm. exact Hx.
Qed.
Print Assumptions C17_proj_l2ball_nearest.

Lemma nrm_34 : nrm 2 (fun i => if Nat.eqb i 0 then 3 else 4) = 5.
Proof.
  unfold nrm, nrm2, dot. simpl. replace (0 + 3 * 3 + 4 * 4) with (5 * 5) by ring. apply sqrt_square. lra.
Qed.

Example C17_example :
  let v := fun i => if Nat.eqb i 0 then 3 else 4 in
  prox_l2 2 v 1 0%nat = 12 / 5 /\ proj_l2 2 v 1 1%nat = 4 / 5 /\ proj_l2 2 v 6 1%nat = 4.
Proof.
  simpl. unfold prox_l2, proj_l2, zdivide. rewrite norm_l2_nrm, nrm_34.
  assert (E1 : eqb 5 0 = false) by (apply eqb_false; lra).
  assert (E2 : leb 5 1 = false) by (apply leb_false; lra).
  assert (E3 : ltb 1 5 = true) by (apply ltb_true; lra).
  assert (E4 : leb 5 6 = true) by (apply leb_true; lra).
  assert (E5 : ltb 6 5 = false) by (apply ltb_false; lra).
  rewrite E1, E2, E3, E4, E5, Rmax_right by lra. simpl. repeat split; lra.
Qed.

(** C19 *)
Theorem C19_prox_sl1l2_minimises n v alpha beta : 0 <= alpha -> 0 <= beta ->
  unique_minimiser n (prox_obj n (fun x => alpha * nrm1 n x + beta * nrm n x) v) (prox_sl1l2 n v alpha beta).
Proof.
  intros Ha Hb. apply subgrad_unique. intros x. pose proof (prox_sl1l2_subgrad n v alpha beta Ha Hb x) as H.
  rewrite !norm_l2_nrm in H. exact H.
Qed.
Print Assumptions C19_prox_sl1l2_minimises.

Theorem C19_groups g n v alpha beta : 0 <= alpha -> 0 <= beta ->
  forall x, group_obj g n (fun x => alpha * nrm1 n x + beta * nrm n x) v (fun j => prox_sl1l2 n (v j) alpha beta) <=
            group_obj g n (fun x => alpha * nrm1 n x + beta * nrm n x) v x.
Proof.
  intros Ha Hb x. apply sumn_le. intros j _. apply (proj1 (C19_prox_sl1l2_minimises n (v j) alpha beta Ha Hb)).
Qed.
Print Assumptions C19_groups.

(** The order of the two steps matters: soft thresholding after the l2 step is not the minimiser. *)
Example C19_example :
  let v := fun i => if Nat.eqb i 0 then 4 else -5 in prox_sl1l2 2 v 1 1 0%nat = 12 / 5.
Proof.
  simpl. unfold prox_sl1l2, prox_l2, zdivide.
  assert (N : norm_l2 2 (prox_l1 (fun i => if Nat.eqb i 0 then 4 else -5) (fun _ => 1)) = 5).
  { rewrite norm_l2_nrm. unfold nrm, nrm2, dot, prox_l1. simpl.
    rewrite (sgn_pos 4), (sgn_neg (-5)), (Rabs_right 4), (Rabs_left (-5)), !Rmax_left by lra.
    match goal with |- sqrt ?a = 5 => replace a with (5 * 5) by ring end. apply sqrt_square. lra. }
  rewrite N. assert (E1 : eqb 5 0 = false) by (apply eqb_false; lra). rewrite E1, Rmax_right by lra.
  unfold prox_l1. simpl. rewrite sgn_pos, Rabs_right, Rmax_left by lra. lra.
Qed.

(** C20: global minimality for the non-convex function, for both branches of the code. *)
Theorem C20_prox_dl1l2_minimises n v alpha beta : (0 < n)%nat -> 0 <= alpha -> 0 <= beta <= 1 ->
  minimises (prox_obj n (fun x => alpha * (nrm1 n x - beta * nrm n x)) v) (prox_dl1l2 n v alpha beta).
Proof.
  intros Hn Ha Hb x. pose proof (dl1l2_min n v alpha beta Hn Ha Hb x) as H.
  unfold dobj, norm_dl1l2, prox_obj in H. rewrite !norm_l2_nrm in H. exact H.
Qed.
Print Assumptions C20_prox_dl1l2_minimises.

Theorem C20_axis_minimises n v alpha beta : (0 < n)%nat -> 0 <= alpha -> 0 <= beta <= 1 ->
  minimises (prox_obj n (fun x => alpha * (nrm1 n x - beta * nrm n x)) v) (prox_dl1l2_axis n v alpha beta) /\
  (forall i, (i < n)%nat -> prox_dl1l2_axis n v alpha beta i = prox_dl1l2 n v alpha beta i).
Proof.
  intros Hn Ha Hb. split; [|intros; apply dl1l2_axis_eq; assumption].
  intros x. apply Rle_trans with (2 := C20_prox_dl1l2_minimises n v alpha beta Hn Ha Hb x).
  apply Req_le. unfold prox_obj.
  assert (E : forall i, (i < n)%nat -> prox_dl1l2_axis n v alpha beta i = prox_dl1l2 n v alpha beta i)
    by (intros; apply dl1l2_axis_eq; assumption).
  rewrite (nrm_ext n _ _ E). replace (nrm1 n (prox_dl1l2_axis n v alpha beta)) with (nrm1 n (prox_dl1l2 n v alpha beta)).
  - f_equal. f_equal. apply nrm2_ext. intros. unfold vsub. rewrite E; auto.
  - apply sumn_ext. intros. rewrite E; auto.
Qed.
Print Assumptions C20_axis_minimises.

(** Outside beta <= 1 the vector returned for v = 0 need not be a minimiser. *)
Theorem C20_beta_range_refuted :
  ~ (forall n v alpha beta, (0 < n)%nat -> 0 <= alpha -> 0 <= beta ->
     minimises (prox_obj n (fun x => alpha * (nrm1 n x - beta * nrm n x)) v) (prox_dl1l2 n v alpha beta)).
Proof.
  intros H. specialize (H 1%nat (fun _ => 0) 1 2 ltac:(lia) ltac:(lra) ltac:(lra) (fun _ => 1)).
  unfold prox_dl1l2 in H. simpl in H. rewrite Rabs_R0 in H.
  assert (E : ltb 0 0 = false) by (apply ltb_false; lra). rewrite E in H.
  unfold prox_obj, nrm, nrm2, dot, nrm1, vsub in H. simpl in H.
  rewrite Rabs_R0, (Rabs_right 1) in H by lra.
  replace (0 + 0 * 0) with 0 in H by ring. replace (0 + 1 * 1) with 1 in H by ring. rewrite sqrt_0, sqrt_1 in H. lra.
Qed.
Print Assumptions C20_beta_range_refuted.

Example C20_example :
  let v := fun i => if Nat.eqb i 0 then -1 else 1 / 2 in
  prox_dl1l2 2 v 2 1 0%nat = -1 /\ prox_dl1l2 2 v 2 1 1%nat = 0.
Proof.
  simpl. unfold prox_dl1l2. simpl.
  rewrite (Rabs_left (-1)), (Rabs_right (1 / 2)), Rmax_left by lra.
  assert (E1 : ltb 0 (- -1) = true) by (apply ltb_true; lra).
  assert (E2 : ltb 2 (- -1) = false) by (apply ltb_false; lra).
  assert (E3 : leb ((1 - 1) * 2) (- -1) = true) by (apply leb_true; lra).
  assert (E4 : ltb (- -1) (1 / 2) = false) by (apply ltb_false; lra).
  rewrite E1, E2, E3, E4. simpl. rewrite (Rabs_left (-1)), sgn_neg by lra. split; lra.
Qed.
