(** C87: SplineL1 solves the l1 spline smoothing problem of its documentation. *)
Require Import List Arith Reals Bool Lra Lia FunctionalExtensionality.
Require Import Verif.RVec Verif.FftModel Verif.FftProofs Verif.CscSpec Verif.CscIterModel Verif.CscIterProofs Verif.AdmmModel Verif.AdmmSpec Verif.AdmmProofs Verif.AdmmConv Verif.Compact.
Require Import Verif.ProxModel Verif.ProxProofs Verif.StepsModel Verif.StepsSpec Verif.StepsProofs Verif.LimitProofs Verif.SplitConv Verif.PdgProps.
Require Import Verif.SplModel Verif.SplSpec Verif.SplProofs.
Import ListNotations.
Local Open Scope R_scope.

Section spline.
Context (s : nat -> nat) (all axes : list nat) (lmbda rho : R) (S W : nat -> R).
Context (NDall : NoDup all) (Hs : forall ax, In ax all -> (0 < s ax)%nat) (Hax : incl axes all) (ND : NoDup axes).
Let n := size s all.
Let pl := place s all (fun _ => O).
(** The operator D of the documentation on vectors. *)
Let D := on_vec pl (rank s all) (laplace s axes).

Lemma pl_rng r : (r < n)%nat -> rng s all (pl r).
Proof. intros H. exact (place_slice s all NDall Hs (fun _ => O) r H). Qed.
Lemma rank_pl r : (r < n)%nat -> rank s all (pl r) = r.
Proof. intros H. exact (rank_place s all NDall Hs (fun _ => O) r H). Qed.
Lemma pl_rank p : rng s all p -> pl (rank s all p) = p.
Proof. intros H. exact (place_rank s all NDall (fun _ => O) p H). Qed.
Lemma rank_n p : rng s all p -> (rank s all p < n)%nat.
Proof. intros [H _]. exact (rank_lt s all p H). Qed.
Lemma sum_pl f : sumn n (fun r => f (pl r)) = total s all f (fun _ => O).
Proof. exact (sum_place s all Hs f (fun _ => O)). Qed.
Lemma arr_fl x : eqr s all (sp_arr s all (sp_flat s all x)) x.
Proof. intros p Hp. unfold sp_arr, sp_flat. f_equal. exact (pl_rank p Hp). Qed.
Lemma arr_loc x y : (forall i, (i < n)%nat -> x i = y i) -> eqr s all (sp_arr s all x) (sp_arr s all y).
Proof. intros H p Hp. apply H. apply rank_n. exact Hp. Qed.
Lemma D_arr x r : D x r = laplace s axes (sp_arr s all x) (pl r). Proof. reflexivity. Qed.
Lemma D_linear : linear_map D.
Proof. intros a x b y r. rewrite !D_arr. apply (laplace_lin s axes a (sp_arr s all x) b (sp_arr s all y)). Qed.
Lemma D_local x y : (forall i, (i < n)%nat -> x i = y i) -> forall r, (r < n)%nat -> D x r = D y r.
Proof. intros H r Hr. rewrite !D_arr. apply (laplace_ext s all axes _ _ Hax); [apply arr_loc; exact H|apply pl_rng; exact Hr]. Qed.
Lemma dot_total x y : dot n x y = total s all (fun p => sp_arr s all x p * sp_arr s all y p) (fun _ => O).
Proof. refine (eq_trans _ (sum_pl (fun p => sp_arr s all x p * sp_arr s all y p))). apply sumn_ext. intros r Hr. unfold sp_arr. rewrite rank_pl by exact Hr. reflexivity. Qed.
Lemma arr_D x : eqr s all (sp_arr s all (D x)) (laplace s axes (sp_arr s all x)).
Proof. exact (arr_fl (laplace s axes (sp_arr s all x))). Qed.
Lemma D_sym x y : dot n (D x) y = dot n x (D y).
Proof.
  rewrite !dot_total.
  transitivity (total s all (fun p => laplace s axes (sp_arr s all x) p * sp_arr s all y p) (fun _ => O)).
  { apply (CscIterProofs.total_ext s all _ _ _ NDall). intros p Hp. rewrite (arr_D x p Hp). reflexivity. }
  refine (eq_trans (laplace_sym s all axes (sp_arr s all x) (sp_arr s all y) (fun _ => O) NDall Hax) _).
  apply (CscIterProofs.total_ext s all _ _ _ NDall). intros p Hp. rewrite (arr_D y p Hp). reflexivity.
Qed.

(** The transforms are inverse to each other, for any subset of the axes. *)
Theorem C87_roundtrip x p : on_slice s all (fun _ => O) p -> idctii s axes (dctii s axes x) p = x p /\ dctii s axes (idctii s axes x) p = x p.
Proof. intros Hp. split; [exact (roundtrip s all axes Hax x p Hp)|exact (roundtrip' s all axes Hax x p Hp)]. Qed.
(** The operator in the regularisation term is D: second differences with reflecting ends, summed over the axes. *)
Theorem C87_operator x r : (r < n)%nat -> sp_op s all axes x r = D x r.
Proof. intros Hr. exact (laplace_dct s all axes (sp_arr s all x) Hax ND (pl r) (pl_rng r Hr)). Qed.

Context (Hlam : 0 <= lmbda) (Hrho : 0 < rho).
Lemma gamma_pos i : 0 < 1 + lmbda / rho * (Alpha s axes i * Alpha s axes i).
Proof.
  assert (0 <= lmbda / rho * (Alpha s axes i * Alpha s axes i)); [|lra]. apply Rmult_le_pos; [|apply Rle_0_sqr]. apply Rmult_le_pos; [exact Hlam|]. apply Rlt_le, Rinv_0_lt_compat, Hrho.
Qed.
Lemma solve_dct v : eqr s all (fun p => (1 + lmbda / rho * (Alpha s axes p * Alpha s axes p)) * dctii s axes (sp_solve s axes lmbda rho v) p) (dctii s axes v).
Proof.
  intros p Hp. unfold sp_solve. rewrite (roundtrip' s all axes Hax _ p Hp). unfold Gamma. pose proof (gamma_pos p) as G. set (c := 1 + lmbda / rho * (Alpha s axes p * Alpha s axes p)) in *. field. lra.
Qed.
Lemma laplace2_dct x : eqr s all (laplace s axes (laplace s axes x)) (idctii s axes (fun i => Alpha s axes i * Alpha s axes i * dctii s axes x i)).
Proof.
  intros p Hp. rewrite <- (laplace_dct s all axes (laplace s axes x) Hax ND p Hp). apply (idctii_ext s all axes Hax); [|exact Hp].
  intros q Hq. assert (E : eqr s all (laplace s axes x) (idctii s axes (fun i => Alpha s axes i * dctii s axes x i))) by (intros t Ht; symmetry; exact (laplace_dct s all axes x Hax ND t Ht)).
  rewrite (dctii_ext s all axes Hax _ _ E q Hq), (roundtrip' s all axes Hax _ q Hq). ring.
Qed.
Lemma solve_eq v : eqr s all (fun p => sp_solve s axes lmbda rho v p + lmbda / rho * laplace s axes (laplace s axes (sp_solve s axes lmbda rho v)) p) v.
Proof.
  intros p Hp. set (xa := sp_solve s axes lmbda rho v). rewrite (laplace2_dct xa p Hp).
  rewrite <- (roundtrip s all axes Hax xa p Hp) at 1.
  pose proof (f_equal (fun F => F p) (idctii_lin s axes 1 (dctii s axes xa) (lmbda / rho) (fun i => Alpha s axes i * Alpha s axes i * dctii s axes xa i))) as Q. cbv beta in Q.
  rewrite Rmult_1_l in Q. rewrite <- Q, <- (roundtrip s all axes Hax v p Hp). apply (idctii_ext s all axes Hax); [|exact Hp].
  intros q Hq. rewrite <- (solve_dct v q Hq). fold xa. ring.
Qed.
Lemma xstep_eq Y U r : (r < n)%nat -> sp_xstep s all axes lmbda rho S Y U r + lmbda / rho * D (D (sp_xstep s all axes lmbda rho S Y U)) r = Y r + S r - U r.
Proof.
  intros Hr. set (v := fun r => Y r + S r - U r). set (X := sp_xstep s all axes lmbda rho S Y U). set (xa := sp_solve s axes lmbda rho (sp_arr s all v)).
  pose proof (solve_eq (sp_arr s all v) (pl r) (pl_rng r Hr)) as E. cbv beta in E. fold xa in E.
  assert (EX : eqr s all (sp_arr s all X) xa) by (exact (arr_fl xa)).
  assert (ED : D (D X) r = laplace s axes (laplace s axes xa) (pl r)).
  { rewrite D_arr. apply (laplace_ext s all axes _ _ Hax); [|apply pl_rng; exact Hr]. intros p Hp. rewrite (arr_D X p Hp). apply (laplace_ext s all axes _ _ Hax); assumption. }
  rewrite ED. change (X r) with (xa (pl r)). rewrite E. unfold sp_arr. rewrite rank_pl by exact Hr. reflexivity.
Qed.
(** The x step solves its equation, so that the residual reported with LinSolveCheck is zero in exact arithmetic. *)
Theorem C87_linsolve Y U r : (r < n)%nat -> sp_lhs s all axes lmbda rho (sp_xstep s all axes lmbda rho S Y U) r = Y r + S r - U r.
Proof.
  intros Hr. rewrite <- (xstep_eq Y U r Hr). unfold sp_lhs. f_equal. f_equal. unfold sp_flat. change (place s all (fun _ => O) r) with (pl r).
  rewrite <- (laplace2_dct _ (pl r) (pl_rng r Hr)). rewrite D_arr. apply (laplace_ext s all axes _ _ Hax); [|apply pl_rng; exact Hr].
  intros p Hp. symmetry. apply arr_D. exact Hp.
Qed.

(** The least squares form of the regularisation term. *)
Let H (x : nat -> R) : nat -> R := fun r => if Nat.ltb r n then sqrt lmbda * D x r else 0.
Let f := lsq n H (fun _ => 0).
Let g (y : nat -> R) : R := sumn n (fun i => Rabs (W i * y i)).
Lemma f_eq x : f x = lmbda / 2 * nrm2 n (D x).
Proof.
  unfold f, lsq, nrm2, dot. rewrite <- !sumn_scal. apply sumn_ext. intros r Hr. unfold H. apply Nat.ltb_lt in Hr. rewrite Hr.
  transitivity (/ 2 * (sqrt lmbda * sqrt lmbda) * (D x r * D x r)); [ring|]. rewrite sqrt_sqrt by exact Hlam. field.
Qed.
Lemma H_linear : linear_map H.
Proof. intros a x b y r. unfold H. destruct (Nat.ltb r n); [|ring]. rewrite D_linear. ring. Qed.
Lemma H_local : local_map n H.
Proof. intros x y E r. unfold H. destruct (Nat.ltb_spec r n); [|reflexivity]. rewrite (D_local x y E) by assumption. reflexivity. Qed.
Lemma split_is x : split_obj n H (fun _ => 0) eq_A S g x = spline_obj n D lmbda W S x.
Proof. unfold split_obj. fold f. rewrite f_eq. unfold spline_obj, g, eq_A. ring. Qed.

(** The x step is the minimiser of the augmented Lagrangian, and the only one. *)
Theorem C87_xstep Y U x : let X := sp_xstep s all axes lmbda rho S Y U in
  auglag n eq_A eq_B S rho (fun x => lmbda / 2 * nrm2 n (D x)) g X Y U + rho / 2 * nrm2 n (fun r => x r - X r)
  <= auglag n eq_A eq_B S rho (fun x => lmbda / 2 * nrm2 n (D x)) g x Y U.
Proof.
  intros X. unfold auglag, eq_A, eq_B. set (h := fun r => x r - X r). set (v := fun r => Y r + S r - U r).
  assert (Ex : x = fun r => 1 * X r + 1 * h r) by (extensionality r; unfold h; ring).
  assert (EDx : nrm2 n (D x) = nrm2 n (D X) + 2 * dot n (D (D X)) h + nrm2 n (D h)).
  { rewrite (D_sym (D X) h). rewrite (nrm2_ext n (D x) (vadd (D X) (D h))) by (intros r _; rewrite Ex at 1; rewrite D_linear; unfold vadd; ring). rewrite nrm2_add. reflexivity. }
  assert (E1 : nrm2 n (fun i => x i + - Y i - S i + U i) = nrm2 n (fun i => X i + - Y i - S i + U i) + 2 * dot n (fun i => X i - v i) h + nrm2 n h).
  { rewrite (nrm2_ext n (fun i => x i + - Y i - S i + U i) (vadd (fun i => X i - v i) h)) by (intros r _; unfold vadd, h, v; ring). rewrite nrm2_add.
    rewrite (nrm2_ext n (fun i => X i - v i) (fun i => X i + - Y i - S i + U i)) by (intros; unfold v; ring). reflexivity. }
  assert (E2 : dot n (fun i => X i - v i) h = - (lmbda / rho) * dot n (D (D X)) h).
  { unfold dot. rewrite <- sumn_scal. apply sumn_ext. intros r Hr. pose proof (xstep_eq Y U r Hr) as Q. fold X in Q. fold (v r) in Q. replace (X r - v r) with (- (lmbda / rho) * D (D X) r) by lra. ring. }
  rewrite EDx, E1, E2. pose proof (nrm2_nonneg n (D h)) as P. assert (P' : 0 <= lmbda / 2 * nrm2 n (D h)) by (apply Rmult_le_pos; lra).
  replace (rho / 2 * (nrm2 n (fun i => X i + - Y i - S i + U i) + 2 * (- (lmbda / rho) * dot n (D (D X)) h) + nrm2 n h))
    with (rho / 2 * nrm2 n (fun i => X i + - Y i - S i + U i) - lmbda * dot n (D (D X)) h + rho / 2 * nrm2 n h) by (field; lra).
  lra.
Qed.
Context (HW : forall r, (r < n)%nat -> 0 <= W r).
Theorem C87_ystep AX U : argmin (fun _ => True) (fun y => auglag n (fun _ => AX) eq_B S rho (fun _ => 0) g AX y U) (sp_ystep rho S W AX U).
Proof.
  apply y_from_vi; [lra|exact I|]. intros y _. unfold g, dot. rewrite <- sumn_scal, <- sumn_minus, <- sumn_plus. apply sumn_nonneg. intros i Hi. unfold sp_ystep, prox_l1, eq_B.
  assert (Ha : 0 <= W i / rho) by (apply Rmult_le_pos; [exact (HW i Hi)|apply Rlt_le, Rinv_0_lt_compat; exact Hrho]).
  pose proof (prox_l1_sub1 (AX i - S i + U i) (W i / rho) (y i) Ha) as K. cbv zeta in K. set (q := sgn (AX i - S i + U i) * Rmax (Rabs (AX i - S i + U i) - W i / rho) 0) in *.
  apply (Rmult_le_compat_l rho) in K; [|lra].
  replace (rho * (W i / rho * Rabs q + (AX i - S i + U i - q) * (y i - q))) with (W i * Rabs q + rho * ((AX i - S i + U i - q) * (y i - q))) in K by (field; lra).
  replace (rho * (W i / rho * Rabs (y i))) with (W i * Rabs (y i)) in K by (field; lra).
  rewrite !Rabs_mult, (Rabs_pos_eq (W i)) by (exact (HW i Hi)). lra.
Qed.

Lemma HX87 : forall y u, argmin (fun _ => True) (fun x => auglag n eq_A eq_B S rho f g x y u) (sp_xstep s all axes lmbda rho S y u).
Proof.
  intros y u. split; [exact I|]. intros x _. pose proof (C87_xstep y u x) as Q. cbv zeta in Q. set (X := sp_xstep s all axes lmbda rho S y u) in *.
  pose proof (nrm2_nonneg n (fun r => x r - X r)) as P. assert (0 <= rho / 2 * nrm2 n (fun r => x r - X r)) by (apply Rmult_le_pos; lra).
  unfold auglag in *. rewrite !f_eq. lra.
Qed.
Lemma eqA_linear : linear_map eq_A. Proof. intros a x b y p. reflexivity. Qed.
Lemma g_conv : convex_on (fun _ => True) g.
Proof.
  intros x y t _ _ Ht. split; [exact I|]. unfold g. rewrite <- sumn_minus, <- sumn_scal, <- sumn_plus. apply sumn_le. intros i Hi. unfold seg.
  replace (W i * (x i + t * (y i - x i))) with ((1 - t) * (W i * x i) + t * (W i * y i)) by ring.
  eapply Rle_trans; [apply Rabs_triang|]. rewrite !(Rabs_mult (1 - t)), !(Rabs_mult t), (Rabs_pos_eq (1 - t)), (Rabs_pos_eq t) by lra. lra.
Qed.
Lemma g_pos y : 0 <= g y. Proof. apply sumn_nonneg. intros. apply Rabs_pos. Qed.
Lemma Lg87 : 0 <= sumn n W. Proof. apply sumn_nonneg. exact HW. Qed.
Lemma g_glip a b : Rabs (g a - g b) <= sumn n W * nrm n (fun i => a i - b i).
Proof. exact (l1_lip n n W a b (le_n n) HW). Qed.
Lemma inj87 x : nrm2 n x <= 1 * (nrm2 n (H x) + nrm2 n (eq_A x)).
Proof. pose proof (nrm2_nonneg n (H x)). unfold eq_A. lra. Qed.

(** A stationary state is a solution, with Y the difference between X and the signal. *)
Theorem C87_stationary rlx st : rlx <> 0 -> let st' := sp_iterate s all axes lmbda rho S W rlx 1 st in
  (forall i, (i < n)%nat -> sY st' i = sY st i) -> (forall i, (i < n)%nat -> sU st' i = sU st i) ->
  argmin (fun _ => True) (spline_obj n D lmbda W S) (sX st') /\ forall i, (i < n)%nat -> sY st' i = sX st' i - S i.
Proof.
  intros Hr st' H1 H2. destruct (split_stationary n n H (fun _ => 0) eq_A S g (sumn n W) rlx rho _ _ H_linear eqA_linear g_conv Lg87 g_glip Hrho HX87 C87_ystep st Hr H1 H2) as [[_ A] B].
  split; [|exact B]. split; [exact I|]. intros x _. rewrite <- !split_is. apply A. exact I.
Qed.
(** From any starting point the iterates converge to a solution, and so do the recorded values. *)
Theorem C87_limit rlx st : 0 < rlx < 2 -> (exists p, argmin (fun _ => True) (spline_obj n D lmbda W S) p) -> let it k := sp_iterate s all axes lmbda rho S W rlx k st in
  exists p, argmin (fun _ => True) (spline_obj n D lmbda W S) p /\ (forall i, (i < n)%nat -> Un_cv (fun k => sX (it k) i) (p i)) /\
    (forall i, (i < n)%nat -> Un_cv (fun k => sY (it k) i) (p i - S i)) /\
    forall gEvalY, Un_cv (fun k => sp_obj s all axes lmbda S W gEvalY (sX (it k)) (sY (it k))) (spline_obj n D lmbda W S p).
Proof.
  intros Hr [p0 [_ A0]] it0.
  destruct (split_limit n n n H (fun _ => 0) eq_A S g (sumn n W) rlx rho _ _ H_linear H_local eqA_linear (fun x y E p Hp => E p Hp) g_conv g_pos Lg87 g_glip Hrho HX87 C87_ystep 1 ltac:(lra) inj87 st Hr) as (p & [_ A] & B1 & B2).
  { exists p0. split; [exact I|]. intros x _. rewrite !split_is. apply A0. exact I. }
  exists p. split; [split; [exact I|]; intros x _; rewrite <- !split_is; apply A; exact I|]. split; [exact B1|]. split; [exact B2|].
  intros b. assert (Cf : Un_cv (fun k => f (sX (it0 k))) (f p)).
  { apply (lip_cv n f (fun k => sX (it0 k)) p); [|exact B1]. apply (lip_lsq n n H (fun _ => 0) H_linear). intros; apply H_local; assumption. }
  assert (Cg0 : Un_cv (fun k => g (sp_gvar S b (sX (it0 k)) (sY (it0 k)))) (g (fun i => p i - S i))).
  { apply (lip_cv n g (fun k => sp_gvar S b (sX (it0 k)) (sY (it0 k)))); [exact (DualProofs.glob_lip n g (sumn n W) Lg87 g_glip)|]. intros i Hi. destruct b; cbn [sp_gvar]; [apply B2; exact Hi|].
    apply CV_minus; [apply B1; exact Hi|apply cv_const]. }
  pose proof (CV_plus _ _ _ _ Cg0 Cf) as Q. rewrite f_eq in Q. fold (spline_obj n D lmbda W S p) in Q. revert Q. apply cv_ext. intros k. rewrite f_eq. unfold sp_obj, sp_dfd, sp_reg, g. fold n.
  rewrite nrm_sqr. rewrite (nrm2_ext n (sp_op s all axes (sX (it0 k))) (D (sX (it0 k)))) by (intros r Hr0; apply C87_operator; exact Hr0). lra.
Qed.
(** A solution exists when all the weights are positive. *)
Theorem C87_exists : (forall r, (r < n)%nat -> 0 < W r) -> exists p, argmin (fun _ => True) (spline_obj n D lmbda W S) p.
Proof.
  intros HP. destruct (l1_coercive n 1 W Rlt_0_1 HP) as (a & Ha & Hc).
  destruct (split_exists n n n H (fun _ => 0) eq_A S g (sumn n W) H_linear H_local eqA_linear (fun x y E p Hp => E p Hp) Lg87 g_glip 1 ltac:(lra) inj87 a 0 Ha) as [p [_ A]].
  { intros y. specialize (Hc y). unfold l1reg in Hc. unfold g. lra. }
  exists p. split; [exact I|]. intros x _. rewrite <- !split_is. apply A. exact I.
Qed.
(** The recorded objective function at X is that of the problem. *)
Theorem C87_objective X Y : sp_obj s all axes lmbda S W false X Y = spline_obj n D lmbda W S X.
Proof.
  unfold sp_obj, sp_dfd, sp_reg, spline_obj, sp_gvar. fold n. rewrite nrm_sqr, (nrm2_ext n (sp_op s all axes X) (D X)) by (intros r Hr0; apply C87_operator; exact Hr0). lra.
Qed.
End spline.

(** Two samples (0, 4), unit weights: a solution is (0, 1/2). *)
Example C87_instance : let s := fun _ : nat => 2%nat in let S := fun r : nat => if Nat.eqb r 1 then 4 else 0 in
  let D := on_vec (place s [0%nat] (fun _ => O)) (rank s [0%nat]) (laplace s [0%nat]) in
  (forall x, D x 0%nat = x 1%nat - x 0%nat /\ D x 1%nat = x 0%nat - x 1%nat) /\
  argmin (fun _ => True) (spline_obj 2 D 1 (fun _ => 1) S) (fun r => if Nat.eqb r 1 then / 2 else 0).
Proof.
  intros s S D. assert (E : forall x, D x 0%nat = x 1%nat - x 0%nat /\ D x 1%nat = x 0%nat - x 1%nat).
  { intros x. unfold D, on_vec, laplace, along, second_diff, place, rank, size, s. cbn. unfold upd. cbn. split; ring. }
  split; [exact E|]. split; [exact I|]. intros x _. unfold spline_obj, nrm2, dot. cbn [sumn]. rewrite !(proj1 (E _)), !(proj2 (E _)). unfold S. cbn [Nat.eqb]. rewrite !Rmult_1_l.
  replace (0 - 0) with 0 by ring. rewrite Rabs_R0, (Rabs_left (/ 2 - 4)) by lra.
  pose proof (Rle_abs (x 0%nat - 0)) as P0. pose proof (Rle_abs (- (x 1%nat - 4))) as P1. rewrite Rabs_Ropp in P1. pose proof (Rle_0_sqr (x 1%nat - x 0%nat - / 2)) as Q. unfold Rsqr in Q. nra.
Qed.
Print Assumptions C87_roundtrip.
Print Assumptions C87_operator.
Print Assumptions C87_linsolve.
Print Assumptions C87_xstep.
Print Assumptions C87_ystep.
Print Assumptions C87_stationary.
Print Assumptions C87_limit.
Print Assumptions C87_exists.
Print Assumptions C87_objective.
Print Assumptions C87_instance.
