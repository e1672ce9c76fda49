(** C88: RobustPCA converges to a solution of the robust PCA problem. *)
Require Import Reals Lra Lia Arith Bool FunctionalExtensionality.
Require Import Verif.RVec Verif.ProxModel Verif.NucModel Verif.NucSpec Verif.NucProofs.
Require Import Verif.AdmmModel Verif.AdmmSpec Verif.AdmmProofs Verif.AdmmConv Verif.AdmmProps Verif.Compact Verif.AdmmLimit.
Require Import Verif.StepsModel Verif.StepsSpec Verif.StepsProofs Verif.StepsProofs2 Verif.StepsProps Verif.LimitProofs Verif.DualProofs Verif.SplitConv.
Require Import Verif.RpcModel Verif.RpcSpec Verif.RpcProofs.
Local Open Scope R_scope.
Local Notation vec := (nat -> R).

Section rpca.
Context (svd : mat -> mat * (nat -> R) * mat) (M N : nat) (lmbda rho rlx : R) (S : vec).
Context (HN : (0 < N)%nat) (Hsvd : forall X, is_svd M N X (svd X)) (Hlam : 0 <= lmbda).
Let n := (M * N)%nat.
Let f := nuc svd M N.
Let g := l1reg n lmbda (fun _ => 1).
Lemma g88 y : g y = lmbda * abs_sum n y. Proof. unfold g, l1reg, abs_sum. f_equal. apply sumn_ext. intros. rewrite Rmult_1_l. reflexivity. Qed.
Lemma nuc_lip : loc_lip n f.
Proof.
  intros r Hr. exists 1. split; [lra|]. intros x y _ _. rewrite Rmult_1_l. apply Rabs_le.
  pose proof (nuc_diff M N x y _ _ HN (nuc_spec svd M N Hsvd x) (nuc_spec svd M N Hsvd y)) as Q1. pose proof (nuc_diff M N y x _ _ HN (nuc_spec svd M N Hsvd y) (nuc_spec svd M N Hsvd x)) as Q2.
  fold n f in Q1, Q2. rewrite (sumn_ext n _ (fun i => Rabs (x i - y i))) in Q2 by (intros; apply Rabs_minus_sym). unfold dist1. fold f. lra.
Qed.
Lemma nuc_pos x : 0 <= f x. Proof. apply (nuclear_nonneg M N (unvec N x)). exact (nuc_spec svd M N Hsvd x). Qed.
Lemma g_pos88 y : 0 <= g y. Proof. rewrite g88. apply Rmult_le_pos; [exact Hlam|]. apply sumn_nonneg. intros; apply Rabs_pos. Qed.
Lemma Lg88 : 0 <= lmbda * INR n. Proof. apply Rmult_le_pos; [exact Hlam|apply pos_INR]. Qed.
Lemma g_lip88 a b : Rabs (g a - g b) <= lmbda * INR n * nrm n (fun i => a i - b i).
Proof.
  rewrite !g88, <- Rmult_minus_distr_l, Rabs_mult, (Rabs_pos_eq lmbda) by exact Hlam. rewrite Rmult_assoc. apply Rmult_le_compat_l; [exact Hlam|].
  unfold abs_sum. rewrite <- sumn_minus. eapply Rle_trans; [apply sumn_abs|]. rewrite <- sumn_const. apply sumn_le. intros i Hi.
  eapply Rle_trans; [apply Rabs_triang_inv2|]. exact (SplitConv.abs_le_nrm n (fun i => a i - b i) i Hi).
Qed.
Lemma solution_of p : argmin (fun _ => True) (sum_obj S f g) p -> rpca_solution M N lmbda S p (fun i => S i - p i) (sum_obj S f g p).
Proof.
  intros [_ A]. split; [intros i _; ring|]. split.
  - exists (f p). split; [exact (nuc_spec svd M N Hsvd p)|]. unfold sum_obj. rewrite g88. reflexivity.
  - intros L' E' w' HS Hw. eapply Rle_trans; [apply (A L' I)|]. unfold sum_obj. rewrite g88. apply Req_le. f_equal.
    + exact (is_nuclear_fun M N _ _ _ (nuc_spec svd M N Hsvd L') Hw).
    + f_equal. apply sumn_ext. intros i Hi. f_equal. specialize (HS i Hi). lra.
Qed.
Lemma min88 : exists p, argmin (fun _ => True) (sum_obj S f g) p.
Proof.
  destruct (Rle_lt_or_eq_dec 0 lmbda Hlam) as [Hp|Hz].
  - destruct (coercive_min n (fun _ => True) (sum_obj S f g) lmbda (lmbda * abs_sum n S)) as [p Hp0].
    + apply boxes_true.
    + apply lip_plus; [exact nuc_lip|]. apply (lip_ext_fun n (fun x => lmbda * sumn n (fun i => Rabs (S i - x i)))); [intros x; rewrite g88; reflexivity|].
      apply lip_scal. apply lip_sumn. intros i Hi. apply lip_abs. apply (lip_ext_fun n (fun x => S i + (-1) * x i)); [intros; ring|]. apply lip_plus; [apply lip_const|]. apply lip_scal. apply lip_coord. exact Hi.
    + exact Hp.
    + intros x _. unfold sum_obj. pose proof (nuc_pos x) as P. rewrite g88. apply Rle_trans with (lmbda * abs_sum n (fun i => S i - x i)); [|lra].
      rewrite <- Rmult_minus_distr_l. apply Rmult_le_compat_l; [exact Hlam|]. unfold abs_sum. rewrite <- sumn_minus. apply sumn_le. intros i _.
      pose proof (Rabs_triang (S i) (- (S i - x i))) as T. rewrite Rabs_Ropp in T. replace (S i + - (S i - x i)) with (x i) in T by ring. lra.
    + exists p. exact Hp0.
  - exists (fun _ => 0). split; [exact I|]. intros x _. unfold sum_obj. rewrite !g88, <- Hz. replace (f (fun _ => 0)) with 0; [pose proof (nuc_pos x); lra|].
    exact (is_nuclear_fun M N _ _ _ (nuclear_zero M N) (nuc_spec svd M N Hsvd (fun _ => 0))).
Qed.
Theorem C88_exists : exists L E v, rpca_solution M N lmbda S L E v.
Proof. destruct min88 as [p Hp]. exists p, (fun i => S i - p i), (sum_obj S f g p). exact (solution_of p Hp). Qed.

Lemma ss88 Y U : 0 < rho -> sumn (Nat.min M N) (rp_ss svd M N rho S Y U) = f (rpca_xstep svd M N S rho Y U).
Proof.
  intros Hr. set (V := unvec N (fun p => S p - Y p - U p)). assert (Ha : 0 <= 1 / rho) by (apply Rmult_le_pos; [lra|apply Rlt_le, Rinv_0_lt_compat; exact Hr]).
  destruct (prox_nuclear_sub svd M N V (1 / rho) Ha (Hsvd V)) as [H1 _]. cbv zeta in H1. apply (is_nuclear_fun M N (fst (prox_nuclear svd M N V (1 / rho)))); [exact H1|].
  apply is_nuclear_ext with (unvec N (rpca_xstep svd M N S rho Y U)); [|exact (nuc_spec svd M N Hsvd _)]. intros i j _ Hj. unfold rpca_xstep. apply unvec_vecm. exact Hj.
Qed.
(** From any starting point the two results of solve converge to a solution, and the recorded values to its value and to zero. *)
Theorem C88_limit st : 0 < rho -> 0 < rlx < 2 -> let it k := rp_iterate svd M N lmbda rho rlx S k st in
  exists L E v, rpca_solution M N lmbda S L E v /\ (forall i, (i < M * N)%nat -> Un_cv (fun k => sX (it k) i) (L i)) /\ (forall i, (i < M * N)%nat -> Un_cv (fun k => sY (it k) i) (E i)) /\
    forall fEvalX gEvalY, Un_cv (fun k => fst (rp_recorded svd M N lmbda rho rlx S fEvalX gEvalY k st)) v /\ Un_cv (fun k => snd (rp_recorded svd M N lmbda rho rlx S fEvalX gEvalY k st)) 0.
Proof.
  intros Hrho Hr it0.
  destruct (sum_limit n S f g (lmbda * INR n) rlx rho _ _ (nuc_convex svd M N Hsvd) nuc_lip nuc_pos (l1reg_convex _ n lmbda (fun _ => 1) Hlam true_convex) g_pos88 Lg88 g_lip88 Hrho
    (fun Y U => C37_rpca_x svd M N S HN Hsvd rho _ Y U Hrho) (fun ax u => C37_rpca_y M N S lmbda rho ax u Hlam Hrho) st Hr min88) as (p & Ap & CX & CY).
  fold (rp_iterate svd M N lmbda rho rlx S) in CX, CY.
  exists p, (fun i => S i - p i), (sum_obj S f g p). split; [exact (solution_of p Ap)|]. split; [exact CX|]. split; [exact CY|].
  intros a b.
  assert (CX1 : forall i, (i < n)%nat -> Un_cv (fun k => sX (it0 (Datatypes.S k)) i) (p i)) by (intros i Hi; apply (cv_S (fun k => sX (it0 k) i)); apply CX; exact Hi).
  assert (CY1 : forall i, (i < n)%nat -> Un_cv (fun k => sY (it0 (Datatypes.S k)) i) (S i - p i)) by (intros i Hi; apply (cv_S (fun k => sY (it0 k) i)); apply CY; exact Hi).
  split.
  - unfold rp_recorded. cbn [fst]. unfold rp_obj.
    assert (C1 : Un_cv (fun k => rp_nuc svd M N S a (rp_ss svd M N rho S (sY (it0 k)) (sU (it0 k))) (sY (it0 (Datatypes.S k)))) (f p)).
    { destruct a; cbn [rp_nuc].
      - apply (cv_ext (fun k => f (sX (it0 (Datatypes.S k))))); [intros k; symmetry; exact (ss88 _ _ Hrho)|]. apply (lip_cv n f (fun k => sX (it0 (Datatypes.S k))) p nuc_lip CX1).
      - apply (lip_cv n f (fun k i => S i - sY (it0 (Datatypes.S k)) i) p nuc_lip). intros i Hi. replace (p i) with (S i - (S i - p i)) by ring. apply CV_minus; [apply cv_const|apply CY1; exact Hi]. }
    assert (C2 : Un_cv (fun k => rp_l1 M N S b (sX (it0 (Datatypes.S k))) (sY (it0 (Datatypes.S k)))) (abs_sum n (fun i => S i - p i))).
    { unfold rp_l1, abs_sum. fold n. apply (cv_sumn n (fun k i => Rabs (if b then sY (it0 (Datatypes.S k)) i else S i - sX (it0 (Datatypes.S k)) i)) (fun i => Rabs (S i - p i))). intros i Hi.
      apply (cv_cvabs (fun k => if b then sY (it0 (Datatypes.S k)) i else S i - sX (it0 (Datatypes.S k)) i)). destruct b; [apply CY1; exact Hi|apply CV_minus; [apply cv_const|apply CX1; exact Hi]]. }
    unfold sum_obj. rewrite g88. exact (CV_plus _ _ _ _ C1 (CV_mult _ _ _ _ (cv_const lmbda) C2)).
  - unfold rp_recorded. cbn [snd]. unfold rp_cns. fold n.
    apply (cv_sqrt_0 (fun k => nrm2 n (fun q => sX (it0 (Datatypes.S k)) q + sY (it0 (Datatypes.S k)) q - S q))); [intros; apply nrm2_nonneg|].
    apply (cv_coord_nrm2 n (fun k q => sX (it0 (Datatypes.S k)) q + sY (it0 (Datatypes.S k)) q) S). intros i Hi. replace (S i) with (p i + (S i - p i)) by ring. apply CV_plus; [apply CX1|apply CY1]; exact Hi.
Qed.
End rpca.

(** For lmbda >= 1 nothing is gained by a sparse part, for lmbda <= 1 / sqrt(M N) nothing by a low rank part. *)
Theorem C88_large M N lmbda S w : (0 < N)%nat -> 1 <= lmbda -> is_nuclear M N (rows N S) w -> rpca_solution M N lmbda S S (fun _ => 0) w.
Proof.
  intros HN Hl Hw. split; [intros i _; ring|]. split.
  - exists w. split; [exact Hw|]. replace (abs_sum (M * N) (fun _ => 0)) with 0; [ring|]. symmetry. apply sumn_0. intros. apply Rabs_R0.
  - intros L' E' w' HS Hw'. pose proof (nuc_diff M N S L' w w' HN Hw Hw') as Q. assert (P : 0 <= abs_sum (M * N) E') by (apply sumn_nonneg; intros; apply Rabs_pos).
    rewrite (sumn_ext (M * N) _ (fun i => Rabs (E' i))) in Q by (intros i Hi; f_equal; specialize (HS i Hi); lra). fold (abs_sum (M * N) E') in Q. nra.
Qed.
Theorem C88_small M N lmbda S : (0 < N)%nat -> 0 <= lmbda -> lmbda * lmbda * INR (M * N) <= 1 -> rpca_solution M N lmbda S (fun _ => 0) S (lmbda * abs_sum (M * N) S).
Proof.
  intros HN Hl Hs. split; [intros i _; ring|]. split; [exists 0; split; [apply nuclear_zero|ring]|]. intros L' E' w' HS [Hw _].
  set (W := fun i j => lmbda * sgn (S (i * N + j)%nat)).
  assert (HW : contraction M N W).
  { apply contraction_frob. eapply Rle_trans; [|exact Hs]. rewrite mult_INR. unfold fnrm2, fdot. rewrite (Rmult_comm (lmbda * lmbda)), Rmult_assoc, <- sumn_const. apply sumn_le. intros i _. rewrite <- sumn_const. apply sumn_le. intros j _.
    unfold W. set (t := sgn (S (i * N + j)%nat)). assert (Ht : t * t <= 1) by (unfold t, sgn, ltb; repeat destruct (Rlt_dec _ _); lra).
    replace (lmbda * t * (lmbda * t)) with (lmbda * lmbda * (t * t)) by ring. rewrite <- (Rmult_1_r (lmbda * lmbda)) at 2. apply Rmult_le_compat_l; [apply Rle_0_sqr|exact Ht]. }
  specialize (Hw W HW). apply Rle_trans with (fdot M N (rows N L') W + lmbda * abs_sum (M * N) E'); [|lra].
  assert (E : fdot M N (rows N L') W = sumn (M * N) (fun i => lmbda * (L' i * sgn (S i)))) by (rewrite (AdmmProps.sumn_flat N M) by exact HN; unfold fdot, W, rows; apply sumn_ext; intros; apply sumn_ext; intros; ring).
  rewrite E, sumn_scal, <- Rmult_plus_distr_l. apply Rmult_le_compat_l; [exact Hl|]. unfold abs_sum. rewrite <- sumn_plus. apply sumn_le. intros i Hi. specialize (HS i Hi).
  pose proof (Rle_abs (E' i)) as P1. pose proof (Rle_abs (- E' i)) as P2. rewrite Rabs_Ropp in P2. pose proof (Rabs_pos (E' i)) as P3. replace (L' i) with (S i - E' i) by lra. unfold sgn, ltb. unfold Rabs at 1. repeat destruct (Rlt_dec _ _); destruct (Rcase_abs (S i)); lra.
Qed.
(** With the default lmbda = M^(-1/2) (rpca.py 134-135) a matrix of one column is all sparse part. *)
Theorem C88_default_column M S : (0 < M)%nat -> rpca_solution M 1 (/ sqrt (INR M)) S (fun _ => 0) S (/ sqrt (INR M) * abs_sum (M * 1) S).
Proof.
  intros HM. apply lt_0_INR in HM. pose proof (sqrt_lt_R0 _ HM) as P. apply C88_small; [lia|apply Rlt_le, Rinv_0_lt_compat; exact P|]. rewrite Nat.mul_1_r. rewrite <- Rinv_mult, sqrt_sqrt by lra. rewrite Rinv_l by lra. lra.
Qed.
(** The decomposition contract can be met: matrices with one column (StepsProps). The signal (1, 2, 2) with lmbda = 2. *)
Example C88_instance : let S := fun i : nat => match i with O => 1 | _ => 2 end in
  rpca_solution 3 1 2 S S (fun _ => 0) 3 /\
  forall st, exists L E v, rpca_solution 3 1 2 S L E v /\ v = 3 /\ forall i, (i < 3 * 1)%nat -> Un_cv (fun k => sX (rp_iterate (svd_col 3) 3 1 2 1 (9 / 5) S k st) i) (L i).
Proof.
  intros S. assert (W : is_nuclear 3 1 (rows 1 S) 3).
  { pose proof (norm_nuclear_spec (svd_col 3) 3 1 (rows 1 S) (svd_col_ok 3 _ ltac:(lia))) as Q. replace (norm_nuclear (svd_col 3) 3 1 (rows 1 S)) with 3 in Q; [exact Q|].
    unfold norm_nuclear, svd_col. change (Nat.min 3 1) with 1%nat. cbn [sumn]. unfold nrm, nrm2, dot. cbn [sumn]. unfold rows, S. cbn [Nat.mul Nat.add].
    replace (0 + 1 * 1 + 2 * 2 + 2 * 2) with (3 * 3) by ring. rewrite sqrt_square by lra. ring. }
  pose proof (C88_large 3 1 2 S 3 ltac:(lia) ltac:(lra) W) as SOL. split; [exact SOL|]. intros st.
  destruct (C88_limit (svd_col 3) 3 1 2 1 (9 / 5) S ltac:(lia) (fun X => svd_col_ok 3 X ltac:(lia)) ltac:(lra) st ltac:(lra) ltac:(lra)) as (L & E & v & H1 & H2 & _).
  exists L, E, v. split; [exact H1|]. split; [|exact H2]. destruct H1 as (F1 & (w & N1 & V1) & M1). destruct SOL as (F2 & (w2 & N2 & V2) & M2).
  apply Rle_antisym; [rewrite V2; apply (M1 S (fun _ => 0) w2 F2 N2)|rewrite V1; apply (M2 L E w F1 N1)].
Qed.
Print Assumptions C88_exists.
Print Assumptions C88_limit.
Print Assumptions C88_large.
Print Assumptions C88_small.
Print Assumptions C88_default_column.
Print Assumptions C88_instance.
