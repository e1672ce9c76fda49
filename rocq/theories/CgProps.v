Require Import List Arith ZArith Reals Bool Lia Lra FunctionalExtensionality.
Require Import Verif.RVec Verif.Cplx Verif.CscModel Verif.CscProofs Verif.CgModel Verif.CgSpec Verif.CgProofs.
Local Open Scope R_scope.

(** The operator handed to cg is linear, self-adjoint and positive definite, as cg requires. *)
Theorem C97_operator (F M K : nat) (ah : nat -> nat -> nat -> C) (rho : R) (x y : nat -> C) : 0 < rho ->
  linear_op (F * M) (vop M K ah rho) /\
  inner_re (F * M) (vop M K ah rho x) y = inner_re (F * M) x (vop M K ah rho y) /\
  rho * size2 (F * M) x <= inner_re (F * M) (vop M K ah rho x) x /\
  ((exists i, (i < F * M)%nat /\ x i <> c0) -> 0 < inner_re (F * M) (vop M K ah rho x) x).
Proof.
  intros Hr. split; [apply vop_linear|]. split; [apply vop_symmetric|]. split; [apply vop_positive|].
  intros (i & Hi & N). eapply Rlt_le_trans; [|apply vop_positive]. apply Rmult_lt_0_compat; [exact Hr|].
  destruct (Rtotal_order (size2 (F * M) x) 0) as [L|[E|G]]; [pose proof (size2_nonneg (F * M) x); lra| |exact G].
  exfalso. apply N. exact (size2_0 (F * M) x E i Hi).
Qed.
Print Assumptions C97_operator.

(** The systems have exactly one solution, the one that solvemdbi_ism computes. *)
Theorem C97_solution (F M K : nat) (ah : nat -> nat -> nat -> C) (rho : R) (b : nat -> C) : 0 < rho -> (0 < K)%nat ->
  let x := ravel M (fun f => mdbi_ism M K (ah f) (fun _ => rho) (fun m => b (f * M + m)%nat)) in
  block_system F M K ah rho b x /\ (forall y, block_system F M K ah rho b y -> forall i, (i < F * M)%nat -> y i = x i).
Proof.
  intros Hr HK x.
  assert (Hx : block_system F M K ah rho b x).
  { intros f m Hf Hm. unfold x. rewrite (ravel_at F) by exact Hm.
    etransitivity; [|exact (ism_sys M (fun _ => rho) (fun _ _ => Hr) K (ah f) (fun m => b (f * M + m)%nat) m HK Hm)]. unfold sys. f_equal.
    apply csumn_ext. intros k _. f_equal. unfold app. apply csumn_ext. intros j Hj. rewrite (ravel_at F) by exact Hj. reflexivity. }
  split; [exact Hx|]. intros y Hy i Hi.
  pose proof (vop_error F M K ah rho Hr b y x (proj1 (block_vop F M K ah rho b x) Hx)) as E.
  rewrite (len_zero (F * M) (residual (vop M K ah rho) b y)) in E.
  - assert (Z : len (F * M) (fun i => csub (y i) (x i)) = 0) by (pose proof (len_nonneg (F * M) (fun i => csub (y i) (x i))); unfold Rdiv in E; lra).
    pose proof (len_0 _ _ Z i Hi) as K0. simpl in K0. replace (y i) with (cadd (csub (y i) (x i)) (x i)) by ring. rewrite K0. ring.
  - intros j Hj. unfold residual. rewrite (proj1 (block_vop F M K ah rho b y) Hy j Hj). ring.
Qed.
Print Assumptions C97_solution.

(** A result reported as successful is within tol * ||b|| / rho of the solution, in norm and so in every entry. *)
Theorem C97_accuracy (F M K : nat) (cg : cg_fun) (ah : nat -> nat -> nat -> C) (rho : R) (b xs x : nat -> C) (tol : R) (mit : nat) (isn : option (nat -> C)) :
  cg_contract (F * M) cg -> 0 < rho -> 0 < tol -> (0 < mit)%nat -> block_system F M K ah rho b xs ->
  solvemdbi_cg cg M K ah rho b tol mit isn = (x, O) ->
  len (F * M) (fun i => csub (x i) (xs i)) <= tol * len (F * M) b / rho /\
  (forall i, (i < F * M)%nat -> sqrt (cabs2 (csub (x i) (xs i))) <= tol * len (F * M) b / rho).
Proof.
  intros Hc Hr Ht Hm Hs E.
  assert (B : len (F * M) (fun i => csub (x i) (xs i)) <= tol * len (F * M) b / rho).
  { eapply Rle_trans; [apply (vop_error F M K ah rho Hr b x xs); apply block_vop; exact Hs|].
    apply Rmult_le_compat_r; [left; apply Rinv_0_lt_compat; exact Hr|].
    apply (cg_ok _ _ Hc _ _ _ _ _ _ (vop_linear F M K ah rho) E Hm Ht). }
  split; [exact B|]. intros i Hi. eapply Rle_trans; [apply (len_entry (F * M) (fun i => csub (x i) (xs i)) i Hi)|exact B].
Qed.
Print Assumptions C97_accuracy.

(** The x step starts from the previous spectrum: whenever that meets the tolerance it is returned unchanged.  At a stationary
    iterate (Y = X, and U unchanged) the gradient condition Z^H (Z X - S) + rho U = 0 holds up to tol times the norm of the
    right hand side; the dictionary update is exact up to that only. *)
Theorem C97_stationary (F M K : nat) (cg : cg_fun) (Zf : nat -> nat -> nat -> C) (Sf : nat -> nat -> C) (rho : R) (Xf Uf : nat -> C) (tol : R) (mit : nat) :
  cg_contract (F * M) cg -> 0 < rho -> 0 < tol -> (0 < mit)%nat ->
  let b := fun i => cadd (zsf M K Zf Sf i) (cscal rho (csub (Xf i) (Uf i))) in
  let grad := fun i => cadd (csub (ravel M (fun f m => csumn K (fun k => cmul (conj (Zf f k m)) (csumn M (fun j => cmul (Zf f k j) (Xf (f * M + j)%nat))))) i)
       (ravel M (fun f m => csumn K (fun k => cmul (conj (Zf f k m)) (Sf f k))) i)) (cscal rho (Uf i)) in
  (len (F * M) grad < tol * len (F * M) b -> cg_xstep cg M K Zf rho (zsf M K Zf Sf) (fun i => csub (Xf i) (Uf i)) tol mit Xf = (Xf, O)) /\
  (cg_xstep cg M K Zf rho (zsf M K Zf Sf) (fun i => csub (Xf i) (Uf i)) tol mit Xf = (Xf, O) -> len (F * M) grad <= tol * len (F * M) b).
Proof.
  intros Hc Hr Ht Hm b grad.
  assert (E : len (F * M) grad = len (F * M) (residual (vop M K Zf rho) b Xf)).
  { rewrite <- len_opp. apply len_ext. intros i Hi. unfold grad, residual, b, vop, zsf, Aop, AHop, reshape, ravel. rewrite !cscal_mul. ring. }
  unfold cg_xstep, solvemdbi_cg. fold b. rewrite E. split.
  - intros H. apply (cg_warm _ _ Hc); [apply vop_linear|exact Hm|exact H].
  - intros H. apply (cg_ok _ _ Hc _ _ _ _ _ _ (vop_linear F M K Zf rho) H Hm Ht).
Qed.
Print Assumptions C97_stationary.

(** With the default tolerance 1e-3 a stationary iterate need not be a solution: one sample, one filter, Z = S = 1, U = 0 and
    X = 0.9995 is left unchanged, while the gradient is -0.0005. *)
Lemma len_one x : len 1 x = sqrt (re (x O) * re (x O) + im (x O) * im (x O)).
Proof. unfold len, size2. simpl. f_equal. ring. Qed.
Lemma len_one_re r : 0 <= r -> forall x, x O = ofR r \/ x O = ofR (- r) -> len 1 x = r.
Proof.
  intros Hr x [E|E]; rewrite len_one, E; unfold ofR, re, im; simpl.
  - replace (r * r + 0 * 0) with (Rsqr r) by (unfold Rsqr; ring). apply sqrt_Rsqr. exact Hr.
  - replace (- r * - r + 0 * 0) with (Rsqr r) by (unfold Rsqr; ring). apply sqrt_Rsqr. exact Hr.
Qed.
Theorem C97_stationary_refuted (cg : cg_fun) : cg_contract 1 cg ->
  let Zf := fun _ _ _ : nat => c1 in let Xf := fun _ : nat => ofR (1999 / 2000) in
  cg_xstep cg 1 1 Zf 1 (zsf 1 1 Zf (fun _ _ => c1)) (fun i => csub (Xf i) c0) (1 / 1000) 1000 Xf = (Xf, O) /\
  ~ block_system 1 1 1 Zf 0 (fun _ => c1) Xf.
Proof.
  intros Hc Zf Xf. split.
  - destruct (C97_stationary 1 1 1 cg Zf (fun _ _ => c1) 1 Xf (fun _ => c0) (1 / 1000) 1000 Hc) as [K _]; [lra|lra|lia|].
    apply K. change (1 * 1)%nat with 1%nat.
    rewrite (len_one_re (1 / 2000)); [|lra|right; unfold ravel, csumn, Zf, Xf; simpl; ceq; field].
    rewrite (len_one_re (1 + 1999 / 2000)); [lra|lra|left; unfold zsf, ravel, AHop, csumn, Zf, Xf; simpl; ceq; field].
  - intros H. specialize (H O O Nat.lt_0_1 Nat.lt_0_1). apply (f_equal re) in H. unfold csumn, Zf, Xf in H. simpl in H. unfold re, im in H. simpl in H. lra.
Qed.
Print Assumptions C97_stationary_refuted.

(** The tolerance is for all the systems together: with right hand sides 1000 and 1 at two frequencies the second system is
    left entirely unsolved at tolerance 1e-3. *)
Theorem C97_frequency_refuted (cg : cg_fun) : cg_contract 2 cg ->
  let ah := fun _ _ _ : nat => c1 in let b := fun i : nat => match i with O => ofR 1000 | _ => c1 end in
  let x0 := fun i : nat => match i with O => ofR 500 | _ => c0 end in
  solvemdbi_cg cg 1 1 ah 1 b (1 / 1000) 1000 (Some x0) = (x0, O) /\
  residual (vop 1 1 ah 1) b x0 1%nat = b 1%nat.
Proof.
  intros Hc ah b x0.
  assert (E : forall i, vop 1 1 ah 1 x0 i = cscal 2 (x0 i)).
  { intros i. replace i with (i * 1 + 0)%nat at 1 by lia. rewrite (vop_at 2 1 1 ah 1 x0 i 0) by lia. unfold csumn, ah. cbn [sumn].
    replace (i * 1 + 0)%nat with i by lia. ceq; ring. }
  split.
  - apply (cg_warm _ _ Hc); [apply (vop_linear 2 1)|lia|].
    unfold len, size2. cbn [sumn]. unfold residual. rewrite !E. unfold b, x0, ofR, c1, c0, csub, cadd, copp, cscal, re, im. simpl.
    replace (0 + ((1000 + - (2 * 500)) * (1000 + - (2 * 500)) + (0 + - (2 * 0)) * (0 + - (2 * 0))) +
      ((1 + - (2 * 0)) * (1 + - (2 * 0)) + (0 + - (2 * 0)) * (0 + - (2 * 0)))) with 1 by ring. rewrite sqrt_1.
    apply Rmult_lt_reg_l with 1000; [lra|]. replace (1000 * 1) with (sqrt (1000 * 1000)) by (rewrite sqrt_square; lra).
    match goal with |- _ < 1000 * (1 / 1000 * ?a) => replace (1000 * (1 / 1000 * a)) with a by field end.
    apply sqrt_lt_1_alt. lra.
  - unfold residual. rewrite E. unfold b, x0. ceq; ring.
Qed.
Print Assumptions C97_frequency_refuted.

(** The algorithm of scipy meets the contract.  The second result is documented as the number of CG iterations, but it is 0 on
    success: for 2 x = 2 started from zero one iteration is made and 0 is returned, whatever the number k + 2 of iterations allowed. *)
Theorem C97_contract (n : nat) : cg_contract n (scipy_cg n).
Proof. apply scipy_contract. Qed.
Print Assumptions C97_contract.
Theorem C97_count (n : nat) (A : spec -> spec) (b : spec) (x0 : option spec) (mit : nat) (tol : R) : linear_op n A ->
  let info := snd (scipy_cg n A b x0 mit tol) in info = O \/ info = mit.
Proof. intros L. apply (cg_info _ _ (scipy_contract n)). exact L. Qed.
Print Assumptions C97_count.
Theorem C97_count_refuted (k : nat) : let A := vop 1 1 (fun _ _ _ => c1) 1 in let b := fun _ : nat => ofR 2 in
  exists x, cg_run 1 A b None (S (S k)) (1 / 1000) = (x, O, 1%nat) /\ x O = c1 /\ solvemdbi_cg (scipy_cg 1) 1 1 (fun _ _ _ => c1) 1 b (1 / 1000) (S (S k)) None = (x, O).
Proof.
  intros A b.
  assert (EA : forall y, A y O = cscal 2 (y O)).
  { intros y. unfold A, vop, ravel, AHop, Aop, reshape, csumn. simpl. ceq; ring. }
  assert (Nb : cnorm 1 b = 2) by (rewrite cnorm_len; apply len_one_re; [lra|left; reflexivity]).
  enough (H : exists x, cg_run 1 A b None (S (S k)) (1 / 1000) = (x, O, 1%nat) /\ x O = c1).
  { destruct H as (x & H1 & H2). exists x. split; [exact H1|]. split; [exact H2|]. unfold solvemdbi_cg, scipy_cg. fold A. rewrite H1. reflexivity. }
  unfold cg_run. rewrite Nb. destruct (Req_EM_T 2 0); [lra|].
  cbn [cg_loop].
  set (r := fun i => csub (b i) (A (fun _ => c0) i)).
  assert (Er : r O = ofR 2) by (unfold r; rewrite EA; unfold b; ceq; ring).
  assert (Nr : cnorm 1 r = 2) by (rewrite cnorm_len; apply len_one_re; [lra|left; exact Er]).
  rewrite Nr. destruct (Rlt_dec 2 (1 / 1000 * 2)); [lra|].
  set (alpha := cdivide (vdot 1 r r) (vdot 1 r (A r))).
  assert (Ea : alpha = ofR (/ 2)).
  { unfold alpha, cdivide, vdot, csumn. cbn [sumn]. rewrite !EA, !Er. unfold cabs2. ceq; field. }
  assert (Nz : cnorm 1 (fun i => csub (r i) (cmul alpha (A r i))) = 0).
  { rewrite cnorm_len. apply len_one_re; [lra|left]. rewrite EA, Er, Ea. ceq; field. }
  match goal with |- context [Rlt_dec ?a (1 / 1000 * 2)] => destruct (Rlt_dec a (1 / 1000 * 2)) as [_|N2] end.
  - eexists. split; [reflexivity|]. cbn beta. fold alpha. change (cadd c0 (cmul alpha (r O)) = c1). rewrite Ea, Er. ceq; field.
  - exfalso. apply N2. eapply Rle_lt_trans; [right; exact Nz|lra].
Qed.
Print Assumptions C97_count_refuted.

(** A case meeting the hypotheses: two frequencies, two filters, one signal, with the algorithm of scipy started from the exact
    solution of a diagonal system. *)
Example C97_instance : let ah := fun f k m : nat => if Nat.eqb f m then c1 else c0 in let b := fun _ : nat => ofR 2 in
  exists x, block_system 2 2 1 ah 1 b x /\ solvemdbi_cg (scipy_cg (2 * 2)) 2 1 ah 1 b (1 / 2) 10 (Some x) = (x, O) /\
    len (2 * 2) (fun i => csub (x i) (x i)) <= 1 / 2 * len (2 * 2) b / 1.
Proof.
  intros ah b. destruct (C97_solution 2 2 1 ah 1 b) as [Hx _]; [lra|lia|].
  set (x := ravel 2 (fun f => mdbi_ism 2 1 (ah f) (fun _ => 1) (fun m => b (f * 2 + m)%nat))) in Hx. exists x. split; [exact Hx|].
  assert (Lb : 0 < len (2 * 2) b).
  { unfold len. apply sqrt_lt_R0. unfold size2, b, ofR, re, im. simpl. lra. }
  assert (E : solvemdbi_cg (scipy_cg (2 * 2)) 2 1 ah 1 b (1 / 2) 10 (Some x) = (x, O)).
  { apply (cg_warm _ _ (scipy_contract (2 * 2))); [apply (vop_linear 2 2)|lia|].
    rewrite (len_zero (2 * 2) (residual (vop 2 1 ah 1) b x)).
    - lra.
    - intros i Hi. unfold residual. rewrite (proj1 (block_vop 2 2 1 ah 1 b x) Hx i Hi). ring. }
  split; [exact E|]. apply (C97_accuracy 2 2 1 (scipy_cg (2 * 2)) ah 1 b x x (1 / 2) 10 (Some x)); [apply scipy_contract|lra|lra|lia|exact Hx|exact E].
Qed.
