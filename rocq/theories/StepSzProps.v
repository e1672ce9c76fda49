(** C77: the step size policies of the proximal gradient solvers, stepsize.py (StepSizePolicyCauchy 67-82, StepSizePolicyBB 124-145)
    and their use in PGM.xstep (402-407); the model is PgmModel ([cauchy_update], [bb_update], [policy_step]).  Coq's x / 0 is a real
    number, the code's is inf or nan: the theorems which use a quotient state that its divisor is not zero. *)
Require Import Reals Lra Lia List Bool FunctionalExtensionality.
Require Import Verif.RVec Verif.ProxModel Verif.AdmmSpec Verif.StepsSpec Verif.StepsModel Verif.StepsProofs Verif.PgmModel Verif.PgmSpec Verif.PgmProps.
Local Open Scope R_scope.
Local Notation vec := (nat -> R).

(** The step t along -d from y is an exact line search for f. *)
Definition exact_step (f : vec -> R) (y d : vec) (t : R) : Prop := forall t', f (fun i => y i - t * d i) <= f (fun i => y i - t' * d i).
(** A quadratic in t is minimal at t0 iff it is the vertex. *)
Lemma vertex a b c t0 : 0 < b -> ((forall t, c - t0 * a + t0 * t0 / 2 * b <= c - t * a + t * t / 2 * b) <-> t0 * b = a).
Proof.
  intros Hb. split.
  - intros H. specialize (H (a / b)). set (t := a / b) in *. assert (E : a = t * b) by (unfold t; field; lra).
    assert (Q : (t0 - t) * (t0 - t) * b <= 0) by (rewrite E in H; nra). pose proof (Rle_0_sqr (t0 - t)) as P. unfold Rsqr in P.
    assert (Z : (t0 - t) * (t0 - t) = 0) by nra. apply Rmult_integral in Z. rewrite E. f_equal. lra.
  - intros E t. pose proof (Rle_0_sqr (t - t0)) as P. unfold Rsqr in P. rewrite <- E. nra.
Qed.

Section lsq.
Variables (n m : nat) (L LT : vec -> vec) (s : vec) (f : vec -> R) (grad : vec -> vec).
Hypothesis HL : linear_map L.
Hypothesis HLT : linear_map LT.
Hypothesis Hadj : adjoint_of n m L LT.
Hypothesis Hf : forall x, f x = lsq m L s x.
Hypothesis Hg : forall x i, (i < n)%nat -> grad x i = LT (L x) i - LT s i.
Lemma along y t : f (fun i => y i - t * grad y i) = f y - t * nrm2 n (grad y) + t * t / 2 * nrm2 m (L (grad y)).
Proof.
  rewrite (lsq_taylor n m L LT s f grad HL Hadj Hf Hg y). replace (fun i => y i - t * grad y i - y i) with (fun i => - t * grad y i) by (extensionality i; ring).
  rewrite (lsq_homog m L (- t) (grad y) HL). unfold lsq. rewrite (nrm2_ext m (fun i => L (grad y) i - 0) (L (grad y))) by (intros; ring).
  replace (dot n (grad y) (fun i => - t * grad y i)) with (- t * nrm2 n (grad y)) by (symmetry; apply (dot_scal_r n (- t) (grad y) (grad y))). field.
Qed.
Lemma hess_num y : dot n (grad y) (LT (L (grad y))) = nrm2 m (L (grad y)).
Proof. symmetry. apply Hadj. Qed.
Lemma image_pos y : 0 < nrm2 n (grad y) -> 0 < nrm2 m (L (grad y)).
Proof.
  intros H. destruct (nrm2_nonneg m (L (grad y))) as [P|P]; [exact P|exfalso].
  assert (E : nrm2 n (grad y) = dot m (L (grad y)) (fun i => L y i - s i)).
  { rewrite Hadj. apply sumn_ext. intros i Hi. f_equal. rewrite (Hg y i Hi).
    transitivity (1 * LT (L y) i + -1 * LT s i); [ring|]. rewrite <- (HLT 1 (L y) (-1) s i). f_equal. extensionality j. ring. }
  symmetry in P. pose proof (nrm2_0 m _ P) as Z. rewrite E in H. unfold dot in H. rewrite sumn_0 in H; [lra|]. intros i Hi. rewrite (Z i Hi). ring.
Qed.
End lsq.

Section bpdn.
Variables (Nr Nc Nm : nat) (D : nat -> nat -> R) (S W : vec).
Hypothesis HNm : (0 < Nm)%nat.
Notation n := (Nc * Nm)%nat.
Notation m := (Nr * Nm)%nat.
Notation f := (pb_f Nr Nc Nm D S).
Notation grad := (pb_grad Nr Nc Nm D S).
Notation cauchy := (cauchy_update n (pb_hess Nr Nc Nm D)).
Notation fw := (wb_f Nr Nc Nm D S W).
Notation gradw := (wb_grad Nr Nc Nm D S W).

(** The quotient is defined exactly where the gradient is not zero, that is where y does not already minimise the data term. *)
Theorem C77_cauchy_defined y : nrm2 n (grad y) <> 0 <-> ~ argmin (fun _ => True) f y.
Proof.
  assert (A : forall t, _) by (intros t; exact (along n m (mm Nc Nm D) (mm Nr Nm (tr D)) S f grad (mm_linear Nc Nm D) (mm_adjoint Nr Nc Nm D HNm) (pb_f_lsq Nr Nc Nm D S) (fun x i _ => pb_grad_eq Nr Nc Nm D S x i) y t)).
  split.
  - intros H [_ M]. pose proof (nrm2_nonneg n (grad y)) as P. assert (P' : 0 < nrm2 n (grad y)) by lra.
    pose proof (image_pos n m _ _ S grad (mm_linear Nr Nm (tr D)) (mm_adjoint Nr Nc Nm D HNm) (fun x i _ => pb_grad_eq Nr Nc Nm D S x i) y P') as Q.
    set (t := nrm2 n (grad y) / nrm2 m (mm Nc Nm D (grad y))). specialize (M (fun i => y i - t * grad y i) I). rewrite A in M.
    assert (E : t * nrm2 m (mm Nc Nm D (grad y)) = nrm2 n (grad y)) by (unfold t; field; lra). assert (T : 0 < t) by (apply Rdiv_lt_0_compat; assumption).
    rewrite <- E in M. nra.
  - intros H E. apply H. split; [exact I|]. intros x _.
    rewrite (lsq_taylor n m _ _ S f grad (mm_linear Nc Nm D) (mm_adjoint Nr Nc Nm D HNm) (pb_f_lsq Nr Nc Nm D S) (fun x i _ => pb_grad_eq Nr Nc Nm D S x i) y x).
    pose proof (nrm2_0 n _ E) as Z. unfold dot. rewrite sumn_0 by (intros i Hi; rewrite (Z i Hi); ring). unfold lsq. pose proof (nrm2_nonneg m (fun i => mm Nc Nm D (fun j => x j - y j) i - 0)). lra.
Qed.
(** Cauchy policy for BPDN: the step is positive and an exact line search of the data term. *)
Theorem C77_cauchy_exact y : nrm2 n (grad y) <> 0 -> 0 < cauchy (grad y) /\ exact_step f y (grad y) (1 / cauchy (grad y)).
Proof.
  intros H. pose proof (nrm2_nonneg n (grad y)) as P. assert (P' : 0 < nrm2 n (grad y)) by lra.
  pose proof (image_pos n m _ _ S grad (mm_linear Nr Nm (tr D)) (mm_adjoint Nr Nc Nm D HNm) (fun x i _ => pb_grad_eq Nr Nc Nm D S x i) y P') as Q.
  assert (E : cauchy (grad y) = nrm2 m (mm Nc Nm D (grad y)) / nrm2 n (grad y)).
  { unfold cauchy_update. f_equal. apply (hess_num n m (mm Nc Nm D) (mm Nr Nm (tr D)) grad (mm_adjoint Nr Nc Nm D HNm) y). }
  assert (L0 : 0 < cauchy (grad y)) by (rewrite E; apply Rdiv_lt_0_compat; assumption). split; [exact L0|]. intros t'.
  rewrite !(along n m (mm Nc Nm D) (mm Nr Nm (tr D)) S f grad (mm_linear Nc Nm D) (mm_adjoint Nr Nc Nm D HNm) (pb_f_lsq Nr Nc Nm D S) (fun x i _ => pb_grad_eq Nr Nc Nm D S x i) y).
  revert t'. apply vertex; [exact Q|]. rewrite E. field. lra.
Qed.
(** It lies between the bounds of the curvature: never above the Lipschitz constant of the gradient. *)
Theorem C77_cauchy_range y lo hi : nrm2 n (grad y) <> 0 -> (forall x, lo * nrm2 n x <= nrm2 m (mm Nc Nm D x) <= hi * nrm2 n x) -> lo <= cauchy (grad y) <= hi.
Proof.
  intros H B. pose proof (nrm2_nonneg n (grad y)) as P. assert (P' : 0 < nrm2 n (grad y)) by lra. specialize (B (grad y)).
  assert (E : cauchy (grad y) * nrm2 n (grad y) = nrm2 m (mm Nc Nm D (grad y))).
  { rewrite <- (hess_num n m (mm Nc Nm D) (mm Nr Nm (tr D)) grad (mm_adjoint Nr Nc Nm D HNm) y). change (dot n (grad y) (mm Nr Nm (tr D) (mm Nc Nm D (grad y))) / nrm2 n (grad y) * nrm2 n (grad y) = dot n (grad y) (mm Nr Nm (tr D) (mm Nc Nm D (grad y)))). field. lra. }
  split; apply (Rmult_le_reg_r (nrm2 n (grad y))); try exact P'; lra.
Qed.
(** WeightedBPDN has no Hessian of its own: its step is exact only where the weights do not change the curvature. *)
Theorem C77_weighted_exact y : (forall p, (p < m)%nat -> 0 < W p) -> nrm2 n (gradw y) <> 0 ->
  (exact_step fw y (gradw y) (1 / cauchy (gradw y)) <-> sumn m (fun p => W p * mm Nc Nm D (gradw y) p ^ 2) = sumn m (fun p => mm Nc Nm D (gradw y) p ^ 2)).
Proof.
  intros HW H. pose proof (nrm2_nonneg n (gradw y)) as P. assert (P' : 0 < nrm2 n (gradw y)) by lra.
  assert (HW' : forall p, (p < m)%nat -> 0 <= W p) by (intros p Hp; left; apply HW, Hp).
  pose proof (along n m (wL Nc Nm D W) (wLT Nr Nm D W) (fun p => sqrt (W p) * S p) fw gradw (wL_linear Nc Nm D W) (wL_adjoint Nr Nc Nm D W HNm) (wb_f_lsq Nr Nc Nm D S W) (wb_grad_eq Nr Nc Nm D S W HNm HW') y) as A.
  set (g := gradw y) in *.
  assert (N1 : nrm2 m (wL Nc Nm D W g) = sumn m (fun p => W p * mm Nc Nm D g p ^ 2)).
  { unfold nrm2, dot, wL. apply sumn_ext. intros p Hp. transitivity (sqrt (W p) * sqrt (W p) * mm Nc Nm D g p ^ 2); [ring|]. rewrite sqrt_sqrt by (apply HW', Hp). reflexivity. }
  assert (N2 : dot n g (mm Nr Nm (tr D) (mm Nc Nm D g)) = sumn m (fun p => mm Nc Nm D g p ^ 2)).
  { rewrite <- (mm_adjoint Nr Nc Nm D HNm g). apply sumn_ext. intros p _. ring. }
  assert (Q : 0 < nrm2 m (wL Nc Nm D W g)).
  { apply (image_pos n m (wL Nc Nm D W) (wLT Nr Nm D W) (fun p => sqrt (W p) * S p) gradw); [|apply wL_adjoint, HNm|apply (wb_grad_eq Nr Nc Nm D S W HNm HW')|exact P'].
    intros a x b z p. unfold wLT. rewrite <- (mm_linear Nr Nm (tr D) a _ b _ p). f_equal. extensionality i. ring. }
  assert (Q2 : 0 < sumn m (fun p => mm Nc Nm D g p ^ 2)).
  { destruct (sumn_nonneg m (fun p => mm Nc Nm D g p ^ 2) ltac:(intros; apply pow2_ge_0)) as [Z|Z]; [exact Z|exfalso].
    assert (Z' : nrm2 m (mm Nc Nm D g) = 0) by (rewrite Z; apply sumn_ext; intros; ring). pose proof (nrm2_0 m _ Z') as Z0.
    rewrite N1, sumn_0 in Q; [lra|]. intros p Hp. rewrite (Z0 p Hp). ring. }
  assert (E : cauchy g = sumn m (fun p => mm Nc Nm D g p ^ 2) / nrm2 n g) by (rewrite <- N2; reflexivity).
  unfold exact_step. rewrite <- N1. set (b := nrm2 m (wL Nc Nm D W g)) in *. set (b' := sumn m (fun p => mm Nc Nm D g p ^ 2)) in *. set (a := nrm2 n g) in *.
  assert (V : 1 / cauchy g = a / b') by (rewrite E; field; lra).
  transitivity (1 / cauchy g * b = a).
  - rewrite <- (vertex a b (fw y) (1 / cauchy g) Q). split; intros K t; specialize (K t); rewrite !A in *; exact K.
  - rewrite V. split; intros K.
    + apply (Rmult_eq_reg_l (a / b')); [|assert (0 < a / b') by (apply Rdiv_lt_0_compat; lra); lra]. rewrite K. field. lra.
    + rewrite K. field. lra.
Qed.
(** Barzilai-Borwein policy: without extrapolation (Y = X) the value lies between the bounds of the curvature. *)
Theorem C77_bb_range x x' gr gr' L lo hi : 0 < lo -> (forall x, lo * nrm2 n x <= nrm2 m (mm Nc Nm D x) <= hi * nrm2 n x) ->
  nrm2 n (fun i => x i - x' i) <> 0 -> (forall i, (i < n)%nat -> gr i = grad x i) -> (forall i, (i < n)%nat -> gr' i = grad x' i) ->
  sumn n (fun i => (x i - x' i) * (gr i - gr' i)) <> 0 /\ lo <= bb_update n x x' gr gr' L <= hi.
Proof.
  intros Hlo B Hd E1 E2. set (d := fun i => x i - x' i) in *. pose proof (nrm2_nonneg n d) as P. assert (P' : 0 < nrm2 n d) by lra.
  set (h := mm Nr Nm (tr D) (mm Nc Nm D d)).
  assert (G : forall i, (i < n)%nat -> gr i - gr' i = h i).
  { intros i Hi. rewrite E1, E2 by exact Hi. rewrite !pb_grad_eq. unfold h, d.
    transitivity (mm Nr Nm (tr D) (mm Nc Nm D x) i - mm Nr Nm (tr D) (mm Nc Nm D x') i); [ring|]. rewrite <- mm_sub. f_equal. extensionality j. symmetry. apply mm_sub. }
  assert (N1 : sumn n (fun i => (x i - x' i) * (gr i - gr' i)) = nrm2 m (mm Nc Nm D d)).
  { unfold nrm2 at 1. rewrite (mm_adjoint Nr Nc Nm D HNm d). apply sumn_ext. intros i Hi. rewrite G by exact Hi. reflexivity. }
  assert (N2 : sumn n (fun i => (gr i - gr' i) * (gr i - gr' i)) = nrm2 n h) by (apply sumn_ext; intros i Hi; rewrite !G by exact Hi; reflexivity).
  pose proof (B d) as Bd. assert (Q : 0 < nrm2 m (mm Nc Nm D d)) by nra. split; [rewrite N1; lra|].
  unfold bb_update. rewrite N1, N2. set (q := nrm2 m (mm Nc Nm D d)) in *.
  assert (A1 : q = dot n d h) by (apply (mm_adjoint Nr Nc Nm D HNm)).
  pose proof (cauchy_schwarz_sq n d h) as C1. rewrite <- A1 in C1.
  assert (A2 : nrm2 n h = dot m (mm Nc Nm D h) (mm Nc Nm D d)) by (symmetry; apply (mm_adjoint Nr Nc Nm D HNm)).
  pose proof (cauchy_schwarz_sq m (mm Nc Nm D h) (mm Nc Nm D d)) as C2. rewrite <- A2 in C2. fold q in C2. pose proof (B h) as Bh. pose proof (nrm2_nonneg n h) as Ph.
  set (r := nrm2 n h) in *. assert (lower : lo * q <= r).
  { apply (Rmult_le_reg_r q); [exact Q|]. assert (lo * (q * q) <= lo * (nrm2 n d * r)) by (apply Rmult_le_compat_l; lra). assert (lo * nrm2 n d * r <= q * r) by (apply Rmult_le_compat_r; lra). nra. }
  assert (upper : r <= hi * q).
  { destruct Ph as [Ph|Ph]; [|rewrite <- Ph in *; nra]. apply (Rmult_le_reg_r r); [exact Ph|]. assert (nrm2 m (mm Nc Nm D h) * q <= hi * r * q) by (apply Rmult_le_compat_r; lra). nra. }
  assert (rq : lo <= r / q <= hi).
  { split; apply (Rmult_le_reg_r q); try exact Q; unfold Rdiv; rewrite ?Rmult_assoc, ?Rinv_l; lra. }
  unfold ltb. destruct (Rlt_dec (r / q) 0); [lra|exact rq].
Qed.
End bpdn.
Print Assumptions C77_cauchy_defined. Print Assumptions C77_cauchy_exact. Print Assumptions C77_cauchy_range. Print Assumptions C77_weighted_exact. Print Assumptions C77_bb_range.

(** ** Runs *)
(** A signal of one sample, the dictionary 1, weight w of the sample. *)
Notation one := (fun _ : nat => 1).
Notation wrun w lmbda N := (prun 1 (wb_f 1 1 1 (fun _ _ => 1) one (fun _ => w)) (pb_g 1 1 lmbda one) (wb_grad 1 1 1 (fun _ _ => 1) one (fun _ => w)) (pb_hess 1 1 1 (fun _ _ => 1))
  (pb_prox lmbda one false) false false Nesterov N (pinit (fun _ => 0) (2 * w) Cauchy NoBacktrack)).
Notation wobj w lmbda x := (wb_f 1 1 1 (fun _ _ => 1) one (fun _ => w) x + pb_g 1 1 lmbda one x).
Lemma soft_near a v t : 0 <= t -> a = sgn v * Rmax (Rabs v - t) 0 -> Rabs (a - v) <= t.
Proof.
  intros Ht ->. unfold sgn, ltb, Rmax. destruct (Rlt_dec 0 v), (Rlt_dec v 0); try lra.
  - rewrite (Rabs_pos_eq v) by lra. destruct (Rle_dec (v - t) 0); unfold Rabs; destruct (Rcase_abs _); lra.
  - rewrite (Rabs_left v) by lra. destruct (Rle_dec (- v - t) 0); unfold Rabs; destruct (Rcase_abs _); lra.
  - replace v with 0 by lra. rewrite Rabs_R0. destruct (Rle_dec (0 - t) 0); unfold Rabs; destruct (Rcase_abs _); lra.
Qed.
Section diverge.
Variables (w lmbda : R).
Hypothesis Hw : 3 <= w.
Hypothesis Hl : 0 <= lmbda <= / 16.
Notation iter := (piter 1 (wb_f 1 1 1 (fun _ _ => 1) one (fun _ => w)) (pb_g 1 1 lmbda one) (wb_grad 1 1 1 (fun _ _ => 1) one (fun _ => w)) (pb_hess 1 1 1 (fun _ _ => 1))
  (pb_prox lmbda one false) false false Nesterov).
Lemma grad1 Y : wb_grad 1 1 1 (fun _ _ => 1) one (fun _ => w) Y 0%nat = w * (Y 0%nat - 1).
Proof. unfold wb_grad, mm, tr. cbn. ring. Qed.
Lemma hess1 Y : pb_hess 1 1 1 (fun _ _ => 1) Y 0%nat = Y 0%nat.
Proof. unfold pb_hess, mm, tr. cbn. ring. Qed.
(** One iteration, in terms of the errors with respect to 1. *)
Lemma step s : pbt s = NoBacktrack -> ppol s = Cauchy -> 1 <= pt s -> 0 < pL s -> pY s 0%nat <> 1 ->
  exists s' L, iter s = Some s' /\ L = (if Nat.ltb 1 (pk s) then 1 else pL s) /\ pbt s' = NoBacktrack /\ ppol s' = Cauchy /\ pL s' = L /\ pk s' = S (pk s) /\ pt s' = mom_update Nesterov (pt s) 0%nat /\
    Rabs (pX s' 0%nat - 1 - (1 - w / L) * (pY s 0%nat - 1)) <= lmbda / L /\ pY s' 0%nat - 1 = pX s' 0%nat - 1 + (pt s - 1) / pt s' * (pX s' 0%nat - 1 - (pX s 0%nat - 1)).
Proof.
  intros B P T PL N. set (L := if Nat.ltb 1 (pk s) then 1 else pL s). assert (L0 : 0 < L) by (unfold L; destruct (Nat.ltb 1 (pk s)); lra).
  assert (EL : policy_step 1 (pb_hess 1 1 1 (fun _ _ => 1)) (on_iteration_start (wb_f 1 1 1 (fun _ _ => 1) one (fun _ => w)) (pb_g 1 1 lmbda one) false false s) (wb_grad 1 1 1 (fun _ _ => 1) one (fun _ => w) (pY s)) = (L, Cauchy)).
  { unfold policy_step, on_iteration_start. cbn [ppol pk pL]. rewrite P. f_equal. unfold L. destruct (Nat.ltb 1 (pk s)); [|reflexivity].
    unfold cauchy_update. cbn [sumn]. rewrite hess1, grad1. field. assert (w * (pY s 0%nat - 1) <> 0) by (apply Rmult_integral_contrapositive_currified; lra). tauto || (split; lra). }
  eexists. exists L. split.
  { unfold piter, pbody. cbn [on_iteration_start pbt]. rewrite B. unfold xstep. cbn [on_iteration_start pY] in EL |- *. rewrite EL. cbn [andb]. reflexivity. }
  split; [reflexivity|]. unfold ystep, setk. cbn [pbt ppol pL pk pt pX pY pXprv andb]. unfold on_iteration_start. cbn [pbt ppol pL pk pt pX pY pXprv andb]. repeat split; try reflexivity.
  - exact B.
  - apply Rle_trans with (Rabs (pb_prox lmbda one false L (fun i => pY s i - 1 / L * wb_grad 1 1 1 (fun _ _ => 1) one (fun _ => w) (pY s) i) 0%nat - (pY s 0%nat - 1 / L * wb_grad 1 1 1 (fun _ _ => 1) one (fun _ => w) (pY s) 0%nat))).
    + right. rewrite grad1. f_equal. field. lra.
    + apply soft_near; [apply Rmult_le_pos; [lra|left; apply Rinv_0_lt_compat, L0]|]. unfold pb_prox, clip, prox_l1. cbn [andb]. rewrite Rmult_1_r. reflexivity.
  - ring.
Qed.
Lemma mom_grows t : 1 <= t -> t + / 2 <= mom_update Nesterov t 0%nat /\ 0 <= (t - 1) / mom_update Nesterov t 0%nat < 1.
Proof.
  intros Ht. assert (Q : 2 * t <= sqrt (1 + 4 * t ^ 2)).
  { rewrite <- (sqrt_square (2 * t)) by lra. apply sqrt_le_1; [nra|pose proof (pow2_ge_0 t); lra|]. simpl. lra. }
  assert (G : t + / 2 <= mom_update Nesterov t 0%nat) by (cbn [mom_update]; lra). split; [exact G|]. split.
  - apply Rmult_le_pos; [lra|left; apply Rinv_0_lt_compat; lra].
  - apply (Rmult_lt_reg_r (mom_update Nesterov t 0%nat)); [lra|]. unfold Rdiv. rewrite Rmult_assoc, Rinv_l by lra. lra.
Qed.
(** From the third iteration on the error changes its sign and grows. *)
Definition growing (s : pstate) (c : R) : Prop :=
  pbt s = NoBacktrack /\ ppol s = Cauchy /\ 1 <= pt s /\ 0 < pL s /\ (1 < pk s)%nat /\ 3 / 16 <= c /\
  ((c <= pX s 0%nat - 1 /\ pX s 0%nat - 1 <= pY s 0%nat - 1) \/ (c <= - (pX s 0%nat - 1) /\ - (pX s 0%nat - 1) <= - (pY s 0%nat - 1))).
Lemma grow s c : growing s c -> exists s', iter s = Some s' /\ growing s' (3 / 2 * c).
Proof.
  intros (B & P & T & PL & K & Hc & H). assert (N : pY s 0%nat <> 1) by lra. destruct (step s B P T PL N) as (s' & L & E & EL & B' & P' & L' & K' & T' & X & Y).
  exists s'. split; [exact E|]. assert (K1 : Nat.ltb 1 (pk s) = true) by (apply Nat.ltb_lt, K). rewrite K1 in EL. subst L. replace (1 - w / 1) with (1 - w) in X by field. replace (lmbda / 1) with lmbda in X by field.
  destruct (mom_grows (pt s) T) as [G1 G2]. rewrite <- T' in G1, G2. set (b := (pt s - 1) / pt s') in *. clearbody b.
  set (e := pX s 0%nat - 1) in *. set (y := pY s 0%nat - 1) in *. set (e' := pX s' 0%nat - 1) in *. set (y' := pY s' 0%nat - 1) in *.
  assert (X1 : - lmbda <= e' - (1 - w) * y <= lmbda) by (revert X; unfold Rabs; destruct (Rcase_abs _); lra).
  unfold growing. fold e' y'. repeat split; try assumption; try lra; try lia. destruct H as [[H1 H2]|[H1 H2]].
  - right. assert (M : 2 * y <= (w - 1) * y) by (apply Rmult_le_compat_r; lra). assert (Q1 : 3 / 2 * c <= - e') by lra. split; [exact Q1|]. rewrite Y. assert (0 <= b * (e - e')) by (apply Rmult_le_pos; lra). lra.
  - left. assert (M : 2 * - y <= (w - 1) * - y) by (apply Rmult_le_compat_r; lra). assert (Q1 : 3 / 2 * c <= e') by lra. split; [exact Q1|]. rewrite Y. assert (0 <= b * (e' - e)) by (apply Rmult_le_pos; lra). lra.
Qed.
Lemma start : exists s, wrun w lmbda 3 = Some s /\ growing s (3 / 16).
Proof.
  cbn [prun]. set (s0 := pinit (fun _ => 0) (2 * w) Cauchy NoBacktrack).
  destruct (step s0 eq_refl eq_refl ltac:(unfold s0; cbn; lra) ltac:(unfold s0; cbn; lra) ltac:(unfold s0; cbn; lra)) as (s1 & L1 & E1 & EL1 & B1 & P1 & L1' & K1 & T1 & X1 & Y1). cbn [s0 pinit pk pL pY pX pt] in EL1, K1, T1, X1, Y1. cbn [Nat.ltb Nat.leb] in EL1.
  assert (D0 : lmbda / (2 * w) <= / 96). { apply (Rmult_le_reg_r (2 * w)); [lra|]. unfold Rdiv. rewrite Rmult_assoc, Rinv_l by lra. lra. }
  assert (HF : 1 - w / (2 * w) = / 2) by (field; lra). rewrite EL1, HF in X1. rewrite EL1 in L1'. clear EL1.
  replace ((1 - 1) / pt s1) with 0 in Y1 by (unfold Rdiv; ring).
  set (e1 := pX s1 0%nat - 1) in *. assert (Q1 : - / 2 - / 96 <= e1 <= - / 2 + / 96) by (revert X1; unfold Rabs; destruct (Rcase_abs _); lra).
  destruct (mom_grows 1 (Rle_refl 1)) as [G1 _]. rewrite <- T1 in G1.
  assert (U1 : pt s1 <= 13 / 8). { rewrite T1. cbn [mom_update]. assert (sqrt (1 + 4 * 1 ^ 2) <= 9 / 4); [|lra]. rewrite <- (sqrt_square (9 / 4)) by lra. apply sqrt_le_1; lra. }
  destruct (step s1 B1 P1 ltac:(lra) ltac:(lra) ltac:(lra)) as (s2 & L2 & E2 & EL2 & B2 & P2 & L2' & K2 & T2 & X2 & Y2). rewrite K1 in EL2, K2. cbn [Nat.ltb Nat.leb] in EL2. rewrite L1' in EL2. rewrite EL2, HF in X2. rewrite EL2 in L2'. clear EL2.
  fold e1 in Y2. set (e2 := pX s2 0%nat - 1) in *. assert (Q2 : / 2 * e1 - / 96 <= e2 <= / 2 * e1 + / 96) by (revert X2; rewrite Y1; unfold Rabs; destruct (Rcase_abs _); lra).
  destruct (mom_grows (pt s1) ltac:(lra)) as [G2 R2]. rewrite <- T2 in G2, R2.
  set (b2 := (pt s1 - 1) / pt s2) in *. assert (U2 : b2 <= / 3). { unfold b2. apply (Rmult_le_reg_r (pt s2)); [lra|]. unfold Rdiv. rewrite Rmult_assoc, Rinv_l by lra. lra. }
  clearbody b2. set (y2 := pY s2 0%nat - 1) in *.
  assert (Q3 : y2 <= - / 8). { rewrite Y2. assert (b2 * (e2 - e1) <= / 3 * (e2 - e1)) by (apply Rmult_le_compat_r; lra). lra. }
  destruct (step s2 B2 P2 ltac:(lra) ltac:(lra) ltac:(unfold y2 in Q3; lra)) as (s3 & L3 & E3 & EL3 & B3 & P3 & L3' & K3 & T3 & X3 & Y3). rewrite K2 in EL3, K3. cbn [Nat.ltb Nat.leb] in EL3. subst L3.
  replace (1 - w / 1) with (1 - w) in X3 by field. replace (lmbda / 1) with lmbda in X3 by field.
  destruct (mom_grows (pt s2) ltac:(lra)) as [G3 R3]. rewrite <- T3 in G3, R3. fold y2 in X3. fold e2 in Y3. set (e3 := pX s3 0%nat - 1) in *.
  exists s3. split; [rewrite E1, E2; exact E3|]. unfold growing. fold e3. repeat split; try assumption; try lra; try lia. left.
  assert (Q4 : - lmbda <= e3 - (1 - w) * y2 <= lmbda) by (revert X3; unfold Rabs; destruct (Rcase_abs _); lra).
  assert (Q5 : 2 * - y2 <= (w - 1) * - y2) by (apply Rmult_le_compat_r; lra). assert (Q6 : 3 / 16 <= e3) by lra. split; [exact Q6|].
  rewrite Y3. assert (0 <= (pt s2 - 1) / pt s3 * (e3 - e2)) by (apply Rmult_le_pos; lra). lra.
Qed.
Lemma run_grows N : exists s, wrun w lmbda (N + 3) = Some s /\ growing s (3 / 16 * (3 / 2) ^ N).
Proof.
  induction N as [|N IH]; [rewrite pow_O, Rmult_1_r; exact start|]. destruct IH as (s & E & G). destruct (grow s _ G) as (s' & E' & G').
  exists s'. split; [cbn [Nat.add prun]; rewrite E; exact E'|]. cbn [pow]. replace (3 / 16 * (3 / 2 * (3 / 2) ^ N)) with (3 / 2 * (3 / 16 * (3 / 2) ^ N)) by ring. exact G'.
Qed.
End diverge.
(** WeightedBPDN with the Cauchy policy diverges: a signal of one sample of weight at least three, started with twice the Lipschitz
    constant. *)
Theorem C77_weighted_refuted w lmbda : 3 <= w -> 0 <= lmbda <= / 16 -> forall B, exists N0, forall N, (N0 <= N)%nat -> exists s, wrun w lmbda N = Some s /\ B <= wobj w lmbda (getmin s).
Proof.
  intros Hw Hl B. destruct (Pow_x_infinity (3 / 2) ltac:(rewrite Rabs_pos_eq; lra) (16 / 3 * (Rabs B + 1))) as [N0 H]. exists (N0 + 3)%nat. intros N HN.
  replace N with (N - 3 + 3)%nat by lia. destruct (run_grows w lmbda Hw Hl (N - 3)) as (s & E & G). exists s. split; [exact E|].
  specialize (H (N - 3)%nat ltac:(lia)). rewrite Rabs_pos_eq in H by (apply pow_le; lra). destruct G as (_ & _ & _ & _ & _ & _ & G). unfold getmin.
  assert (F : wb_f 1 1 1 (fun _ _ => 1) one (fun _ => w) (pX s) = w / 2 * ((pX s 0%nat - 1) * (pX s 0%nat - 1))).
  { unfold wb_f, mm. cbn [sumn]. cbn. rewrite <- Rsqr_pow2 || idtac. match goal with |- / 2 * (sqrt ?a * (sqrt ?a * 1)) = _ => replace (sqrt a * (sqrt a * 1)) with (sqrt a * sqrt a) by ring; rewrite sqrt_sqrt end.
    - transitivity (/ 2 * (sqrt w * sqrt w * ((pX s 0%nat - 1) * (pX s 0%nat - 1)))); [ring|]. rewrite sqrt_sqrt by lra. field.
    - match goal with |- 0 <= ?a => replace a with (Rsqr (sqrt w * (pX s 0%nat - 1))) by (unfold Rsqr; ring) end. apply Rle_0_sqr. }
  rewrite F. assert (G0 : 0 <= pb_g 1 1 lmbda one (pX s)) by (apply Rmult_le_pos; [lra|apply sumn_nonneg; intros; apply Rabs_pos]).
  pose proof (Rle_abs B) as AB. pose proof (Rabs_pos B) as PB. set (c := 3 / 16 * (3 / 2) ^ (N - 3)) in *. assert (Hc : Rabs B + 1 <= c) by (unfold c; lra). set (e := pX s 0%nat - 1) in *.
  assert (Q : c * c <= e * e) by (destruct G as [[G _]|[G _]]; nra). nra.
Qed.
Print Assumptions C77_weighted_refuted.
(** With extrapolation the Barzilai-Borwein value is not a curvature of the data term: dictionary 1, whose only curvature is 1. *)
Notation brun N := (prun 1 (pb_f 1 1 1 (fun _ _ => 1) one) (pb_g 1 1 0 one) (pb_grad 1 1 1 (fun _ _ => 1) one) (pb_hess 1 1 1 (fun _ _ => 1))
  (pb_prox 0 one false) false false (Linear 2) N (pinit (fun _ => 0) 2 (Bb (fun _ => 0) (fun _ => 0)) NoBacktrack)).
Lemma bstep s xp gp : pbt s = NoBacktrack -> ppol s = Bb xp gp ->
  exists s' L, piter 1 (pb_f 1 1 1 (fun _ _ => 1) one) (pb_g 1 1 0 one) (pb_grad 1 1 1 (fun _ _ => 1) one) (pb_hess 1 1 1 (fun _ _ => 1)) (pb_prox 0 one false) false false (Linear 2) s = Some s' /\
    L = (if Nat.ltb 1 (pk s) then bb_update 1 (pX s) xp (pb_grad 1 1 1 (fun _ _ => 1) one (pY s)) gp (pL s) else pL s) /\ pL s' = L /\ pbt s' = NoBacktrack /\
    (exists gp', ppol s' = Bb (pX s) gp' /\ gp' 0%nat = pY s 0%nat - 1) /\ pk s' = S (pk s) /\ pt s' = (INR (pk s) + 2) / 2 /\ pX s' 0%nat = pY s 0%nat - 1 / L * (pY s 0%nat - 1) /\
    pY s' 0%nat = pX s' 0%nat + (pt s - 1) / pt s' * (pX s' 0%nat - pX s 0%nat).
Proof.
  intros B P. eexists. eexists. split.
  { unfold piter, pbody. cbn [on_iteration_start pbt]. rewrite B. unfold xstep, policy_step. cbn [on_iteration_start pY ppol pk pL pX]. rewrite P. cbn [andb]. reflexivity. }
  split; [reflexivity|]. unfold ystep, setk, on_iteration_start. cbn [pbt ppol pL pk pt pX pY pXprv andb mom_update]. repeat split; try reflexivity; [exact B| |].
  - eexists. split; [reflexivity|]. unfold pb_grad, mm, tr. cbn. ring.
  - unfold pb_prox, clip, prox_l1. cbn [andb]. replace (pb_grad 1 1 1 (fun _ _ => 1) one (pY s) 0%nat) with (pY s 0%nat - 1) by (unfold pb_grad, mm, tr; cbn; ring).
    match goal with |- sgn ?v * Rmax (Rabs ?v - 0 / ?L * 1) 0 = _ => assert (Z : 0 / L * 1 = 0) by (unfold Rdiv; ring); rewrite Z; generalize v; intros x end.
    unfold sgn, ltb, Rmax. destruct (Rlt_dec 0 x), (Rlt_dec x 0); try lra; unfold Rabs; destruct (Rcase_abs x); destruct (Rle_dec _ _); lra.
Qed.
Lemma bb1 X xp gr gp L : bb_update 1 X xp gr gp L = let l := (gr 0%nat - gp 0%nat) * (gr 0%nat - gp 0%nat) / ((X 0%nat - xp 0%nat) * (gr 0%nat - gp 0%nat)) in if ltb l 0 then L else l.
Proof. unfold bb_update. cbn [sumn]. rewrite !Rplus_0_l. reflexivity. Qed.
Theorem C77_bb_refuted : (forall x, nrm2 1 (mm 1 1 (fun _ _ => 1) x) = nrm2 1 x) /\ exists s, brun 4 = Some s /\ pL s = 5 / 4.
Proof.
  split; [intros x; unfold nrm2, dot, mm; cbn; ring|].
  assert (GR : forall y, pb_grad 1 1 1 (fun _ _ => 1) one y 0%nat = y 0%nat - 1) by (intros y; unfold pb_grad, mm, tr; cbn; ring).
  cbn [prun]. set (s0 := pinit (fun _ => 0) 2 (Bb (fun _ => 0) (fun _ => 0)) NoBacktrack).
  destruct (bstep s0 _ _ eq_refl eq_refl) as (s1 & L1 & E1 & EL1 & M1 & B1 & (g1 & P1 & V1) & K1 & T1 & X1 & Y1). cbn [s0 pinit pk pL pY pX pt Nat.ltb Nat.leb INR] in *. subst L1.
  assert (x1 : pX s1 0%nat = / 2) by lra. assert (y1 : pY s1 0%nat = / 2) by (rewrite Y1, x1; unfold Rdiv; ring).
  destruct (bstep s1 _ _ B1 P1) as (s2 & L2 & E2 & EL2 & M2 & B2 & (g2 & P2 & V2) & K2 & T2 & X2 & Y2). rewrite K1 in *. cbn [Nat.ltb Nat.leb INR] in *. rewrite EL2, M1 in *. clear EL2 L2.
  assert (x2 : pX s2 0%nat = 3 / 4) by lra. assert (t1 : pt s1 = 1) by lra. assert (t2 : pt s2 = 3 / 2) by lra. assert (y2 : pY s2 0%nat = 3 / 4) by (rewrite Y2, t1, x2; unfold Rdiv; ring).
  destruct (bstep s2 _ _ B2 P2) as (s3 & L3 & E3 & EL3 & M3 & B3 & (g3 & P3 & V3) & K3 & T3 & X3 & Y3). rewrite K2 in *. cbn [Nat.ltb Nat.leb INR] in *.
  assert (l3 : L3 = 1). { rewrite EL3, bb1, GR, V2, x2, x1, y2, y1. cbv zeta. replace ((3 / 4 - 1 - (/ 2 - 1)) * (3 / 4 - 1 - (/ 2 - 1)) / ((3 / 4 - / 2) * (3 / 4 - 1 - (/ 2 - 1)))) with 1 by field. unfold ltb. destruct (Rlt_dec 1 0); lra. }
  assert (x3 : pX s3 0%nat = 1) by (rewrite X3, l3, y2; field). assert (t3 : pt s3 = 2) by lra. assert (y3 : pY s3 0%nat = 17 / 16) by (rewrite Y3, t2, t3, x3, x2; field).
  destruct (bstep s3 _ _ B3 P3) as (s4 & L4 & E4 & EL4 & M4 & _). rewrite K3 in *. cbn [Nat.ltb Nat.leb] in *.
  exists s4. split; [rewrite E1, E2, E3; exact E4|]. rewrite M4, EL4, bb1, GR, V3, x3, x2, y3, y2. cbv zeta.
  replace ((17 / 16 - 1 - (3 / 4 - 1)) * (17 / 16 - 1 - (3 / 4 - 1)) / ((1 - 3 / 4) * (17 / 16 - 1 - (3 / 4 - 1)))) with (5 / 4) by field. unfold ltb. destruct (Rlt_dec (5 / 4) 0); lra.
Qed.
Print Assumptions C77_bb_refuted.

(** For a signal orthogonal to the dictionary, e.g. zero, started at zero, the quotients of both policies are 0 / 0 when they are first
    consulted, in the third iteration. *)
Section zero.
Variables (Nr Nc Nm : nat) (D : nat -> nat -> R) (S : vec) (lmbda : R) (wl1 : vec) (nonneg mono fast : bool) (mom : momentum).
Hypothesis HNm : (0 < Nm)%nat.
Hypothesis HS : forall p, (p < Nc * Nm)%nat -> mm Nr Nm (tr D) S p = 0.
Hypothesis Hlam : 0 <= lmbda.
Hypothesis Hwl : forall p, 0 <= wl1 p.
Notation n := (Nc * Nm)%nat.
Lemma grad_zero y i : (forall j, (j < n)%nat -> y j = 0) -> (i < n)%nat -> pb_grad Nr Nc Nm D S y i = 0.
Proof.
  intros Hy Hi. rewrite pb_grad_eq, (HS i Hi). rewrite (Rminus_0_r _). unfold mm at 1. apply sumn_0. intros a Ha. unfold mm. rewrite sumn_0; [ring|].
  intros b Hb. rewrite Hy; [ring|]. pose proof (Nat.mod_upper_bound (a * Nm + i mod Nm) Nm ltac:(lia)). nia.
Qed.
Lemma prox_zero L v i : 0 < L -> v i = 0 -> pb_prox lmbda wl1 nonneg L v i = 0.
Proof.
  intros HL Hv. unfold pb_prox, clip, prox_l1. rewrite Hv. unfold sgn, ltb. destruct (Rlt_dec 0 0); [lra|]. rewrite Rmult_0_l. destruct (andb _ _); reflexivity.
Qed.
Definition at_zero (s : pstate) : Prop := pbt s = NoBacktrack /\ 0 < pL s /\ (forall i, (i < n)%nat -> pX s i = 0 /\ pY s i = 0) /\
  ((0 < pk s)%nat -> forall xp gp, ppol s = Bb xp gp -> forall i, (i < n)%nat -> xp i = 0 /\ gp i = 0).
Lemma zero_step s s' : at_zero s -> (pk s <= 1)%nat ->
  piter n (pb_f Nr Nc Nm D S) (pb_g Nc Nm lmbda wl1) (pb_grad Nr Nc Nm D S) (pb_hess Nr Nc Nm D) (pb_prox lmbda wl1 nonneg) mono fast mom s = Some s' -> at_zero s' /\ pk s' = Datatypes.S (pk s).
Proof.
  intros (B & L0 & Z & _) K H. assert (K' : Nat.ltb 1 (pk s) = false) by (apply Nat.ltb_ge, K).
  assert (G : forall i, (i < n)%nat -> pb_grad Nr Nc Nm D S (pY s) i = 0) by (intros i Hi; apply grad_zero; [intros; apply Z; assumption|exact Hi]).
  unfold piter, pbody in H. cbn [on_iteration_start pbt] in H. rewrite B in H. injection H as <-. unfold ystep, xstep.
  set (s1 := on_iteration_start _ _ _ _ s). destruct (policy_step n (pb_hess Nr Nc Nm D) s1 (pb_grad Nr Nc Nm D S (pY s))) as [L pol] eqn:EP.
  assert (EL : L = pL s /\ forall xp gp, pol = Bb xp gp -> xp = pX s /\ gp = pb_grad Nr Nc Nm D S (pY s)).
  { unfold policy_step in EP. cbn [s1 on_iteration_start ppol pk pL pX pY] in EP. rewrite K' in EP. destruct (ppol s); injection EP as <- <-; split; try reflexivity; intros ? ? E; try discriminate E; injection E as <- <-; split; reflexivity. }
  destruct EL as [-> EP'].  cbv zeta.
  assert (PX : forall i, (i < n)%nat -> pb_prox lmbda wl1 nonneg (pL s) (fun i => pY s1 i - 1 / pL s * pb_grad Nr Nc Nm D S (pY s) i) i = 0).
  { intros i Hi. apply prox_zero; [exact L0|]. cbn [s1 on_iteration_start pY]. rewrite (G i Hi). destruct (Z i Hi) as [_ ->]. ring. }
  split.
  - destruct (mono && Nat.ltb 0 (pk s1))%bool eqn:M; [match goal with |- context [ltb ?a ?b] => destruct (ltb a b) end|]; cbn [setk pX pY pXprv pYprv pZZ pt pL pk ppol pbt pobj pobjprev]; rewrite ?M; (split; [exact B|split; [exact L0|split]]).
    all: try (intros _ xp gp E i Hi; destruct (EP' xp gp E) as [-> ->]; split; [apply Z, Hi|apply G, Hi]).
    all: intros i Hi; unfold setk; cbn [pX pY pXprv pZZ]; change (pXprv s1) with (pX s); pose proof (proj1 (Z i Hi)) as ZX; split; [|match goal with |- context [if ?c then _ else _] => destruct c | _ => idtac end]; cbv beta; rewrite ?(PX i Hi), ?ZX; unfold Rdiv; ring.
  - destruct (mono && Nat.ltb 0 (pk s1))%bool eqn:M; [match goal with |- context [ltb ?a ?b] => destruct (ltb a b) end|]; reflexivity.
Qed.
End zero.
Theorem C77_zero_signal Nr Nc Nm D S lmbda wl1 nonneg mono fast mom L pol s : (0 < Nm)%nat -> (forall p, (p < Nc * Nm)%nat -> mm Nr Nm (tr D) S p = 0) -> (pol = Cauchy \/ exists xp gp, pol = Bb xp gp) ->
  0 <= lmbda -> (forall p, 0 <= wl1 p) -> 0 < L ->
  prun (Nc * Nm) (pb_f Nr Nc Nm D S) (pb_g Nc Nm lmbda wl1) (pb_grad Nr Nc Nm D S) (pb_hess Nr Nc Nm D) (pb_prox lmbda wl1 nonneg) mono fast mom 2 (pinit (fun _ => 0) L pol NoBacktrack) = Some s ->
  pk s = 2%nat /\ nrm2 (Nc * Nm) (pb_grad Nr Nc Nm D S (pY s)) = 0 /\
  forall xp gp, ppol s = Bb xp gp -> sumn (Nc * Nm) (fun i => (pX s i - xp i) * (pb_grad Nr Nc Nm D S (pY s) i - gp i)) = 0 /\ sumn (Nc * Nm) (fun i => (pb_grad Nr Nc Nm D S (pY s) i - gp i) * (pb_grad Nr Nc Nm D S (pY s) i - gp i)) = 0.
Proof.
  intros HNm HS _ Hlam Hwl HL H. cbn [prun] in H. set (s0 := pinit (fun _ => 0) L pol NoBacktrack) in *.
  assert (Z0 : at_zero Nc Nm s0) by (split; [reflexivity|split; [exact HL|split; [intros; split; reflexivity|cbn; lia]]]).
  destruct (piter _ _ _ _ _ _ mono fast mom s0) as [s1|] eqn:E1; [|discriminate].
  destruct (zero_step Nr Nc Nm D S lmbda wl1 nonneg mono fast mom HNm HS s0 s1 Z0 ltac:(cbn; lia) E1) as [Z1 K1].
  destruct (zero_step Nr Nc Nm D S lmbda wl1 nonneg mono fast mom HNm HS s1 s Z1 ltac:(rewrite K1; cbn; lia) H) as [(_ & _ & Z2 & P2) K2].
  assert (K : pk s = 2%nat) by (rewrite K2, K1; reflexivity). split; [exact K|].
  assert (G : forall i, (i < Nc * Nm)%nat -> pb_grad Nr Nc Nm D S (pY s) i = 0) by (intros i Hi; apply (grad_zero Nr Nc Nm D S HNm HS); [intros; apply Z2; assumption|exact Hi]).
  split; [unfold nrm2, dot; apply sumn_0; intros i Hi; rewrite (G i Hi); ring|]. intros xp gp E.
  split; apply sumn_0; intros i Hi; destruct (P2 ltac:(lia) xp gp E i Hi) as [Ex Eg]; rewrite (G i Hi), Eg, ?Ex; ring.
Qed.
Print Assumptions C77_zero_signal.
(** A dictionary and a signal of two samples with gradient (-3, -2) at zero: the hypotheses of the theorems above hold. *)
Example C77_instance : let D := fun i j => if Nat.eqb i j then 1 + INR i else 0 in let S := fun p => if Nat.eqb p 0 then 3 else 1 in
  nrm2 2 (pb_grad 2 2 1 D S (fun _ => 0)) = 13 /\ (forall x, 1 * nrm2 2 x <= nrm2 2 (mm 2 1 D x) <= 4 * nrm2 2 x) /\ cauchy_update 2 (pb_hess 2 2 1 D) (pb_grad 2 2 1 D S (fun _ => 0)) = 25 / 13.
Proof.
  cbv zeta. split; [|split].
  - unfold nrm2, dot, pb_grad, mm, tr. cbn. ring.
  - intros x. unfold nrm2, dot, mm. cbn. pose proof (Rle_0_sqr (x 0%nat)) as A. pose proof (Rle_0_sqr (x 1%nat)) as B. unfold Rsqr in A, B. split; nra.
  - unfold cauchy_update, pb_hess, pb_grad, mm, tr. cbn. field.
Qed.
