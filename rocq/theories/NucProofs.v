(** Proofs about the nuclear norm. *)
Require Import Reals Lra Lia Arith.
Require Import Verif.RVec Verif.NucModel Verif.NucSpec.
Local Open Scope R_scope.

Lemma sumn_delta_l n a (f : nat -> R) : (a < n)%nat -> sumn n (fun i => delta a i * f i) = f a.
Proof.
  intros H. rewrite <- (sumn_delta n a f H). apply sumn_ext. intros i _. unfold delta. rewrite (Nat.eqb_sym a i).
  destruct (Nat.eqb i a); ring.
Qed.
Lemma dot_sumn_l n K (u : nat -> nat -> R) (c : nat -> R) y : dot n (fun i => sumn K (fun k => c k * u k i)) y = sumn K (fun k => c k * dot n (u k) y).
Proof.
  unfold dot. transitivity (sumn n (fun i => sumn K (fun k => c k * (u k i * y i)))).
  - apply sumn_ext. intros i _. rewrite <- sumn_scal_r. apply sumn_ext. intros. ring.
  - rewrite sumn_swap. apply sumn_ext. intros k _. apply sumn_scal.
Qed.
(** Bessel's inequality. *)
Lemma bessel n K (u : nat -> nat -> R) x : (forall a b, (a < K)%nat -> (b < K)%nat -> dot n (u a) (u b) = delta a b) ->
  sumn K (fun k => dot n (u k) x * dot n (u k) x) <= nrm2 n x.
Proof.
  intros H. set (c := fun k => dot n (u k) x). set (p := fun i => sumn K (fun k => c k * u k i)).
  assert (E1 : dot n p x = sumn K (fun k => c k * c k)) by (unfold p; rewrite dot_sumn_l; reflexivity).
  assert (E2 : dot n p p = sumn K (fun k => c k * c k)).
  { unfold p at 1. rewrite dot_sumn_l. apply sumn_ext. intros a Ha. f_equal. rewrite dot_comm. unfold p. rewrite dot_sumn_l.
    rewrite <- (sumn_delta_l K a c Ha). apply sumn_ext. intros b Hb. rewrite (H b a Hb Ha). unfold delta. rewrite (Nat.eqb_sym a b). ring. }
  pose proof (nrm2_nonneg n (vsub x p)) as P. rewrite nrm2_sub in P. rewrite (dot_comm n x p), E1 in P. unfold nrm2 in P at 2. rewrite E2 in P.
  change (sumn K (fun k => dot n (u k) x * dot n (u k) x)) with (sumn K (fun k => c k * c k)). lra.
Qed.

Section fact.
Variables (M N : nat) (U V : mat).
Let K := Nat.min M N.
Hypothesis HU : forall a b, (a < K)%nat -> (b < K)%nat -> sumn M (fun i => U i a * U i b) = delta a b.
Hypothesis HV : forall a b, (a < K)%nat -> (b < K)%nat -> sumn N (fun j => V a j * V b j) = delta a b.
(** U diag(t) V *)
Definition comp (t : nat -> R) : mat := fun i j => sumn (Nat.min M N) (fun k => U i k * (t k * V k j)).

Lemma fdot_comp t W : fdot M N (comp t) W = sumn K (fun k => t k * bilin M N W (fun i => U i k) (V k)).
Proof.
  unfold fdot, comp, bilin. fold K.
  transitivity (sumn M (fun i => sumn K (fun k => sumn N (fun j => t k * (U i k * W i j * V k j))))).
  - apply sumn_ext. intros i _. rewrite sumn_swap. apply sumn_ext. intros j _. rewrite <- sumn_scal_r. apply sumn_ext. intros. ring.
  - rewrite sumn_swap. apply sumn_ext. intros k _. rewrite <- sumn_scal. apply sumn_ext. intros i _. apply sumn_scal.
Qed.
Lemma bilin_comp t x y : bilin M N (comp t) x y = sumn K (fun k => t k * (dot M (fun i => U i k) x * dot N (V k) y)).
Proof.
  unfold bilin, comp. fold K.
  transitivity (sumn M (fun i => sumn K (fun k => t k * (U i k * x i) * dot N (V k) y))).
  - apply sumn_ext. intros i _. transitivity (sumn N (fun j => sumn K (fun k => t k * (U i k * x i) * (V k j * y j)))).
    + apply sumn_ext. intros j _. rewrite <- sumn_scal, <- sumn_scal_r. apply sumn_ext. intros. ring.
    + rewrite sumn_swap. apply sumn_ext. intros k _. apply sumn_scal.
  - rewrite sumn_swap. apply sumn_ext. intros k _. unfold dot at 2. rewrite <- sumn_scal_r, <- sumn_scal. apply sumn_ext. intros. ring.
Qed.
Lemma nrm_u k : (k < K)%nat -> nrm M (fun i => U i k) = 1.
Proof. intros Hk. unfold nrm, nrm2, dot. rewrite HU by exact Hk. unfold delta. rewrite Nat.eqb_refl. apply sqrt_1. Qed.
Lemma nrm_v k : (k < K)%nat -> nrm N (V k) = 1.
Proof. intros Hk. unfold nrm, nrm2, dot. rewrite HV by exact Hk. unfold delta. rewrite Nat.eqb_refl. apply sqrt_1. Qed.

Lemma comp_contraction t : (forall k, (k < K)%nat -> Rabs (t k) <= 1) -> contraction M N (comp t).
Proof.
  intros Ht x y. rewrite bilin_comp.
  set (a := fun k => dot M (fun i => U i k) x). set (b := fun k => dot N (V k) y).
  assert (B1 : nrm K a <= nrm M x). { apply sqrt_le_1; try apply nrm2_nonneg. exact (bessel M K (fun k i => U i k) x HU). }
  assert (B2 : nrm K b <= nrm N y). { apply sqrt_le_1; try apply nrm2_nonneg. exact (bessel N K V y HV). }
  eapply Rle_trans; [apply Rle_abs|]. eapply Rle_trans; [apply sumn_abs|].
  apply Rle_trans with (dot K (fun k => Rabs (a k)) (fun k => Rabs (b k))).
  - unfold dot. apply sumn_le. intros k Hk. change (Rabs (t k * (a k * b k)) <= Rabs (a k) * Rabs (b k)). rewrite !Rabs_mult. pose proof (Ht k Hk).
    assert (0 <= Rabs (a k) * Rabs (b k)) by (apply Rmult_le_pos; apply Rabs_pos). nra.
  - eapply Rle_trans; [apply dot_le|].
    assert (A1 : forall v, nrm K (fun k => Rabs (v k)) = nrm K v).
    { intros v. unfold nrm, nrm2, dot. f_equal. apply sumn_ext. intros. rewrite <- Rabs_mult. apply Rabs_pos_eq. apply Rle_0_sqr. }
    rewrite !A1. apply Rmult_le_compat; try apply nrm_nonneg; assumption.
Qed.
Lemma bilin_own t k : (k < K)%nat -> bilin M N (comp t) (fun i => U i k) (V k) = t k.
Proof.
  intros Hk. rewrite bilin_comp. rewrite <- (sumn_delta_l K k t Hk). apply sumn_ext. intros l Hl. unfold dot. rewrite (HU l k Hl Hk), (HV l k Hl Hk).
  unfold delta. rewrite (Nat.eqb_sym k l). destruct (Nat.eqb l k); ring.
Qed.
Lemma comp_nuclear t : (forall k, (k < K)%nat -> 0 <= t k) -> is_nuclear M N (comp t) (sumn K t).
Proof.
  intros Ht. split.
  - intros W HW. rewrite fdot_comp. apply sumn_le. intros k Hk. pose proof (HW (fun i => U i k) (V k)) as C.
    rewrite (nrm_u k Hk), (nrm_v k Hk) in C. specialize (Ht k Hk). nra.
  - exists (comp (fun _ => 1)). split.
    + apply comp_contraction. intros. rewrite Rabs_R1. lra.
    + rewrite fdot_comp. apply sumn_ext. intros k Hk. rewrite (bilin_own (fun _ => 1) k Hk). ring.
Qed.
End fact.

Lemma fdot_ext M N X X' W W' : (forall i j, (i < M)%nat -> (j < N)%nat -> X i j = X' i j) ->
  (forall i j, (i < M)%nat -> (j < N)%nat -> W i j = W' i j) -> fdot M N X W = fdot M N X' W'.
Proof. intros H1 H2. unfold fdot. apply sumn_ext. intros i Hi. apply sumn_ext. intros j Hj. rewrite H1, H2 by assumption. reflexivity. Qed.
Lemma fdot_comm M N X W : fdot M N X W = fdot M N W X.
Proof. unfold fdot. apply sumn_ext. intros i Hi. apply sumn_ext. intros j Hj. ring. Qed.
Lemma fdot_lin M N a X b Y W : fdot M N (fun i j => a * X i j + b * Y i j) W = a * fdot M N X W + b * fdot M N Y W.
Proof.
  unfold fdot. rewrite <- !sumn_scal, <- sumn_plus. apply sumn_ext. intros i _. rewrite <- !sumn_scal, <- sumn_plus. apply sumn_ext. intros. ring.
Qed.
Lemma is_nuclear_ext M N X Y v : (forall i j, (i < M)%nat -> (j < N)%nat -> X i j = Y i j) -> is_nuclear M N X v -> is_nuclear M N Y v.
Proof.
  intros E [H1 (W & HW & H2)]. split.
  - intros W' HW'. rewrite <- (fdot_ext M N X Y W' W'); auto.
  - exists W. split; [exact HW|]. rewrite <- (fdot_ext M N X Y W W); auto.
Qed.
Lemma is_nuclear_fun M N X v w : is_nuclear M N X v -> is_nuclear M N X w -> v = w.
Proof. intros [H1 (W1 & C1 & E1)] [H2 (W2 & C2 & E2)]. pose proof (H1 _ C2). pose proof (H2 _ C1). lra. Qed.
Lemma fnrm2_nonneg M N X : 0 <= fnrm2 M N X.
Proof. unfold fnrm2, fdot. apply sumn_nonneg. intros. apply sumn_nonneg. intros. apply Rle_0_sqr. Qed.
Lemma fnrm2_0 M N X : fnrm2 M N X = 0 -> forall i j, (i < M)%nat -> (j < N)%nat -> X i j = 0.
Proof.
  intros H i j Hi Hj. assert (P : forall i, (i < M)%nat -> 0 <= sumn N (fun j => X i j * X i j)) by (intros; apply sumn_nonneg; intros; apply Rle_0_sqr).
  pose proof (sumn_nonneg_0 M _ P H i Hi) as E. cbv beta in E.
  assert (P' : forall j, (j < N)%nat -> 0 <= X i j * X i j) by (intros; apply Rle_0_sqr).
  pose proof (sumn_nonneg_0 N _ P' E j Hj) as E'. cbv beta in E'. nra.
Qed.
Lemma mdot_diag M N K U V s i j : K = Nat.min M N -> mdot K U (mdot K (mdiag s) V) i j = comp M N U V s i j.
Proof.
  intros ->. unfold mdot, comp. apply sumn_ext. intros k Hk. f_equal. rewrite <- (sumn_delta _ k (fun l => s k * V l j) Hk).
  apply sumn_ext. intros l _. unfold mdiag. rewrite (Nat.eqb_sym k l). destruct (Nat.eqb l k); ring.
Qed.

Section svd.
Variable svd : mat -> mat * (nat -> R) * mat.
Variables M N : nat.
Lemma norm_nuclear_spec X : is_svd M N X (svd X) -> is_nuclear M N X (norm_nuclear svd M N X).
Proof.
  unfold norm_nuclear, is_svd. destruct (svd X) as [[U s] V]. intros (HU & HV & Hs & HX).
  apply is_nuclear_ext with (comp M N U V s); [intros i j Hi Hj; symmetry; apply HX; assumption|]. apply comp_nuclear; assumption.
Qed.
(** The result of prox_nuclear, with its singular values and a subgradient. *)
Lemma prox_nuclear_sub V alpha : 0 <= alpha -> is_svd M N V (svd V) ->
  let P := fst (prox_nuclear svd M N V alpha) in let ss := snd (prox_nuclear svd M N V alpha) in
  is_nuclear M N P (sumn (Nat.min M N) ss) /\
  forall X v, is_nuclear M N X v -> alpha * sumn (Nat.min M N) ss + fdot M N (fun i j => V i j - P i j) (fun i j => X i j - P i j) <= alpha * v.
Proof.
  intros Ha. unfold prox_nuclear, is_svd. destruct (svd V) as [[U s] W]. intros (HU & HV & Hs & HX). cbn [fst snd].
  set (K := Nat.min M N) in *. set (ss := fun k => Rmax 0 (s k - alpha)).
  assert (EP : forall i j, mdot K U (mdot K (mdiag ss) W) i j = comp M N U W ss i j) by (intros; apply mdot_diag; reflexivity).
  assert (Pss : forall k, (k < K)%nat -> 0 <= ss k) by (intros; apply Rmax_l).
  assert (Nuc : is_nuclear M N (comp M N U W ss) (sumn K ss)) by (apply comp_nuclear; assumption).
  split; [apply is_nuclear_ext with (comp M N U W ss); [intros; symmetry; apply EP|exact Nuc]|].
  intros X v Hv. set (t := fun k => s k - ss k).
  assert (Ht : forall k, (k < K)%nat -> 0 <= t k <= alpha /\ t k * ss k = alpha * ss k).
  { intros k Hk. unfold t, ss, Rmax. specialize (Hs k Hk). destruct (Rle_dec 0 (s k - alpha)); nra. }
  assert (EQ : forall i j, (i < M)%nat -> (j < N)%nat -> V i j - mdot K U (mdot K (mdiag ss) W) i j = comp M N U W t i j).
  { intros i j Hi Hj. rewrite EP, (HX i j Hi Hj). unfold comp, t. fold K. rewrite <- sumn_minus. apply sumn_ext. intros. ring. }
  rewrite (fdot_ext M N _ (comp M N U W t) (fun i j => X i j - mdot K U (mdot K (mdiag ss) W) i j) (fun i j => 1 * X i j + (-1) * comp M N U W ss i j)).
  2: exact EQ. 2:{ intros. rewrite EP. ring. }
  rewrite fdot_comm, fdot_lin, (fdot_comm M N X).
  assert (E1 : fdot M N (comp M N U W ss) (comp M N U W t) = alpha * sumn K ss).
  { rewrite fdot_comp. rewrite <- sumn_scal. apply sumn_ext. intros k Hk. rewrite bilin_own by assumption. destruct (Ht k Hk) as [_ E]. lra. }
  rewrite E1.
  assert (E2 : fdot M N (comp M N U W t) X <= alpha * v).
  { destruct (Req_dec alpha 0) as [Z|Z].
    - rewrite fdot_comp. rewrite sumn_0; [rewrite Z; lra|]. intros k Hk. destruct (Ht k Hk) as [B _]. assert (t k = 0) as -> by lra. ring.
    - assert (Hp : 0 < alpha) by lra. destruct Hv as [Hv _].
      specialize (Hv (comp M N U W (fun k => t k / alpha))).
      assert (C : contraction M N (comp M N U W (fun k => t k / alpha))).
      { apply comp_contraction; try assumption. intros k Hk. destruct (Ht k Hk) as [B _]. rewrite Rabs_pos_eq.
        - apply (Rmult_le_reg_r alpha); [exact Hp|]. unfold Rdiv. rewrite Rmult_assoc, Rinv_l by lra. lra.
        - apply Rmult_le_pos; [lra|]. apply Rlt_le, Rinv_0_lt_compat. exact Hp. }
      specialize (Hv C). rewrite fdot_comm in Hv.
      assert (E : fdot M N (comp M N U W t) X = alpha * fdot M N (comp M N U W (fun k => t k / alpha)) X).
      { rewrite !fdot_comp. rewrite <- sumn_scal. apply sumn_ext. intros k _. field. exact Z. }
      rewrite E. apply Rmult_le_compat_l; lra. }
  lra.
Qed.
Lemma fsub_expand X V P : fnrm2 M N (fun i j => X i j - V i j) =
  fnrm2 M N (fun i j => P i j - V i j) + fnrm2 M N (fun i j => X i j - P i j) - 2 * fdot M N (fun i j => V i j - P i j) (fun i j => X i j - P i j).
Proof.
  unfold fnrm2, fdot. rewrite <- sumn_scal, <- sumn_plus, <- sumn_minus. apply sumn_ext. intros i _.
  rewrite <- sumn_scal, <- sumn_plus, <- sumn_minus. apply sumn_ext. intros j _. ring.
Qed.
End svd.
