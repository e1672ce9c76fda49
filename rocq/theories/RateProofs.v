(** How fast the residuals of the ADMM iteration fall. *)
Require Import Reals Lra Lia.
Require Import Verif.RVec Verif.AdmmModel Verif.AdmmSpec Verif.AdmmProofs Verif.AdmmConv.
Local Open Scope R_scope.

Lemma mono_alg m rlx (M M' a b e : nat -> R) : 0 < rlx <= 2 ->
  (forall i, (i < m)%nat -> M' i = M i + (a i + b i)) -> (forall i, (i < m)%nat -> e i = rlx * M i + b i) ->
  dot m (fun i => (a i + b i) + e i) a <= 0 -> dot m e b <= 0 -> nrm2 m M' <= nrm2 m M.
Proof.
  intros Hr E1 E2 H1 H2.
  rewrite (nrm2_ext m M' (vadd M (vadd a b)) E1). rewrite nrm2_add.
  assert (F1 : dot m (fun i => (a i + b i) + e i) a = dot m a a + dot m b a + dot m e a).
  { change (fun i => a i + b i + e i) with (vadd (vadd a b) e). rewrite !dot_add_l. reflexivity. }
  assert (F2 : dot m e a = rlx * dot m M a + dot m b a).
  { rewrite (dot_ext m e a (vadd (vscal rlx M) b) a E2 (fun _ _ => eq_refl)), dot_add_l, dot_scal_l. reflexivity. }
  assert (F3 : dot m e b = rlx * dot m M b + dot m b b).
  { rewrite (dot_ext m e b (vadd (vscal rlx M) b) b E2 (fun _ _ => eq_refl)), dot_add_l, dot_scal_l. reflexivity. }
  assert (F4 : dot m M (vadd a b) = dot m M a + dot m M b) by apply dot_add_r.
  assert (F5 : nrm2 m (vadd a b) = dot m a a + 2 * dot m a b + dot m b b) by (rewrite nrm2_add; reflexivity).
  rewrite (dot_comm m b a) in *. pose proof (nrm2_nonneg m (vadd a b)) as P.
  assert (Q : rlx * dot m M (vadd a b) + nrm2 m (vadd a b) <= 0) by (rewrite F4, F5; lra).
  assert (Q2 : rlx * (2 * dot m M (vadd a b) + nrm2 m (vadd a b)) <= 0) by nra.
  assert (2 * dot m M (vadd a b) + nrm2 m (vadd a b) <= 0) by nra. lra.
Qed.
Lemma he_yuan_alg m (e e' b b' p : nat -> R) : (forall i, (i < m)%nat -> p i = e' i - b' i) ->
  dot m (fun i => p i + b i) (fun i => p i - e i) <= 0 -> dot m e' b' <= 0 ->
  nrm2 m e' + nrm2 m b' <= nrm2 m p /\ nrm2 m p <= nrm2 m e + nrm2 m b.
Proof.
  intros E1 H1 H2. split.
  - rewrite (nrm2_ext m p (vsub e' b') E1), nrm2_sub. lra.
  - pose proof (nrm2_nonneg m (vadd (vsub p e) b)) as P. rewrite nrm2_add, nrm2_sub in P.
    assert (F1 : dot m (vsub p e) b = dot m p b - dot m e b) by apply dot_sub_l.
    assert (F2 : dot m (fun i => p i + b i) (fun i => p i - e i) = dot m p p - dot m p e + (dot m b p - dot m b e)).
    { change (dot m (vadd p b) (vsub p e) = dot m p p - dot m p e + (dot m b p - dot m b e)). rewrite dot_add_l, !dot_sub_r. reflexivity. }
    rewrite (dot_comm m b p), (dot_comm m b e) in F2. unfold nrm2 in *. lra.
Qed.

Section rate.
Variables (m : nat) (A B : (nat -> R) -> nat -> R) (c : nat -> R) (rlx rho : R).
Variables (D E : (nat -> R) -> Prop) (f g : (nat -> R) -> R).
Variables (xstep ystep : (nat -> R) -> (nat -> R) -> nat -> R).
Hypothesis HA : affine m A.
Hypothesis HB : affine m B.
Hypothesis Hf : convex_on D f.
Hypothesis Hg : convex_on E g.
Hypothesis Hrho : 0 < rho.
Hypothesis HX : forall y u, argmin D (fun x => auglag m A B c rho f g x y u) (xstep y u).
Hypothesis HY : forall ax u, argmin E (fun y => auglag m (fun _ => ax) B c rho (fun _ => 0) g ax y u) (ystep ax u).
Variable st : state.
Notation sk := (it A B c rlx xstep ystep st).
Notation midk := (mid A B c rlx xstep ystep st).
Notation prik := (pri A B c rlx xstep ystep st).
Notation dyk := (dy A B c rlx xstep ystep st).
Definition du (k : nat) : nat -> R := fun i => sU (sk (S k)) i - sU (sk k) i.

Lemma du_eq k i : du k i = rlx * midk k i + dyk k i.
Proof. unfold du. rewrite it_u, it_ax. unfold mid, dy, gap. ring. Qed.
Lemma x_two k : dot m (fun i => ((A (sX (sk (S (S k)))) i - A (sX (sk (S k))) i) + dyk k i) + du k i)
  (fun i => A (sX (sk (S (S k)))) i - A (sX (sk (S k))) i) <= 0.
Proof.
  pose proof (it_x m A B c rlx rho D f g xstep ystep HX st k) as X1. pose proof (it_x m A B c rlx rho D f g xstep ystep HX st (S k)) as X2.
  set (x1 := sX (sk (S k))) in *. set (x2 := sX (sk (S (S k)))) in *.
  pose proof (x_vi m A B c rho D f HA Hf Hrho _ _ _ X1 x2 (proj1 X2)) as V1.
  pose proof (x_vi m A B c rho D f HA Hf Hrho _ _ _ X2 x1 (proj1 X1)) as V2.
  set (p1 := fun i => gap A B c x1 (sY (sk k)) i + sU (sk k) i) in *.
  set (p2 := fun i => gap A B c x2 (sY (sk (S k))) i + sU (sk (S k)) i) in *.
  set (a := fun i => A x2 i - A x1 i) in *.
  assert (E0 : dot m p2 (fun i => A x1 i - A x2 i) = - dot m p2 a).
  { unfold dot. rewrite <- sumn_opp. apply sumn_ext. intros. unfold a. ring. }
  assert (E1 : dot m (fun i => (a i + dyk k i) + du k i) a = dot m p2 a - dot m p1 a).
  { rewrite <- dot_sub_l. apply dot_ext; [|reflexivity]. intros i _. unfold vsub, p1, p2, a, du, dy, gap. ring. }
  unfold a in E1 at 1. rewrite E1. rewrite E0 in V2. change (dot m p1 (fun i => A x2 i - A x1 i)) with (dot m p1 a) in V1.
  assert (rho * (dot m p2 a - dot m p1 a) <= 0) by lra. nra.
Qed.
(** The y variable and the multiplier satisfy the optimality condition of the y step. *)
Definition matched (s : state) : Prop := E (sY s) /\ forall v, E v -> 0 <= g v - g (sY s) + rho * dot m (sU s) (fun i => B v i - B (sY s) i).
Lemma matched_S k : matched (sk (S k)).
Proof. apply (it_vi m A B c rlx rho E g xstep ystep HB Hg Hrho HY st k). Qed.
Lemma y_two k : matched (sk k) -> dot m (du k) (dyk k) <= 0.
Proof.
  intros [E1 V1]. destruct (matched_S k) as [E2 V2].
  specialize (V1 _ E2). specialize (V2 _ E1).
  set (u1 := sU (sk k)) in *. set (u2 := sU (sk (S k))) in *.
  assert (F0 : dot m u2 (fun i => B (sY (sk k)) i - B (sY (sk (S k))) i) = - dot m u2 (dyk k)).
  { unfold dot. rewrite <- sumn_opp. apply sumn_ext. intros. unfold dy. ring. }
  rewrite F0 in V2. assert (F1 : dot m (du k) (dyk k) = dot m u2 (dyk k) - dot m u1 (dyk k)) by apply dot_sub_l.
  rewrite F1. change (dot m u1 (fun i => B (sY (sk (S k))) i - B (sY (sk k)) i)) with (dot m u1 (dyk k)) in V1. nra.
Qed.

Lemma mid_mono k : 0 < rlx <= 2 -> matched (sk k) -> nrm2 m (midk (S k)) <= nrm2 m (midk k).
Proof.
  intros Hr Hm. apply (mono_alg m rlx _ _ (fun i => A (sX (sk (S (S k)))) i - A (sX (sk (S k))) i) (dyk k) (du k) Hr).
  - intros i _. unfold mid, dy, gap. ring.
  - intros i _. apply du_eq.
  - apply x_two.
  - apply y_two. exact Hm.
Qed.
Lemma pri_eq k i : prik (S k) i = midk k i + dyk k i.
Proof. unfold pri, mid, dy, gap. ring. Qed.
Lemma he_yuan k : rlx = 1 ->
  nrm2 m (prik (S (S k))) + nrm2 m (dyk (S k)) <= nrm2 m (midk (S k)) /\
  nrm2 m (midk (S k)) <= nrm2 m (prik (S k)) + nrm2 m (dyk k).
Proof.
  intros Hr.
  assert (EU : forall j i, prik (S j) i = du j i) by (intros j i; rewrite du_eq, pri_eq, Hr; ring).
  apply (he_yuan_alg m (prik (S k)) (prik (S (S k))) (dyk k) (dyk (S k)) (midk (S k))).
  - intros i _. rewrite pri_eq. ring.
  - rewrite (dot_ext m _ _ (fun i => ((A (sX (sk (S (S k)))) i - A (sX (sk (S k))) i) + dyk k i) + du k i) (fun i => A (sX (sk (S (S k)))) i - A (sX (sk (S k))) i)).
    + apply x_two.
    + intros i _. rewrite <- EU. unfold mid, pri, dy, gap. ring.
    + intros i _. unfold mid, pri, gap. ring.
  - rewrite (dot_ext m _ _ (du (S k)) (dyk (S k)) (fun i _ => EU (S k) i) (fun _ _ => eq_refl)). apply y_two, matched_S.
Qed.

Section sad.
Variables xs ys us : nat -> R.
Hypothesis Hs : saddle m A B c rho D E f g xs ys us.
Notation dzk := (dz m A B c rlx xstep ystep st ys us).
Lemma dz_stepm k : 0 <= rlx -> matched (sk k) -> dzk (S k) + rlx * (2 - rlx) * nrm2 m (midk k) <= dzk k.
Proof.
  intros Hr [Ey Vy].
  apply (fejer_relaxed m A B c rlx rho D E f g HA Hf Hrho _ _ _ _ _ (AXk A B c rlx xstep ystep st k) (it_x m A B c rlx rho D f g xstep ystep HX st k) (fun i _ => it_ax A B c rlx xstep ystep st k i) (fun i _ => it_u A B c rlx xstep ystep st k i) xs ys us Hr Hs Ey Vy).
Qed.
(** The squares from step [j] on together are at most the distance there, and the last one is the smallest. *)
Lemma mid_sum j K : 0 < rlx <= 2 -> matched (sk j) -> dzk (j + K) + INR K * (rlx * (2 - rlx) * nrm2 m (midk (j + pred K))) <= dzk j.
Proof.
  intros Hr Hm. induction K as [|K IH].
  - simpl. rewrite Nat.add_0_r. lra.
  - assert (M : matched (sk (j + K))) by (destruct K; [rewrite Nat.add_0_r; exact Hm|rewrite Nat.add_succ_r; apply matched_S]).
    pose proof (dz_stepm (j + K) ltac:(lra) M) as P. replace (j + S K)%nat with (S (j + K)) by lia. cbn [pred]. rewrite S_INR.
    assert (W : 0 <= rlx * (2 - rlx)) by nra.
    assert (Q : INR K * (rlx * (2 - rlx) * nrm2 m (midk (j + K))) <= INR K * (rlx * (2 - rlx) * nrm2 m (midk (j + pred K)))).
    { destruct K as [|K]; [simpl; lra|]. apply Rmult_le_compat_l; [apply pos_INR|]. apply Rmult_le_compat_l; [exact W|].
      cbn [pred]. replace (j + S K)%nat with (S (j + K)) by lia. apply mid_mono; [exact Hr|].
      destruct K; [rewrite Nat.add_0_r; exact Hm|rewrite Nat.add_succ_r; apply matched_S]. }
    lra.
Qed.
Lemma dyu_sum K : rlx = 1 -> dyu m A B c rlx xstep ystep st ys us (S K) + INR K * nrm2 m (midk K) <= dyu m A B c rlx xstep ystep st ys us 1.
Proof.
  intros Hr. induction K as [|K IH].
  - simpl. lra.
  - pose proof (dyu_step m A B c rlx rho D E f g xstep ystep HA HB Hf Hg Hrho HX HY st xs ys us Hs (S K) Hr) as P.
    rewrite (nrm2_ext m _ (midk (S K))) in P by (intros; rewrite pri_eq; ring). rewrite S_INR.
    assert (Q : INR K * nrm2 m (midk (S K)) <= INR K * nrm2 m (midk K)).
    { destruct K as [|K]; [simpl; lra|]. apply Rmult_le_compat_l; [apply pos_INR|]. apply mid_mono; [lra|apply matched_S]. }
    lra.
Qed.
Lemma dy_le k : matched (sk k) -> nrm2 m (dyk k) <= rlx * rlx * nrm2 m (midk k).
Proof.
  intros [Ey Vy]. pose proof (step_bound m A B c rlx rho E g HB Hg Hrho _ _ _ _ _ (AXk A B c rlx xstep ystep st k) (fun i _ => it_ax A B c rlx xstep ystep st k i)
    (it_y m A B c rlx rho E g xstep ystep HY st k) (fun i _ => it_u A B c rlx xstep ystep st k i) Ey Vy) as P.
  unfold dy, mid. pose proof (nrm2_nonneg m (fun i => sU (sk (S k)) i - sU (sk k) i)). lra.
Qed.
End sad.

(** The residuals, for K iterations after the step [j]. *)
Lemma nrm_le_sqrt v q : nrm2 m v <= q -> nrm m v <= sqrt q.
Proof. intros H. unfold nrm. apply sqrt_le_1_alt. exact H. Qed.
Lemma rate_at xs ys us j K : saddle m A B c rho D E f g xs ys us -> 0 < rlx < 2 -> matched (sk j) -> (1 <= K)%nat ->
  let q := sqrt (dz m A B c rlx xstep ystep st ys us j / (rlx * (2 - rlx) * INR K)) in
  nrm m (prik (j + K)) <= (1 + rlx) * q /\ nrm m (dyk (j + pred K)) <= rlx * q.
Proof.
  intros Hs Hr Hm HK q. destruct K as [|K]; [lia|]. cbn [pred]. clear HK.
  assert (M : matched (sk (j + K))) by (destruct K; [rewrite Nat.add_0_r; exact Hm|rewrite Nat.add_succ_r; apply matched_S]).
  pose proof (mid_sum xs ys us Hs j (S K) ltac:(lra) Hm) as P. cbn [pred] in P.
  pose proof (nrm2_nonneg m (fun i => (sU (sk (j + S K)) i - (B (sY (sk (j + S K))) i - c i)) - (us i - (B ys i - c i)))) as P0.
  fold (dz m A B c rlx xstep ystep st ys us (j + S K)) in P0.
  assert (W : 0 < rlx * (2 - rlx)) by nra. assert (I0 : 0 < INR (S K)) by (apply lt_0_INR; lia).
  assert (Q1 : nrm m (midk (j + K)) <= q).
  { apply nrm_le_sqrt. set (w := rlx * (2 - rlx) * INR (S K)). assert (W1 : 0 < w) by (unfold w; nra). apply (Rmult_le_reg_r w); [exact W1|].
    set (d := dz m A B c rlx xstep ystep st ys us j) in *. replace (d / w * w) with d by (field; lra). unfold w. lra. }
  assert (Q2 : nrm m (dyk (j + K)) <= rlx * nrm m (midk (j + K))).
  { pose proof (dy_le (j + K) M) as L. replace (rlx * nrm m (midk (j + K))) with (sqrt (rlx * rlx * nrm2 m (midk (j + K)))) by (rewrite sqrt_mult_alt by nra; rewrite sqrt_square by lra; reflexivity).
    unfold nrm. apply sqrt_le_1_alt. exact L. }
  split; [|nra].
  replace (j + S K)%nat with (S (j + K)) by lia. rewrite (nrm_ext m _ (vadd (midk (j + K)) (dyk (j + K)))) by (intros; apply pri_eq).
  eapply Rle_trans; [apply nrm_triang|]. nra.
Qed.
End rate.
