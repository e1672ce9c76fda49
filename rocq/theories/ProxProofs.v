Require Import Reals Lra Lia Bool Arith Psatz.
Require Import Verif.RVec Verif.ProxModel Verif.ProxSpec.
Local Open Scope R_scope.

Lemma ltb_true x y : ltb x y = true <-> x < y.
Proof. unfold ltb. destruct (Rlt_dec x y); split; intros; try assumption; try reflexivity; try discriminate; contradiction. Qed.
Lemma ltb_false x y : ltb x y = false <-> y <= x.
Proof. unfold ltb. destruct (Rlt_dec x y); split; intros; try lra; try reflexivity; try discriminate. Qed.
Lemma leb_true x y : leb x y = true <-> x <= y.
Proof. unfold leb. destruct (Rle_dec x y); split; intros; try assumption; try reflexivity; try discriminate; contradiction. Qed.
Lemma leb_false x y : leb x y = false <-> y < x.
Proof. unfold leb. destruct (Rle_dec x y); split; intros; try lra; try reflexivity; try discriminate. Qed.
Lemma eqb_true x y : eqb x y = true <-> x = y.
Proof. unfold eqb. destruct (Req_EM_T x y); split; intros; try assumption; try reflexivity; try discriminate; contradiction. Qed.
Lemma eqb_false x y : eqb x y = false <-> x <> y.
Proof. unfold eqb. destruct (Req_EM_T x y); split; intros; try assumption; try reflexivity; try discriminate; contradiction. Qed.

Lemma sgn_pos x : 0 < x -> sgn x = 1.
Proof. intros H. unfold sgn. apply ltb_true in H. rewrite H. reflexivity. Qed.
Lemma sgn_neg x : x < 0 -> sgn x = -1.
Proof.
  intros H. unfold sgn. assert (E : ltb 0 x = false) by (apply ltb_false; lra). rewrite E.
  apply ltb_true in H. rewrite H. reflexivity.
Qed.
Lemma sgn_0 : sgn 0 = 0.
Proof. unfold sgn. assert (E : ltb 0 0 = false) by (apply ltb_false; lra). rewrite E. reflexivity. Qed.
Lemma sgn_abs x : sgn x * Rabs x = x.
Proof.
  destruct (Rtotal_order x 0) as [H|[->|H]].
  - rewrite sgn_neg, Rabs_left by exact H. ring.
  - rewrite sgn_0. ring.
  - rewrite sgn_pos, Rabs_right by lra. ring.
Qed.
Lemma abs_sgn x : Rabs x = sgn x * x.
Proof.
  destruct (Rtotal_order x 0) as [H|[->|H]].
  - rewrite sgn_neg, Rabs_left by exact H. ring.
  - rewrite sgn_0, Rabs_R0. ring.
  - rewrite sgn_pos, Rabs_right by lra. ring.
Qed.

Lemma norm_2l2_nrm2 n x : norm_2l2 n x = nrm2 n x.
Proof. apply sumn_ext. intros. ring. Qed.
Lemma norm_l2_nrm n x : norm_l2 n x = nrm n x.
Proof. unfold norm_l2, nrm. rewrite norm_2l2_nrm2. reflexivity. Qed.

(** ** From subgradients to proximal operators *)
Lemma sq_expand n x v p : / 2 * nrm2 n (vsub x v) =
  / 2 * nrm2 n (vsub p v) + / 2 * nrm2 n (vsub x p) - dot n (vsub v p) (vsub x p).
Proof.
  rewrite !nrm2_sub. rewrite dot_sub_l, !dot_sub_r.
  rewrite (dot_comm n p v), (dot_comm n x p), (dot_comm n x v). fold (nrm2 n p). lra.
Qed.

Lemma prox_subgrad n g v p :
  (forall x, g p + dot n (vsub v p) (vsub x p) <= g x) ->
  forall x, prox_obj n g v p + / 2 * nrm2 n (vsub x p) <= prox_obj n g v x.
Proof. intros H x. unfold prox_obj. rewrite (sq_expand n x v p). specialize (H x). lra. Qed.

Lemma sub_eq0 n x p : nrm2 n (vsub x p) <= 0 -> forall i, (i < n)%nat -> x i = p i.
Proof.
  intros H i Hi. assert (E : nrm2 n (vsub x p) = 0) by (pose proof (nrm2_nonneg n (vsub x p)); lra).
  pose proof (nrm2_0 n _ E i Hi) as E'. unfold vsub in E'. lra.
Qed.

Lemma strong_unique n f p : (forall x, f p + / 2 * nrm2 n (vsub x p) <= f x) -> unique_minimiser n f p.
Proof.
  intros H. split.
  - intros x. pose proof (H x). pose proof (nrm2_nonneg n (vsub x p)). lra.
  - intros q Hq i Hi. apply (sub_eq0 n q p); [|exact Hi]. pose proof (H q). pose proof (Hq p). lra.
Qed.

Lemma subgrad_unique n g v p :
  (forall x, g p + dot n (vsub v p) (vsub x p) <= g x) -> unique_minimiser n (prox_obj n g v) p.
Proof. intros H. apply strong_unique. apply prox_subgrad. exact H. Qed.

(** Nonexpansiveness from subgradients of the same function. *)
Lemma subgrad_nonexpansive n g v w p q :
  (forall x, g p + dot n (vsub v p) (vsub x p) <= g x) ->
  (forall x, g q + dot n (vsub w q) (vsub x q) <= g x) ->
  nrm n (vsub p q) <= nrm n (vsub v w).
Proof.
  intros Hp Hq. specialize (Hp q). specialize (Hq p).
  assert (E : nrm2 n (vsub p q) <= dot n (vsub v w) (vsub p q)).
  { unfold nrm2.
    assert (E1 : dot n (vsub v p) (vsub q p) + dot n (vsub w q) (vsub p q) =
                 dot n (vsub p q) (vsub p q) - dot n (vsub v w) (vsub p q)).
    { unfold dot. rewrite <- sumn_plus, <- sumn_minus. apply sumn_ext. intros. unfold vsub. ring. }
    lra. }
  pose proof (dot_le n (vsub v w) (vsub p q)) as C.
  pose proof (nrm_nonneg n (vsub p q)) as N1. pose proof (nrm_nonneg n (vsub v w)) as N2.
  rewrite <- nrm_sqr in E. destruct (Rle_dec (nrm n (vsub p q)) (nrm n (vsub v w))) as [L|L]; [exact L|].
  exfalso. assert (L' : nrm n (vsub v w) < nrm n (vsub p q)) by lra.
  assert (nrm n (vsub v w) * nrm n (vsub p q) < nrm n (vsub p q) * nrm n (vsub p q)).
  { apply Rmult_lt_compat_r; lra. }
  lra.
Qed.

(** ** l1 *)
Lemma prox_l1_cases v a : 0 <= a ->
  let p := sgn v * Rmax (Rabs v - a) 0 in
  (a < v /\ p = v - a) \/ (v < - a /\ p = v + a) \/ (- a <= v <= a /\ p = 0).
Proof.
  intros Ha p. unfold p.
  destruct (Rtotal_order v 0) as [H|[->|H]].
  - rewrite sgn_neg, Rabs_left by exact H.
    destruct (Rlt_dec v (- a)) as [L|L].
    + right. left. split; [exact L|]. rewrite Rmax_left by lra. ring.
    + right. right. split; [lra|]. rewrite Rmax_right by lra. ring.
  - right. right. rewrite sgn_0. split; [lra|ring].
  - rewrite sgn_pos, Rabs_right by lra.
    destruct (Rlt_dec a v) as [L|L].
    + left. split; [exact L|]. rewrite Rmax_left by lra. ring.
    + right. right. split; [lra|]. rewrite Rmax_right by lra. ring.
Qed.

Lemma prox_l1_sub1 v a x : 0 <= a ->
  let p := sgn v * Rmax (Rabs v - a) 0 in a * Rabs p + (v - p) * (x - p) <= a * Rabs x.
Proof.
  intros Ha p. destruct (prox_l1_cases v a Ha) as [[H E]|[[H E]|[H E]]]; fold p in E; rewrite E.
  - rewrite (Rabs_right (v - a)) by lra. pose proof (Rle_abs x). nra.
  - rewrite (Rabs_left (v + a)) by lra. pose proof (Rle_abs (- x)). rewrite Rabs_Ropp in *. nra.
  - rewrite Rabs_R0. replace ((v - 0) * (x - 0)) with (v * x) by ring.
    apply Rle_trans with (Rabs v * Rabs x).
    + rewrite <- Rabs_mult. pose proof (Rle_abs (v * x)). lra.
    + assert (Rabs v <= a) by (apply Rabs_le; lra). pose proof (Rabs_pos x). nra.
Qed.

Definition wl1 (n : nat) (alpha x : nat -> R) : R := sumn n (fun i => Rabs (alpha i * x i)).

Lemma prox_l1_subgrad n v alpha : (forall i, (i < n)%nat -> 0 <= alpha i) ->
  forall x, wl1 n alpha (prox_l1 v alpha) + dot n (vsub v (prox_l1 v alpha)) (vsub x (prox_l1 v alpha)) <= wl1 n alpha x.
Proof.
  intros Ha x. unfold wl1, dot. rewrite <- sumn_plus. apply sumn_le. intros i Hi.
  rewrite !Rabs_mult, (Rabs_right (alpha i)) by (apply Rle_ge, Ha, Hi).
  exact (prox_l1_sub1 (v i) (alpha i) (x i) (Ha i Hi)).
Qed.

Lemma prox_l1_versions v alpha i : 0 <= alpha i -> prox_l1 v alpha i = prox_l1_ne v alpha i.
Proof.
  intros Ha. unfold prox_l1, prox_l1_ne. destruct (ltb 0 (Rabs (v i) - alpha i)) eqn:E.
  - apply ltb_true in E. rewrite Rmax_left by lra. f_equal.
    destruct (leb 0 (v i)) eqn:F.
    + apply leb_true in F. apply sgn_pos. destruct F as [F|F]; [exact F|]. rewrite <- F, Rabs_R0 in E. lra.
    + apply leb_false in F. apply sgn_neg. exact F.
  - apply ltb_false in E. rewrite Rmax_right by lra. ring.
Qed.

Lemma prox_l1_odd v alpha i : prox_l1 (fun j => - v j) alpha i = - prox_l1 v alpha i.
Proof.
  unfold prox_l1. rewrite Rabs_Ropp.
  destruct (Rtotal_order (v i) 0) as [H|[H|H]].
  - rewrite (sgn_neg (v i)), (sgn_pos (- v i)) by lra. ring.
  - rewrite H, Ropp_0, sgn_0. ring.
  - rewrite (sgn_pos (v i)), (sgn_neg (- v i)) by lra. ring.
Qed.

(** ** l0 *)
Lemma prox_l0_scalar v x a : 0 <= a ->
  let p := b2r (leb (sqrt (2 * a)) (Rabs v)) * v in
  / 2 * ((p - v) * (p - v)) + a * b2r (ltb 0 (Rabs p)) <= / 2 * ((x - v) * (x - v)) + a * b2r (ltb 0 (Rabs x)).
Proof.
  intros Ha p. unfold p. set (q := sqrt (2 * a)).
  assert (Hq : q * q = 2 * a) by (apply sqrt_sqrt; lra).
  assert (Hq0 : 0 <= q) by apply sqrt_pos.
  assert (Hv : Rabs v * Rabs v = v * v) by (rewrite <- Rabs_mult; apply Rabs_pos_eq; apply Rle_0_sqr).
  pose proof (Rabs_pos v) as Hv0.
  assert (Hx : (x = 0 /\ ltb 0 (Rabs x) = false) \/ (x <> 0 /\ ltb 0 (Rabs x) = true)).
  { destruct (Req_dec x 0) as [->|N]; [left|right]; split; auto.
    - rewrite Rabs_R0. apply ltb_false. lra.
    - apply ltb_true. apply Rabs_pos_lt. exact N. }
  destruct (leb q (Rabs v)) eqn:E; cbn [b2r].
  - apply leb_true in E. rewrite Rmult_1_l.
    assert (Hb : b2r (ltb 0 (Rabs v)) <= 1) by (destruct (ltb 0 (Rabs v)); simpl; lra).
    destruct Hx as [[-> ->]|[N ->]]; cbn [b2r].
    + assert (q * q <= Rabs v * Rabs v) by (apply Rmult_le_compat; lra). nra.
    + pose proof (Rle_0_sqr (x - v)). unfold Rsqr in *. nra.
  - apply leb_false in E. rewrite Rmult_0_l, Rabs_R0.
    assert (E0 : ltb 0 0 = false) by (apply ltb_false; lra). rewrite E0. cbn [b2r].
    destruct Hx as [[-> ->]|[N ->]]; cbn [b2r]; [lra|].
    assert (Rabs v * Rabs v <= q * q) by (apply Rmult_le_compat; lra).
    pose proof (Rle_0_sqr (x - v)). unfold Rsqr in *. nra.
Qed.

Lemma prox_l0_min n v a : 0 <= a -> minimises (prox_obj n (fun x => a * norm_l0 n x) v) (prox_l0 v a).
Proof.
  intros Ha x. unfold prox_obj, nrm2, dot, norm_l0. rewrite <- !sumn_scal, <- !sumn_plus.
  apply sumn_le. intros i Hi. unfold vsub, prox_l0. apply prox_l0_scalar. exact Ha.
Qed.

(** ** l2 *)
Lemma prox_l2_subgrad n v a : 0 <= a ->
  forall x, a * norm_l2 n (prox_l2 n v a) + dot n (vsub v (prox_l2 n v a)) (vsub x (prox_l2 n v a)) <= a * norm_l2 n x.
Proof.
  intros Ha x. rewrite !norm_l2_nrm. unfold prox_l2. rewrite norm_l2_nrm.
  pose proof (nrm_nonneg n v) as Hn. pose proof (dot_le n v x) as Hd.
  pose proof (nrm_nonneg n x) as Hx.
  destruct (Rle_dec (nrm n v) a) as [L|L].
  - assert (E : forall c, zdivide (Rmax 0 (nrm n v - a)) (nrm n v) * c = 0).
    { intros c. rewrite Rmax_left by lra. unfold zdivide. destruct (eqb (nrm n v) 0); [ring|]. unfold Rdiv. ring. }
    rewrite (nrm_ext n _ (fun _ => 0)) by (intros; apply E).
    unfold nrm at 1. rewrite nrm2_zero, sqrt_0.
    rewrite (dot_ext n _ _ v x) by (intros; unfold vsub; rewrite E; ring).
    nra.
  - assert (Hp : 0 < nrm n v) by lra.
    rewrite Rmax_right by lra. unfold zdivide.
    assert (E : eqb (nrm n v) 0 = false) by (apply eqb_false; lra). rewrite E.
    set (c := (nrm n v - a) / nrm n v).
    assert (Hc : c * nrm n v = nrm n v - a) by (unfold c; field; lra).
    assert (Hc0 : 0 <= c).
    { unfold c. apply Rmult_le_pos; [lra|]. apply Rlt_le, Rinv_0_lt_compat. exact Hp. }
    change (fun i => c * v i) with (vscal c v).
    rewrite nrm_scal, (Rabs_right c) by lra.
    assert (D : dot n (vsub v (vscal c v)) (vsub x (vscal c v)) = (1 - c) * (dot n v x - c * nrm2 n v)).
    { unfold nrm2. rewrite dot_sub_l, dot_scal_l, !dot_sub_r, !dot_scal_r. ring. }
    rewrite D, <- nrm_sqr.
    assert (F : (1 - c) * nrm n v = a) by lra.
    replace ((1 - c) * (dot n v x - c * (nrm n v * nrm n v)))
      with ((1 - c) * dot n v x - c * nrm n v * ((1 - c) * nrm n v)) by ring.
    rewrite F.
    assert (Hc1 : 0 <= 1 - c).
    { destruct (Rle_dec 0 (1 - c)) as [G|G]; [exact G|]. exfalso. assert (1 - c < 0) by lra. nra. }
    assert ((1 - c) * dot n v x <= (1 - c) * (nrm n v * nrm n x)) by (apply Rmult_le_compat_l; assumption).
    replace ((1 - c) * (nrm n v * nrm n x)) with ((1 - c) * nrm n v * nrm n x) in H by ring.
    rewrite F in H. lra.
Qed.

(** Projection onto a set: variational inequality. *)
Lemma variational_nearest n (C : (nat -> R) -> Prop) v p :
  C p -> (forall x, C x -> dot n (vsub v p) (vsub x p) <= 0) -> nearest n C v p.
Proof.
  intros Hp H.
  assert (K : forall x, C x -> nrm2 n (vsub p v) + nrm2 n (vsub x p) <= nrm2 n (vsub x v)).
  { intros x Hx. specialize (H x Hx). pose proof (sq_expand n x v p). lra. }
  split; [exact Hp|split].
  - intros x Hx. apply sqrt_le_1_alt. specialize (K x Hx). pose proof (nrm2_nonneg n (vsub x p)). lra.
  - intros q Hq Hm i Hi. apply (sub_eq0 n q p); [|exact Hi].
    specialize (K q Hq). specialize (Hm p Hp).
    assert (nrm n (vsub q v) * nrm n (vsub q v) <= nrm n (vsub p v) * nrm n (vsub p v)).
    { apply Rmult_le_compat; try apply nrm_nonneg; exact Hm. }
    rewrite !nrm_sqr in H0. lra.
Qed.

Lemma ball_variational n v g : 0 <= g ->
  let p := fun i => b2r (leb (nrm n v) g) * v i + b2r (ltb g (nrm n v)) * (g * zdivide (v i) (nrm n v)) in
  nrm n p <= g /\ (nrm n v <= g -> forall i, p i = v i) /\
  forall x, nrm n x <= g -> dot n (vsub v p) (vsub x p) <= 0.
Proof.
  intros Hg p. destruct (leb (nrm n v) g) eqn:E.
  - apply leb_true in E.
    assert (F : ltb g (nrm n v) = false) by (apply ltb_false; exact E).
    assert (P : forall i, p i = v i) by (intros i; unfold p; rewrite F; simpl; ring).
    split; [rewrite (nrm_ext n p v) by auto; exact E|split; [intros _; exact P|]].
    intros x _. assert (Z : dot n (vsub v p) (vsub x p) = 0).
    { apply sumn_0. intros i _. unfold vsub. rewrite P. ring. }
    lra.
  - apply leb_false in E.
    assert (F : ltb g (nrm n v) = true) by (apply ltb_true; exact E).
    assert (Hp : 0 < nrm n v) by lra.
    assert (G : eqb (nrm n v) 0 = false) by (apply eqb_false; lra).
    set (c := g / nrm n v).
    assert (P : forall i, p i = vscal c v i).
    { intros i. unfold p, vscal, zdivide, c. rewrite F, G. simpl. field. lra. }
    assert (Hc : c * nrm n v = g) by (unfold c; field; lra).
    assert (Hc0 : 0 <= c).
    { unfold c. apply Rmult_le_pos; [lra|]. apply Rlt_le, Rinv_0_lt_compat. exact Hp. }
    split; [|split].
    + rewrite (nrm_ext n p (vscal c v)) by auto. rewrite nrm_scal, (Rabs_right c) by lra. lra.
    + lra.
    + intros x Hx.
      rewrite (dot_ext n _ _ (vsub v (vscal c v)) (vsub x (vscal c v))) by (intros; unfold vsub; rewrite P; reflexivity).
      assert (D : dot n (vsub v (vscal c v)) (vsub x (vscal c v)) = (1 - c) * (dot n v x - c * nrm2 n v)).
      { unfold nrm2. rewrite dot_sub_l, dot_scal_l, !dot_sub_r, !dot_scal_r. ring. }
      rewrite D, <- nrm_sqr.
      assert (Hc1 : 0 <= 1 - c).
      { destruct (Rle_dec 0 (1 - c)) as [L|L]; [exact L|]. exfalso. assert (1 - c < 0) by lra. nra. }
      pose proof (dot_le n v x) as Hd.
      assert (nrm n v * nrm n x <= nrm n v * g) by (apply Rmult_le_compat_l; lra).
      assert (c * (nrm n v * nrm n v) = g * nrm n v) by (rewrite <- Rmult_assoc, Hc; reflexivity).
      assert (dot n v x - c * (nrm n v * nrm n v) <= 0) by lra. nra.
Qed.

Lemma proj_l2_form n v g i : proj_l2 n v g i =
  b2r (leb (nrm n v) g) * v i + b2r (ltb g (nrm n v)) * (g * zdivide (v i) (nrm n v)).
Proof. unfold proj_l2. rewrite norm_l2_nrm. reflexivity. Qed.

Lemma proj_l2_ok n v g : 0 <= g ->
  nearest n (fun x => norm_l2 n x <= g) v (proj_l2 n v g) /\
  (norm_l2 n v <= g -> forall i, proj_l2 n v g i = v i).
Proof.
  intros Hg. destruct (ball_variational n v g Hg) as (H1 & H2 & H3). simpl in H1, H2, H3.
  set (p := fun i => b2r (leb (nrm n v) g) * v i + b2r (ltb g (nrm n v)) * (g * zdivide (v i) (nrm n v))) in *.
  assert (E : forall i, proj_l2 n v g i = p i) by (intros; apply proj_l2_form).
  split.
  - apply variational_nearest.
    + rewrite norm_l2_nrm. rewrite (nrm_ext n _ p) by auto. exact H1.
    + intros x Hx. rewrite norm_l2_nrm in Hx.
      rewrite (dot_ext n _ _ (vsub v p) (vsub x p)) by (intros; unfold vsub; rewrite E; reflexivity). apply H3. exact Hx.
  - rewrite norm_l2_nrm. intros Hv i. rewrite E. apply H2. exact Hv.
Qed.

Lemma proj_l2ball_ok n b s r : 0 <= r ->
  nearest n (fun x => norm_l2 n (vsub x s) <= r) b (proj_l2ball n b s r) /\
  (norm_l2 n (vsub b s) <= r -> forall i, proj_l2ball n b s r i = b i).
Proof.
  intros Hr. set (v := vsub b s).
  destruct (ball_variational n v r Hr) as (H1 & H2 & H3). simpl in H1, H2, H3.
  set (p := fun i => b2r (leb (nrm n v) r) * v i + b2r (ltb r (nrm n v)) * (r * zdivide (v i) (nrm n v))) in *.
  assert (Ed : sqrt (sumn n (fun i => (b i - s i) ^ 2)) = nrm n v).
  { unfold nrm, nrm2, dot, v, vsub. f_equal. apply sumn_ext. intros. ring. }
  assert (E : forall i, proj_l2ball n b s r i = s i + p i).
  { intros i. unfold proj_l2ball. rewrite Ed. unfold p, v, vsub.
    change (nrm n (fun i0 => b i0 - s i0)) with (nrm n v).
    destruct (Rle_dec (nrm n v) r) as [L|L].
    - assert (A : leb (nrm n v) r = true) by (apply leb_true; exact L).
      assert (B : ltb r (nrm n v) = false) by (apply ltb_false; exact L). rewrite A, B. simpl. ring.
    - assert (A : leb (nrm n v) r = false) by (apply leb_false; lra).
      assert (B : ltb r (nrm n v) = true) by (apply ltb_true; lra). rewrite A, B. simpl. ring. }
  split.
  - apply variational_nearest.
    + rewrite norm_l2_nrm. rewrite (nrm_ext n _ p); [exact H1|]. intros. unfold vsub. rewrite E. ring.
    + intros x Hx. rewrite norm_l2_nrm in Hx.
      rewrite (dot_ext n _ _ (vsub v p) (vsub (vsub x s) p)) by (intros; unfold v, vsub; rewrite E; ring).
      apply H3. exact Hx.
  - intros Hv i. rewrite norm_l2_nrm in Hv. rewrite E. assert (F : p i = v i) by (apply H2; exact Hv). rewrite F. unfold v, vsub. ring.
Qed.

(** ** l1 plus l2 *)
Lemma sl1l2_l1_part v a c x : 0 <= a -> 0 <= c ->
  let w := sgn v * Rmax (Rabs v - a) 0 in a * Rabs (c * w) + (v - w) * (x - c * w) <= a * Rabs x.
Proof.
  intros Ha Hc w. destruct (prox_l1_cases v a Ha) as [[H E]|[[H E]|[H E]]]; fold w in E; rewrite E.
  - rewrite Rabs_mult, (Rabs_right c), (Rabs_right (v - a)) by lra. pose proof (Rle_abs x).
    replace (v - (v - a)) with a by ring. nra.
  - rewrite Rabs_mult, (Rabs_right c), (Rabs_left (v + a)) by lra. pose proof (Rle_abs (- x)). rewrite Rabs_Ropp in *.
    replace (v - (v + a)) with (- a) by ring. nra.
  - rewrite Rmult_0_r, Rabs_R0. replace ((v - 0) * (x - 0)) with (v * x) by ring.
    apply Rle_trans with (Rabs v * Rabs x).
    + rewrite <- Rabs_mult. pose proof (Rle_abs (v * x)). lra.
    + assert (Rabs v <= a) by (apply Rabs_le; lra). pose proof (Rabs_pos x). nra.
Qed.

Lemma prox_sl1l2_subgrad n v a b : 0 <= a -> 0 <= b ->
  forall x, (a * norm_l1 n (prox_sl1l2 n v a b) + b * norm_l2 n (prox_sl1l2 n v a b))
            + dot n (vsub v (prox_sl1l2 n v a b)) (vsub x (prox_sl1l2 n v a b)) <= a * norm_l1 n x + b * norm_l2 n x.
Proof.
  intros Ha Hb x. unfold prox_sl1l2. set (w := prox_l1 v (fun _ => a)).
  pose proof (prox_l2_subgrad n w b Hb x) as H2. set (p := prox_l2 n w b) in *.
  assert (Hc : exists c, 0 <= c /\ forall i, p i = c * w i).
  { exists (zdivide (Rmax 0 (norm_l2 n w - b)) (norm_l2 n w)). split; [|reflexivity].
    unfold zdivide. destruct (eqb (norm_l2 n w) 0) eqn:E; [lra|]. apply eqb_false in E.
    apply Rmult_le_pos; [apply Rmax_l|]. apply Rlt_le, Rinv_0_lt_compat.
    rewrite norm_l2_nrm in *. pose proof (nrm_nonneg n w). lra. }
  destruct Hc as (c & Hc & Hp).
  assert (H1 : a * norm_l1 n p + dot n (vsub v w) (vsub x p) <= a * norm_l1 n x).
  { unfold norm_l1, dot. rewrite <- !sumn_scal, <- sumn_plus. apply sumn_le. intros i _. unfold vsub. rewrite Hp.
    apply sl1l2_l1_part; assumption. }
  assert (S : dot n (vsub v p) (vsub x p) = dot n (vsub v w) (vsub x p) + dot n (vsub w p) (vsub x p)).
  { rewrite <- dot_add_l. apply dot_ext; [|reflexivity]. intros. unfold vadd, vsub. ring. }
  rewrite S. lra.
Qed.

(** ** l1 minus l2 *)
Lemma vmax_ge n a i : (i < n)%nat -> a i <= vmax n a.
Proof.
  induction n as [|n IH]; intros Hi; [lia|]. destruct n as [|n].
  - assert (i = O) by lia. subst. simpl. lra.
  - change (vmax (S (S n)) a) with (Rmax (vmax (S n) a) (a (S n))).
    destruct (Nat.eq_dec i (S n)) as [->|N]; [apply Rmax_r|].
    apply Rle_trans with (vmax (S n) a); [apply IH; lia|apply Rmax_l].
Qed.

Lemma argmax_ok n a : (0 < n)%nat -> (argmax n a < n)%nat /\ a (argmax n a) = vmax n a.
Proof.
  induction n as [|n IH]; intros Hn; [lia|]. destruct n as [|n].
  - simpl. split; [lia|reflexivity].
  - destruct (IH ltac:(lia)) as [I1 I2].
    change (argmax (S (S n)) a) with (if ltb (a (argmax (S n) a)) (a (S n)) then S n else argmax (S n) a).
    change (vmax (S (S n)) a) with (Rmax (vmax (S n) a) (a (S n))).
    rewrite I2. destruct (ltb (vmax (S n) a) (a (S n))) eqn:E.
    + apply ltb_true in E. split; [lia|]. rewrite Rmax_right; lra.
    + apply ltb_false in E. split; [lia|]. rewrite Rmax_left; lra.
Qed.

Definition dobj (n : nat) (v : nat -> R) (a b : R) (x : nat -> R) : R :=
  prox_obj n (fun x => a * norm_dl1l2 n x b) v x.

(** If <x,v> - a|x|_1 <= H |x|_2 then the objective is bounded below by a quadratic in |x|_2. *)
Lemma dobj_lower n v a b H x : 0 <= a -> dot n x v - a * norm_l1 n x <= H * nrm n x ->
  / 2 * nrm2 n v - / 2 * (Rmax 0 (H + a * b) * Rmax 0 (H + a * b)) <= dobj n v a b x.
Proof.
  intros Ha Hx. unfold dobj, prox_obj, norm_dl1l2. rewrite norm_l2_nrm, nrm2_sub.
  pose proof (nrm_sqr n x) as Hs. pose proof (nrm_nonneg n x) as Hn. set (r := nrm n x) in *.
  rewrite <- Hs. set (m := Rmax 0 (H + a * b)).
  assert (Hm : H + a * b <= m) by apply Rmax_r.
  assert (Hm2 : r * (H + a * b) <= r * m) by (apply Rmult_le_compat_l; assumption).
  pose proof (Rle_0_sqr (r - m)) as Q. unfold Rsqr in Q. lra.
Qed.

Lemma abs_sum_bound n v a x : 0 <= a ->
  dot n x v - a * norm_l1 n x <= sumn n (fun i => Rabs (x i) * (Rabs (v i) - a)).
Proof.
  intros Ha. unfold dot, norm_l1. rewrite <- sumn_scal, <- sumn_minus. apply sumn_le. intros i _.
  pose proof (Rle_abs (x i * v i)) as H. rewrite Rabs_mult in H. lra.
Qed.

Lemma nrm_abs n x : nrm n (fun i => Rabs (x i)) = nrm n x.
Proof.
  unfold nrm, nrm2, dot. f_equal. apply sumn_ext. intros i _. rewrite <- Rabs_mult. apply Rabs_pos_eq. apply Rle_0_sqr.
Qed.

Definition soft (v : nat -> R) (a : R) : nat -> R := fun i => Rmax (Rabs (v i) - a) 0.

Lemma upper_big n v a x : 0 <= a -> dot n x v - a * norm_l1 n x <= nrm n (soft v a) * nrm n x.
Proof.
  intros Ha. apply Rle_trans with (1 := abs_sum_bound n v a x Ha).
  apply Rle_trans with (dot n (soft v a) (fun i => Rabs (x i))).
  - apply sumn_le. intros i _. unfold soft. pose proof (Rabs_pos (x i)).
    pose proof (Rmax_l (Rabs (v i) - a) 0). rewrite Rmult_comm. apply Rmult_le_compat_r; lra.
  - rewrite <- (nrm_abs n x). apply dot_le.
Qed.

Lemma l1_ge_l2 n x : nrm n x <= norm_l1 n x.
Proof.
  apply Rsqr_incr_0_var; [|apply (nrm1_nonneg n x)].
  unfold Rsqr. rewrite nrm_sqr. unfold norm_l1.
  set (s := sumn n (fun i => Rabs (x i))). unfold nrm2, dot, s. rewrite <- sumn_scal_r.
  apply sumn_le. intros i Hi.
  replace (x i * x i) with (Rabs (x i) * Rabs (x i)) by (rewrite <- Rabs_mult; apply Rabs_pos_eq; apply Rle_0_sqr).
  apply Rmult_le_compat_l; [apply Rabs_pos|].
  apply (sumn_ge_term n (fun i => Rabs (x i)) i); [intros; apply Rabs_pos|exact Hi].
Qed.

Lemma upper_small n v a x : 0 <= a -> vmax n (fun i => Rabs (v i)) <= a ->
  dot n x v - a * norm_l1 n x <= (vmax n (fun i => Rabs (v i)) - a) * nrm n x.
Proof.
  intros Ha Hm. apply Rle_trans with (1 := abs_sum_bound n v a x Ha).
  set (m := vmax n (fun i => Rabs (v i))) in *.
  apply Rle_trans with (sumn n (fun i => Rabs (x i) * (m - a))).
  - apply sumn_le. intros i Hi. apply Rmult_le_compat_l; [apply Rabs_pos|].
    pose proof (vmax_ge n (fun i => Rabs (v i)) i Hi). unfold m. lra.
  - rewrite sumn_scal_r. fold (norm_l1 n x). pose proof (l1_ge_l2 n x). nra.
Qed.

(** The value attained at a multiple of the signed soft-thresholded vector. *)
Lemma attained_big n v a b : 0 <= a -> 0 <= b -> 0 < nrm n (soft v a) ->
  let s := nrm n (soft v a) in
  dobj n v a b (fun i => soft v a i * sgn (v i) * ((s + a * b) / s)) = / 2 * nrm2 n v - / 2 * ((s + a * b) * (s + a * b)).
Proof.
  intros Ha Hb Hs s. set (c := (s + a * b) / s).
  assert (Hc : 0 <= c).
  { unfold c. apply Rmult_le_pos; [|apply Rlt_le, Rinv_0_lt_compat; exact Hs].
    assert (0 <= a * b) by (apply Rmult_le_pos; assumption). unfold s. lra. }
  assert (Hcs : c * s = s + a * b) by (unfold c; field; unfold s; lra).
  set (u := fun i => soft v a i * sgn (v i) * c).
  assert (S1 : forall i, soft v a i * sgn (v i) * sgn (v i) = soft v a i).
  { intros i. unfold soft. destruct (Rtotal_order (v i) 0) as [H|[H|H]].
    - rewrite sgn_neg by exact H. ring.
    - rewrite H, sgn_0, Rabs_R0. rewrite Rmax_right by lra. ring.
    - rewrite sgn_pos by exact H. ring. }
  assert (N : nrm2 n u = c * c * nrm2 n (soft v a)).
  { unfold nrm2, dot. rewrite <- sumn_scal. apply sumn_ext. intros i _. unfold u.
    replace (soft v a i * sgn (v i) * c * (soft v a i * sgn (v i) * c))
      with (c * c * soft v a i * (soft v a i * sgn (v i) * sgn (v i))) by ring.
    rewrite S1. ring. }
  assert (N1 : norm_l1 n u = c * sumn n (soft v a)).
  { unfold norm_l1. rewrite <- sumn_scal. apply sumn_ext. intros i _. unfold u.
    rewrite !Rabs_mult, (Rabs_right c) by lra.
    assert (P : 0 <= soft v a i) by apply Rmax_r. rewrite (Rabs_right (soft v a i)) by lra.
    assert (Q : soft v a i * Rabs (sgn (v i)) = soft v a i).
    { destruct (Rtotal_order (v i) 0) as [H|[H|H]].
      - rewrite sgn_neg by exact H. rewrite Rabs_left by lra. ring.
      - unfold soft. rewrite H, sgn_0, !Rabs_R0. rewrite Rmax_right by lra. ring.
      - rewrite sgn_pos by exact H. rewrite Rabs_right by lra. ring. }
    rewrite Q. ring. }
  assert (D : dot n u v = c * sumn n (fun i => soft v a i * Rabs (v i))).
  { unfold dot. rewrite <- sumn_scal. apply sumn_ext. intros i _. unfold u. rewrite (abs_sgn (v i)). ring. }
  assert (S2 : sumn n (fun i => soft v a i * Rabs (v i)) = nrm2 n (soft v a) + a * sumn n (soft v a)).
  { unfold nrm2, dot. rewrite <- sumn_scal, <- sumn_plus. apply sumn_ext. intros i _. unfold soft.
    destruct (Rle_dec (Rabs (v i) - a) 0) as [L|L]; [rewrite Rmax_right by lra|rewrite Rmax_left by lra]; ring. }
  assert (Nu : nrm n u = s + a * b).
  { unfold nrm. rewrite N. rewrite <- (nrm_sqr n (soft v a)). fold s.
    replace (c * c * (s * s)) with ((c * s) * (c * s)) by ring. rewrite Hcs. apply sqrt_square.
    assert (0 <= a * b) by (apply Rmult_le_pos; assumption). unfold s. lra. }
  unfold dobj, prox_obj, norm_dl1l2. rewrite norm_l2_nrm, nrm2_sub. fold u.
  rewrite Nu, N1, D, S2. rewrite <- (nrm_sqr n u), Nu. rewrite <- (nrm_sqr n (soft v a)). fold s.
  replace (c * (s * s + a * sumn n (soft v a))) with (c * s * s + a * (c * sumn n (soft v a))) by ring.
  rewrite Hcs. lra.
Qed.

Lemma dobj_zero n v a b : dobj n v a b (fun _ => 0) = / 2 * nrm2 n v.
Proof.
  unfold dobj, prox_obj, norm_dl1l2. rewrite norm_l2_nrm, nrm2_sub.
  unfold nrm. rewrite nrm2_zero, sqrt_0.
  replace (norm_l1 n (fun _ => 0)) with 0 by (symmetry; apply sumn_0; intros; apply Rabs_R0).
  replace (dot n (fun _ => 0) v) with 0 by (symmetry; apply sumn_0; intros; ring). lra.
Qed.

Lemma single_vals n k t : (k < n)%nat ->
  let u := fun i => if Nat.eqb i k then t else 0 in
  nrm2 n u = t * t /\ norm_l1 n u = Rabs t /\ nrm n u = Rabs t /\ forall v, dot n u v = t * v k.
Proof.
  intros Hk u.
  assert (A : nrm2 n u = t * t).
  { unfold nrm2, dot, u. rewrite <- (sumn_delta n k (fun _ => t * t) Hk). apply sumn_ext. intros i _.
    destruct (Nat.eqb i k); ring. }
  split; [exact A|split; [|split]].
  - unfold norm_l1, u. rewrite <- (sumn_delta n k (fun _ => Rabs t) Hk). apply sumn_ext. intros i _.
    destruct (Nat.eqb i k); [reflexivity|apply Rabs_R0].
  - unfold nrm. rewrite A. fold (Rsqr t). apply sqrt_Rsqr_abs.
  - intros v. unfold dot, u. rewrite <- (sumn_delta n k (fun i => t * v i) Hk). apply sumn_ext. intros i _.
    destruct (Nat.eqb i k); ring.
Qed.

Lemma attained_small n v a b k : (k < n)%nat -> 0 <= Rabs (v k) + (b - 1) * a -> v k <> 0 ->
  dobj n v a b (fun i => if Nat.eqb i k then (Rabs (v k) + (b - 1) * a) * sgn (v k) else 0) =
  / 2 * nrm2 n v - / 2 * ((Rabs (v k) + (b - 1) * a) * (Rabs (v k) + (b - 1) * a)).
Proof.
  intros Hk Hc Hv. set (c := Rabs (v k) + (b - 1) * a) in *.
  destruct (single_vals n k (c * sgn (v k)) Hk) as (A & B & C & D). simpl in A, B, C, D.
  unfold dobj, prox_obj, norm_dl1l2. rewrite norm_l2_nrm, nrm2_sub, A, B, C, D.
  assert (S2 : sgn (v k) * sgn (v k) = 1).
  { destruct (Rtotal_order (v k) 0) as [H|[H|H]]; [rewrite sgn_neg by exact H; ring|contradiction|rewrite sgn_pos by exact H; ring]. }
  assert (S3 : Rabs (c * sgn (v k)) = c).
  { rewrite Rabs_mult, (Rabs_right c) by lra.
    destruct (Rtotal_order (v k) 0) as [H|[H|H]]; [rewrite sgn_neg by exact H; rewrite Rabs_left by lra; ring|contradiction|
      rewrite sgn_pos by exact H; rewrite Rabs_right by lra; ring]. }
  rewrite S3. replace (c * sgn (v k) * (c * sgn (v k))) with (c * c * (sgn (v k) * sgn (v k))) by ring. rewrite S2.
  replace (c * sgn (v k) * v k) with (c * Rabs (v k)) by (rewrite (abs_sgn (v k)); ring).
  unfold c. lra.
Qed.

Lemma soft_pos n v a : (0 < n)%nat -> a < vmax n (fun i => Rabs (v i)) -> 0 < nrm n (soft v a).
Proof.
  intros Hn Hm. destruct (argmax_ok n (fun i => Rabs (v i)) Hn) as [I1 I2].
  set (k := argmax n (fun i => Rabs (v i))) in *.
  unfold nrm. apply sqrt_lt_R0.
  assert (P : 0 < soft v a k) by (unfold soft; rewrite Rmax_left; lra).
  apply Rlt_le_trans with (soft v a k * soft v a k); [nra|].
  apply (sumn_ge_term n (fun i => soft v a i * soft v a i) k); [intros; apply Rle_0_sqr|exact I1].
Qed.

Lemma vmax_nonneg n v : 0 <= vmax n (fun i => Rabs (v i)).
Proof.
  destruct n; [simpl; lra|]. apply Rle_trans with (Rabs (v O)); [apply Rabs_pos|].
  apply (vmax_ge (S n) (fun i => Rabs (v i)) 0). lia.
Qed.

Lemma dl1l2_min n v a b : (0 < n)%nat -> 0 <= a -> 0 <= b <= 1 -> minimises (dobj n v a b) (prox_dl1l2 n v a b).
Proof.
  intros Hn Ha Hb x. unfold prox_dl1l2. set (m := vmax n (fun i => Rabs (v i))).
  assert (Hab : 0 <= a * b) by (apply Rmult_le_pos; lra).
  destruct (ltb 0 m) eqn:E0; [apply ltb_true in E0|apply ltb_false in E0].
  - destruct (ltb a m) eqn:E1; [apply ltb_true in E1|apply ltb_false in E1].
    + pose proof (soft_pos n v a Hn E1) as Hs.
      assert (Nu : norm_l2 n (fun i => Rmax (Rabs (v i) - a) 0 * sgn (v i)) = nrm n (soft v a)).
      { rewrite norm_l2_nrm. unfold nrm, nrm2, dot. f_equal. apply sumn_ext. intros i _. unfold soft.
        destruct (Rtotal_order (v i) 0) as [H|[H|H]].
        - rewrite sgn_neg by exact H. ring.
        - rewrite H, sgn_0, Rabs_R0. rewrite Rmax_right by lra. ring.
        - rewrite sgn_pos by exact H. ring. }
      rewrite Nu. fold (soft v a). 
      change (fun i => Rmax (Rabs (v i) - a) 0 * sgn (v i) * ((nrm n (soft v a) + a * b) / nrm n (soft v a)))
        with (fun i => soft v a i * sgn (v i) * ((nrm n (soft v a) + a * b) / nrm n (soft v a))).
      rewrite (attained_big n v a b Ha (proj1 Hb) Hs).
      pose proof (dobj_lower n v a b (nrm n (soft v a)) x Ha (upper_big n v a x Ha)) as L.
      rewrite Rmax_right in L by lra. exact L.
    + pose proof (dobj_lower n v a b (m - a) x Ha (upper_small n v a x Ha E1)) as L.
      destruct (leb ((1 - b) * a) m) eqn:E2; [apply leb_true in E2|apply leb_false in E2].
      * destruct (argmax_ok n (fun i => Rabs (v i)) Hn) as [I1 I2].
        set (k := argmax n (fun i => Rabs (v i))) in *. fold m in I2.
        rewrite attained_small; [|exact I1|rewrite I2; lra|].
        -- rewrite I2. rewrite Rmax_right in L by lra.
           replace (m + (b - 1) * a) with (m - a + a * b) by ring. exact L.
        -- intros Z. rewrite Z, Rabs_R0 in I2. lra.
      * rewrite dobj_zero. rewrite Rmax_left in L by lra. lra.
  - rewrite dobj_zero.
    assert (M0 : m <= a) by lra.
    pose proof (dobj_lower n v a b (m - a) x Ha (upper_small n v a x Ha M0)) as L.
    assert (a * b <= a) by nra. rewrite Rmax_left in L by lra. lra.
Qed.

(** Both branches of the code compute the same vector. *)
Lemma dl1l2_axis_eq n v a b i : (0 < n)%nat -> 0 <= a -> 0 <= b <= 1 -> (i < n)%nat ->
  prox_dl1l2_axis n v a b i = prox_dl1l2 n v a b i.
Proof.
  intros Hn Ha Hb Hi. unfold prox_dl1l2_axis, prox_dl1l2. set (m := vmax n (fun i => Rabs (v i))).
  pose proof (vmax_nonneg n v) as Hm. fold m in Hm.
  destruct (argmax_ok n (fun i => Rabs (v i)) Hn) as [I1 I2].
  set (k := argmax n (fun i => Rabs (v i))) in *. fold m in I2.
  set (u := fun i => Rmax (Rabs (v i) - a) 0 * sgn (v i)).
  destruct (ltb a m) eqn:E1.
  - apply ltb_true in E1. assert (E0 : ltb 0 m = true) by (apply ltb_true; lra). rewrite E0.
    assert (F : leb m a = false) by (apply leb_false; exact E1). rewrite F, andb_false_r. simpl.
    assert (Nu : norm_l2 n u = nrm n (soft v a)).
    { rewrite norm_l2_nrm. unfold nrm, nrm2, dot, u. f_equal. apply sumn_ext. intros j _. unfold soft.
      destruct (Rtotal_order (v j) 0) as [H|[H|H]].
      - rewrite sgn_neg by exact H. ring.
      - rewrite H, sgn_0, Rabs_R0. rewrite Rmax_right by lra. ring.
      - rewrite sgn_pos by exact H. ring. }
    pose proof (soft_pos n v a Hn E1) as Hs. rewrite Nu. unfold zdivide.
    assert (G : eqb (nrm n (soft v a)) 0 = false) by (apply eqb_false; lra). rewrite G. unfold u. field. lra.
  - apply ltb_false in E1. assert (F : leb m a = true) by (apply leb_true; exact E1). rewrite F, andb_true_r. simpl.
    rewrite Rmult_0_l, Rplus_0_l.
    destruct (ltb 0 m) eqn:E0.
    + destruct (leb ((1 - b) * a) m) eqn:E2.
      * apply leb_true in E2. rewrite I2. destruct (ltb ((1 - b) * a) m) eqn:E3; simpl; [ring|].
        apply ltb_false in E3. assert (Z : m + (b - 1) * a = 0) by lra. rewrite Z.
        destruct (Nat.eqb i k); ring.
      * apply leb_false in E2. assert (E3 : ltb ((1 - b) * a) m = false) by (apply ltb_false; lra). rewrite E3. simpl. ring.
    + apply ltb_false in E0. assert (Z : m = 0) by lra.
      assert (Vk : v k = 0).
      { destruct (Req_dec (v k) 0) as [H|H]; [exact H|]. pose proof (Rabs_pos_lt _ H). lra. }
      rewrite Vk, sgn_0. destruct (Nat.eqb i k); ring.
Qed.
