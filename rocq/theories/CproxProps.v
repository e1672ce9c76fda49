(** C64: the l1 proximal operator on complex arrays. *)
Require Import Arith Reals Lra Lia Psatz.
Require Import Verif.RVec Verif.Cplx Verif.ProxModel Verif.ProxProofs Verif.CproxModel.
Local Open Scope R_scope.
(** The objective: sum of alpha_i |x_i| + |x_i - v_i|^2 / 2. *)
Definition cobj (n : nat) (alpha : nat -> R) (v x : nat -> C) : R :=
  sumn n (fun i => alpha i * sqrt (re (x i) ^ 2 + im (x i) ^ 2) + / 2 * ((re (x i) - re (v i)) ^ 2 + (im (x i) - im (v i)) ^ 2)).

Lemma cabs_alt z : cabs z = sqrt (re z ^ 2 + im z ^ 2).
Proof. unfold cabs, cabs2. f_equal. ring. Qed.
Lemma cabs_sq z : cabs z * cabs z = re z ^ 2 + im z ^ 2.
Proof. unfold cabs. rewrite sqrt_sqrt by apply cabs2_nonneg. unfold cabs2. ring. Qed.
Lemma cabs_pos z : 0 <= cabs z. Proof. apply sqrt_pos. Qed.
Lemma cabs_0 z : cabs z = 0 <-> z = c0.
Proof.
  split; intros H.
  - apply cabs2_0. unfold cabs in H. apply sqrt_eq_0 in H; [exact H|apply cabs2_nonneg].
  - subst. unfold cabs, cabs2, c0, re, im. cbn [fst snd]. replace (0 * 0 + 0 * 0) with 0 by ring. apply sqrt_0.
Qed.
Lemma cabs_cs x y : re x * re y + im x * im y <= cabs x * cabs y.
Proof.
  destruct (Rle_lt_dec (re x * re y + im x * im y) 0) as [H|H].
  - pose proof (Rmult_le_pos _ _ (cabs_pos x) (cabs_pos y)). lra.
  - apply Rsqr_incr_0_var; [|apply Rmult_le_pos; apply cabs_pos]. unfold Rsqr.
    replace (cabs x * cabs y * (cabs x * cabs y)) with ((cabs x * cabs x) * (cabs y * cabs y)) by ring. rewrite !cabs_sq.
    pose proof (Rle_0_sqr (re x * im y - im x * re y)) as Q. unfold Rsqr in Q. nra.
Qed.
Lemma cscal_comp a b z : cscal a (cscal b z) = cscal (a * b) z.
Proof. unfold cscal, re, im. cbn [fst snd]. f_equal; ring. Qed.
Lemma entry (v x p : C) (alpha : R) : 0 <= alpha -> cabs v <> 0 -> p = cscal (Rmax (cabs v - alpha) 0) (cscal (/ cabs v) v) ->
  alpha * cabs p + / 2 * ((re p - re v) ^ 2 + (im p - im v) ^ 2) + / 2 * ((re x - re p) ^ 2 + (im x - im p) ^ 2) <=
  alpha * cabs x + / 2 * ((re x - re v) ^ 2 + (im x - im v) ^ 2).
Proof.
  intros Ha Hr ->. rewrite cscal_comp. pose proof (cabs_pos v) as Hv. set (r := cabs v) in *. assert (0 < r) by lra.
  set (c := Rmax (r - alpha) 0). assert (Hc0 : 0 <= c) by apply Rmax_r.
  set (k := c * / r). assert (Hk : 0 <= k) by (apply Rmult_le_pos; [exact Hc0|left; apply Rinv_0_lt_compat; exact H]).
  assert (Ekr : k * r = c) by (unfold k; field; lra).
  assert (Ep : cabs (cscal k v) = c).
  { unfold cabs. replace (cabs2 (cscal k v)) with (c * c); [apply sqrt_square, Hc0|]. unfold cabs2, cscal, re, im. cbn [fst snd].
    pose proof (cabs_sq v) as Q. unfold re, im in Q. fold r in Q. rewrite <- Ekr. replace (k * r * (k * r)) with (k * k * (r * r)) by ring. rewrite Q. ring. }
  rewrite Ep. pose proof (cabs_cs x v) as CS. fold r in CS. pose proof (cabs_sq v) as Q. fold r in Q. pose proof (cabs_pos x) as Hx.
  unfold cscal, re, im in *. cbn [fst snd] in *. set (a := fst v) in *. set (b := snd v) in *. set (y := fst x) in *. set (z := snd x) in *. set (X := cabs x) in *.
  (* it remains: alpha X - alpha c + <x - p, p - v> >= 0 *)
  assert (K : 0 <= alpha * X - alpha * c + ((y - k * a) * (k * a - a) + (z - k * b) * (k * b - b))).
  { replace ((y - k * a) * (k * a - a) + (z - k * b) * (k * b - b)) with ((k - 1) * (y * a + z * b) + k * (1 - k) * (a ^ 2 + b ^ 2)) by ring. rewrite <- Q.
    replace (k * (1 - k) * (r * r)) with (k * r * (r - k * r)) by ring. rewrite Ekr.
    unfold c, Rmax in *. destruct (Rle_dec (r - alpha) 0) as [E|E].
    - assert (k = 0) by (unfold k; ring). rewrite H0. nra.
    - assert (E1 : (1 - k) * r = alpha) by lra. assert (0 <= 1 - k) by nra.
      assert ((1 - k) * (y * a + z * b) <= (1 - k) * (X * r)) by (apply Rmult_le_compat_l; assumption). nra. }
  nra.
Qed.
(** For arrays without zero entries the result is the unique minimiser. *)
Theorem C64_minimises n v alpha : (forall i, (i < n)%nat -> 0 <= alpha i) -> (forall i, (i < n)%nat -> v i <> c0) ->
  exists p, (forall i, (i < n)%nat -> prox_l1_cplx v alpha i = Some (p i)) /\ (forall x, cobj n alpha v p <= cobj n alpha v x) /\
    (forall q, (forall x, cobj n alpha v q <= cobj n alpha v x) -> forall i, (i < n)%nat -> q i = p i).
Proof.
  intros Ha Hv. set (p := fun i => cscal (Rmax (cabs (v i) - alpha i) 0) (cscal (/ cabs (v i)) (v i))).
  assert (K : forall x, cobj n alpha v p + / 2 * sumn n (fun i => (re (x i) - re (p i)) ^ 2 + (im (x i) - im (p i)) ^ 2) <= cobj n alpha v x).
  { intros x. unfold cobj. rewrite <- sumn_scal, <- sumn_plus. apply sumn_le. intros i Hi. rewrite <- !cabs_alt.
    apply entry; [apply Ha, Hi|rewrite cabs_0; apply Hv, Hi|reflexivity]. }
  assert (NN : forall x, 0 <= sumn n (fun i => (re (x i) - re (p i)) ^ 2 + (im (x i) - im (p i)) ^ 2)).
  { intros x. apply sumn_nonneg. intros i _. apply Rplus_le_le_0_compat; apply pow2_ge_0. }
  exists p. split; [|split].
  - intros i Hi. unfold prox_l1_cplx. destruct (Req_EM_T (cabs (v i)) 0) as [E|E]; [apply cabs_0 in E; exfalso; apply (Hv i Hi E)|reflexivity].
  - intros x. specialize (K x). specialize (NN x). lra.
  - intros q Hq i Hi. specialize (K q). specialize (Hq p). specialize (NN q).
    assert (Z : (re (q i) - re (p i)) ^ 2 + (im (q i) - im (p i)) ^ 2 <= 0).
    { eapply Rle_trans; [apply (sumn_ge_term n (fun i => (re (q i) - re (p i)) ^ 2 + (im (q i) - im (p i)) ^ 2) i)|lra]; [intros j _; apply Rplus_le_le_0_compat; apply pow2_ge_0|exact Hi]. }
    pose proof (pow2_ge_0 (re (q i) - re (p i))) as Z1. pose proof (pow2_ge_0 (im (q i) - im (p i))) as Z2.
    apply c_eq; apply Rminus_diag_uniq, Rsqr_0_uniq; rewrite Rsqr_pow2; lra.
Qed.
(** Real arrays stored as complex arrays get the real result. *)
Theorem C64_agrees_with_real n (v alpha : nat -> R) i : (i < n)%nat -> v i <> 0 ->
  prox_l1_cplx (fun i => ofR (v i)) alpha i = Some (ofR (prox_l1 v alpha i)).
Proof.
  intros _ Hv. unfold prox_l1_cplx.
  assert (E : cabs (ofR (v i)) = Rabs (v i)).
  { unfold cabs, cabs2, ofR, re, im. cbn [fst snd]. replace (v i * v i + 0 * 0) with (Rsqr (v i)) by (unfold Rsqr; ring). apply sqrt_Rsqr_abs. }
  rewrite E. destruct (Req_EM_T (Rabs (v i)) 0) as [Q|Q]; [exfalso; apply (Rabs_no_R0 _ Hv Q)|]. f_equal. unfold prox_l1.
  assert (S : / Rabs (v i) * v i = sgn (v i)).
  { destruct (Rtotal_order (v i) 0) as [L|[L|L]]; [rewrite sgn_neg, Rabs_left by lra; field; lra|congruence|rewrite sgn_pos, Rabs_right by lra; field; lra]. }
  unfold cscal, ofR, re, im. cbn [fst snd]. f_equal; [rewrite S|]; ring.
Qed.
(** At a zero entry the result is NaN for every threshold, although the minimiser is 0. *)
Theorem C64_zero_refuted : forall v alpha i, v i = c0 -> prox_l1_cplx v alpha i = None.
Proof. intros v alpha i H. unfold prox_l1_cplx. destruct (Req_EM_T (cabs (v i)) 0) as [E|E]; [reflexivity|]. exfalso. apply E, cabs_0, H. Qed.
Example C64_ex : prox_l1_cplx (fun _ => (3, 4)) (fun _ => 1) 0 = Some (12 / 5, 16 / 5).
Proof.
  assert (E : cabs (3, 4) = 5).
  { unfold cabs, cabs2, re, im. cbn [fst snd]. replace (3 * 3 + 4 * 4) with (5 * 5) by ring. apply sqrt_square. lra. }
  unfold prox_l1_cplx. rewrite E. destruct (Req_EM_T 5 0) as [Q|Q]; [lra|]. f_equal. rewrite Rmax_left by lra. unfold cscal, re, im. cbn [fst snd]. f_equal; field.
Qed.
Print Assumptions C64_minimises. Print Assumptions C64_agrees_with_real. Print Assumptions C64_zero_refuted.
