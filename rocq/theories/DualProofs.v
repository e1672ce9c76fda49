(** Existence of a multiplier for the split problem min f(x) + g(z) subject to K x - z = c, when g is finite and Lipschitz:
    the multiplier is the limit of the multipliers of proximally regularised penalty problems. *)
Require Import Reals Lra Lia Arith FunctionalExtensionality.
Require Import Verif.RVec Verif.ProxModel Verif.AdmmModel Verif.AdmmSpec Verif.AdmmProofs Verif.AdmmConv Verif.Compact.
Require Import Verif.StepsModel Verif.StepsSpec Verif.StepsProofs Verif.CscTwoProofs Verif.LimitProofs Verif.LimitTwo.
Local Open Scope R_scope.
Local Notation vec := (nat -> R).

(** ** A sequence of vectors that are determined can be formed without any choice axiom *)
Lemma unique_vec N (P : nat -> vec -> Prop) : (forall k, exists w, P k w) ->
  (forall k w w', P k w -> P k w' -> forall i, (i < N)%nat -> w i = w' i) ->
  exists W : nat -> vec, forall k, exists w, P k w /\ forall i, (i < N)%nat -> W k i = w i.
Proof.
  intros He Hu. set (Q := fun (k i : nat) (t : R) => exists w, P k w /\ t <= (if (i <? N)%nat then w i else 0)).
  assert (Qw : forall k i w t, P k w -> Q k i t -> t <= (if (i <? N)%nat then w i else 0)).
  { intros k i w t Hw (w' & Hw' & Ht). destruct (Nat.ltb_spec i N) as [L|L]; [|exact Ht]. rewrite (Hu k w w' Hw Hw' i L). exact Ht. }
  assert (B : forall k i, bound (Q k i)).
  { intros k i. destruct (He k) as [w Hw]. exists (if (i <? N)%nat then w i else 0). intros t Ht. apply (Qw k i w t Hw Ht). }
  assert (Ne : forall k i, exists t, Q k i t).
  { intros k i. destruct (He k) as [w Hw]. exists (if (i <? N)%nat then w i else 0), w. split; [exact Hw|apply Rle_refl]. }
  exists (fun k i => proj1_sig (completeness (Q k i) (B k i) (Ne k i))). intros k. destruct (He k) as [w Hw]. exists w. split; [exact Hw|]. intros i Hi.
  destruct (completeness (Q k i) (B k i) (Ne k i)) as [v [U1 U2]]. cbn [proj1_sig].
  assert (Hv : forall t, Q k i t -> t <= w i). { intros t Ht. pose proof (Qw k i w t Hw Ht) as H. destruct (Nat.ltb_spec i N); [exact H|lia]. }
  apply Rle_antisym; [apply U2; intros t Ht; apply Hv; exact Ht|]. apply U1. exists w. split; [exact Hw|]. destruct (Nat.ltb_spec i N); [apply Rle_refl|lia].
Qed.

Lemma lip_head n m F : loc_lip n F -> loc_lip (n + m) F.
Proof.
  intros H r Hr. destruct (H r Hr) as (K & HK & HF). exists K. split; [exact HK|]. intros x y Hx Hy.
  eapply Rle_trans; [apply HF; intros i Hi; [apply Hx|apply Hy]; lia|]. apply Rmult_le_compat_l; [exact HK|]. unfold dist1. rewrite (sumn_split n m).
  assert (0 <= sumn m (fun i => Rabs (x (n + i)%nat - y (n + i)%nat))) by (apply sumn_nonneg; intros; apply Rabs_pos). lra.
Qed.
Lemma boxes_head n m D : boxes n D -> boxes (n + m) D.
Proof.
  intros H r Hr. destruct (H r Hr) as (lo & hi & Hlh & Hb).
  exists (fun i => if (i <? n)%nat then lo i else - r), (fun i => if (i <? n)%nat then hi i else r). split.
  - intros i _. destruct (Nat.ltb_spec i n); [apply Hlh; assumption|lra].
  - intros x. split.
    + intros Hx. assert (Bx : box n lo hi x). { intros i Hi. specialize (Hx i ltac:(lia)). cbv beta in Hx. destruct (Nat.ltb_spec i n); [exact Hx|lia]. }
      apply Hb in Bx. destruct Bx as [Dx Wx]. split; [exact Dx|]. intros i Hi. destruct (Nat.lt_ge_cases i n) as [L|L]; [apply Wx; exact L|].
      specialize (Hx i Hi). cbv beta in Hx. destruct (Nat.ltb_spec i n); [lia|]. apply Rabs_le. lra.
    + intros [Dx Wx] i Hi. destruct (Nat.ltb_spec i n) as [L|L].
      * assert (Bx : box n lo hi x) by (apply Hb; split; [exact Dx|intros j Hj; apply Wx; lia]). apply Bx. exact L.
      * pose proof (Wx i Hi) as W. unfold Rabs in W; destruct (Rcase_abs (x i)); lra.
Qed.
Lemma glob_lip m g Lg : 0 <= Lg -> (forall a b, Rabs (g a - g b) <= Lg * nrm m (fun i => a i - b i)) -> loc_lip m g.
Proof.
  intros HL H r Hr. exists Lg. split; [exact HL|]. intros x y _ _. eapply Rle_trans; [apply H|]. apply Rmult_le_compat_l; [exact HL|].
  unfold dist1. clear. induction m as [|m IH].
  - unfold nrm, nrm2, dot. cbn [sumn]. rewrite sqrt_0. lra.
  - cbn [sumn]. set (a := nrm m (fun i => x i - y i)) in *. set (b := Rabs (x m - y m)). pose proof (Rabs_pos (x m - y m)) as Pb. fold b in Pb.
    pose proof (nrm_nonneg m (fun i => x i - y i)) as Pa. fold a in Pa.
    apply Rle_trans with (a + b); [|lra]. unfold nrm. rewrite <- (sqrt_Rsqr (a + b)) by lra. apply sqrt_le_1; [apply nrm2_nonneg|apply Rle_0_sqr|].
    unfold nrm2, dot. cbn [sumn]. fold (dot m (fun i => x i - y i) (fun i => x i - y i)). fold (nrm2 m (fun i => x i - y i)).
    rewrite <- nrm_sqr. fold a. assert (b * b = (x m - y m) * (x m - y m)) as <-.
    { unfold b. rewrite <- Rabs_mult. apply Rabs_pos_eq. apply Rle_0_sqr. }
    unfold Rsqr. nra.
Qed.
Lemma abs_le_sq t : Rabs t <= t * t / 2 + / 2.
Proof. pose proof (Rle_0_sqr (Rabs t - 1)) as H. unfold Rsqr in H. assert (Rabs t * Rabs t = t * t) by (rewrite <- Rabs_mult; apply Rabs_pos_eq, Rle_0_sqr). lra. Qed.
Lemma abs_sum_le_sq n w : sumn n (fun i => Rabs (w i)) <= nrm2 n w / 2 + INR n / 2.
Proof.
  induction n as [|n IH]; [unfold nrm2, dot; cbn; lra|]. rewrite S_INR. unfold nrm2, dot in *. cbn [sumn]. pose proof (abs_le_sq (w n)). lra.
Qed.

Section dual.
Context (n m : nat) (K : vec -> vec) (c : vec) (D : vec -> Prop) (f g : vec -> R) (Lg : R) (p : vec).
Context (HK : linear_map K) (Kloc : local_map n K) (HDb : boxes n D) (HDc : closed n D).
Context (Cf : convex_on D f) (Cg : convex_on (fun _ => True) g) (Lf : loc_lip n f) (Pf : forall x, D x -> 0 <= f x) (Pg : forall y, 0 <= g y).
Context (HLg : 0 <= Lg) (Gl : forall a b, Rabs (g a - g b) <= Lg * nrm m (fun i => a i - b i)).
Context (Hp : argmin D (fun x => f x + g (fun i => K x i - c i)) p).

Let h (w : vec) : R := f w + g (block_sep1 n w).
Let eta (k : nat) : R := / (INR k + 1).
Let q (k : nat) : R := (INR k + 1) * (INR k + 1).
Let Ak (k : nat) (w : vec) (i : nat) : R := if (i <? n)%nat then eta k * w i else K w (i - n) - block_sep1 n w (i - n).
Let bk (k : nat) (i : nat) : R := if (i <? n)%nat then - (eta k * p i) else - c (i - n)%nat.
Let Pk (k : nat) (w : vec) : Prop := argmin D (fun w => h w + q k / 2 * nrm2 (n + m) (fun i => Ak k w i + bk k i)) w.

Lemma eta_pos k : 0 < eta k. Proof. unfold eta. apply Rinv_0_lt_compat. pose proof (pos_INR k). lra. Qed.
Lemma q_pos k : 1 <= q k. Proof. unfold q. pose proof (pos_INR k). nra. Qed.
Lemma q_eta k : q k * (eta k * eta k) = 1. Proof. unfold q, eta. pose proof (pos_INR k). field. lra. Qed.
Lemma K_seg x y t i : K (seg x y t) i = K x i + t * (K y i - K x i).
Proof.
  replace (seg x y t) with (fun i => (1 - t) * x i + t * y i) by (extensionality j; unfold seg; ring). rewrite HK. ring.
Qed.
Lemma h_convex : convex_on D h.
Proof.
  intros x y t Hx Hy Ht. destruct (Cf x y t Hx Hy Ht) as [H1 H2]. destruct (Cg (block_sep1 n x) (block_sep1 n y) t Logic.I Logic.I Ht) as [_ H3]. split; [exact H1|].
  unfold h. replace (block_sep1 n (seg x y t)) with (seg (block_sep1 n x) (block_sep1 n y) t) by reflexivity. lra.
Qed.
Lemma Ak_affine k : affine (n + m) (Ak k).
Proof.
  intros x y t i Hi. unfold Ak. destruct (i <? n)%nat; [unfold seg; ring|]. rewrite K_seg. unfold block_sep1, seg. ring.
Qed.
(** The penalty term, split. *)
Lemma pen_split k w : nrm2 (n + m) (fun i => Ak k w i + bk k i) = eta k * eta k * nrm2 n (fun i => w i - p i) + nrm2 m (fun i => K w i - block_sep1 n w i - c i).
Proof.
  unfold nrm2, dot. rewrite (sumn_split n m). f_equal.
  - rewrite <- sumn_scal. apply sumn_ext. intros i Hi. unfold Ak, bk. destruct (Nat.ltb_spec i n); [ring|lia].
  - apply sumn_ext. intros i Hi. unfold Ak, bk. destruct (Nat.ltb_spec (n + i) n); [lia|]. replace (n + i - n)%nat with i by lia. ring.
Qed.

Lemma K_sub x y i : K (fun j => x j - y j) i = K x i - K y i.
Proof. replace (fun j => x j - y j) with (fun j => 1 * x j + (-1) * y j) by (extensionality j; ring). rewrite HK. ring. Qed.
Lemma sq3 n0 (a b d : vec) : nrm2 n0 (fun i => a i + b i + d i) <= 3 * (nrm2 n0 a + nrm2 n0 b + nrm2 n0 d).
Proof.
  unfold nrm2, dot. rewrite <- !sumn_plus, <- sumn_scal. apply sumn_le. intros i Hi.
  pose proof (Rle_0_sqr (a i - b i)). pose proof (Rle_0_sqr (a i - d i)). pose proof (Rle_0_sqr (b i - d i)). unfold Rsqr in *. lra.
Qed.
Lemma nrm2_cat w : nrm2 (n + m) w = nrm2 n w + nrm2 m (block_sep1 n w).
Proof. unfold nrm2, dot. rewrite (sumn_split n m). reflexivity. Qed.
Lemma Pk_ex k : exists w, Pk k w.
Proof.
  destruct (linear_bounded n m K HK ltac:(intros; apply Kloc; assumption)) as (kap & Hk0 & Hkap).
  set (b0 := nrm2 m (fun i => K p i - c i)). set (b1 := 2 * nrm2 n p + 3 * b0). set (ka := 10 + 6 * kap).
  assert (Hka : 0 < ka) by (unfold ka; lra).
  apply (coercive_min (n + m) D _ (2 / ka) (2 / ka * (b1 / 2 + INR (n + m) / 2))).
  - apply boxes_head. exact HDb.
  - apply lip_plus; [apply lip_plus; [apply lip_head; exact Lf|apply lip_comp_tail; apply (glob_lip m g Lg HLg Gl)]|].
    apply lip_scal, lip_nrm2. intros i Hi. unfold Ak. destruct (Nat.ltb_spec i n) as [L|L].
    + apply lip_plus; [apply lip_scal, lip_coord; lia|apply lip_const].
    + apply (lip_ext_fun _ (fun w => K w (i - n)%nat + (-1) * w i + bk k i)).
      * intros w. unfold block_sep1. replace (n + (i - n))%nat with i by lia. ring.
      * apply lip_plus; [apply lip_plus; [|apply lip_scal, lip_coord; lia]|apply lip_const].
        apply lip_head. apply (lip_linear n m K (i - n) HK); [intros; apply Kloc; assumption|lia].
  - unfold Rdiv. apply Rmult_lt_0_compat; [lra|apply Rinv_0_lt_compat; exact Hka].
  - intros w Dw. rewrite pen_split. set (dx := nrm2 n (fun i => w i - p i)). set (dr := nrm2 m (fun i => K w i - block_sep1 n w i - c i)).
    assert (Pdx : 0 <= dx) by apply nrm2_nonneg. assert (Pdr : 0 <= dr) by apply nrm2_nonneg.
    replace (q k / 2 * (eta k * eta k * dx + dr)) with (q k * (eta k * eta k) * dx / 2 + q k / 2 * dr) by field. rewrite q_eta.
    pose proof (q_pos k) as Hq. assert (Hh : 0 <= h w) by (unfold h; pose proof (Pf w Dw); pose proof (Pg (block_sep1 n w)); lra).
    assert (Hr : dr / 2 <= q k / 2 * dr) by nra.
    enough (E : 2 / ka * sumn (n + m) (fun i => Rabs (w i)) <= 2 / ka * (ka / 2 * (dx / 2 + dr / 2) + (b1 / 2 + INR (n + m) / 2))).
    { replace (2 / ka * (ka / 2 * (dx / 2 + dr / 2) + (b1 / 2 + INR (n + m) / 2))) with (dx / 2 + dr / 2 + 2 / ka * (b1 / 2 + INR (n + m) / 2)) in E by (field; lra). lra. }
    apply Rmult_le_compat_l; [unfold Rdiv; apply Rmult_le_pos; [lra|left; apply Rinv_0_lt_compat; exact Hka]|].
    pose proof (abs_sum_le_sq (n + m) w) as Ha. rewrite nrm2_cat in Ha.
    assert (Hx : nrm2 n w <= 2 * dx + 2 * nrm2 n p).
    { unfold dx, nrm2, dot. rewrite <- !sumn_scal, <- sumn_plus. apply sumn_le. intros i Hi. pose proof (Rle_0_sqr (w i - 2 * p i)) as Q. unfold Rsqr in Q. lra. }
    assert (Hz : nrm2 m (block_sep1 n w) <= 3 * (dr + kap * dx + b0)).
    { rewrite (nrm2_ext m (block_sep1 n w) (fun i => - (K w i - block_sep1 n w i - c i) + K (fun j => w j - p j) i + (K p i - c i))) by (intros; rewrite K_sub; ring).
      eapply Rle_trans; [apply sq3|]. pose proof (Hkap (fun j => w j - p j)) as Q. cbv beta in Q. fold dx in Q. fold b0.
      replace (nrm2 m (fun i => - (K w i - block_sep1 n w i - c i))) with dr; [lra|]. unfold dr, nrm2, dot. apply sumn_ext. intros. ring. }
    unfold ka, b1. nra.
Qed.
Let vk (k : nat) (w : vec) (i : nat) : R := q k * (K w i - block_sep1 n w i - c i).
(** The optimality condition of the penalty problem. *)
Lemma Pk_vi k w : Pk k w -> D w /\ forall x z, D x ->
  0 <= f x + g z - f w - g (block_sep1 n w) + dot n (fun i => w i - p i) (fun i => x i - w i)
       + dot m (vk k w) (fun i => (K x i - z i) - (K w i - block_sep1 n w i)).
Proof.
  intros H. split; [apply H|]. intros x z Hx.
  pose proof (argmin_vi (n + m) D h (Ak k) (bk k) (q k) w h_convex (Ak_affine k) ltac:(pose proof (q_pos k); lra) H) as V.
  assert (Dxz : D (block_cat n x z)). { apply (closed_loc n D x _ HDc); [|exact Hx]. intros i Hi. rewrite cat_lt by exact Hi. reflexivity. }
  specialize (V _ Dxz).
  assert (H1 : h (block_cat n x z) = f x + g z).
  { unfold h. rewrite cat_sep1. f_equal. apply (lip_loc n f _ _ Lf). intros i Hi. apply cat_lt. exact Hi. }
  rewrite H1 in V. unfold h in V. eapply Rle_trans; [exact V|]. apply Req_le.
  assert (Q : q k * dot (n + m) (fun i => Ak k w i + bk k i) (fun i => Ak k (block_cat n x z) i - Ak k w i) =
    dot n (fun i => w i - p i) (fun i => x i - w i) + dot m (vk k w) (fun i => (K x i - z i) - (K w i - block_sep1 n w i))); [|lra].
  unfold dot. rewrite (sumn_split n m), Rmult_plus_distr_l, <- !sumn_scal. f_equal.
  - apply sumn_ext. intros i Hi. unfold Ak, bk. destruct (Nat.ltb_spec i n); [|lia]. rewrite cat_lt by exact Hi.
    replace (q k * ((eta k * w i + - (eta k * p i)) * (eta k * x i - eta k * w i))) with (q k * (eta k * eta k) * ((w i - p i) * (x i - w i))) by ring. rewrite q_eta. ring.
  - apply sumn_ext. intros i Hi. unfold Ak, bk, vk. destruct (Nat.ltb_spec (n + i) n); [lia|]. replace (n + i - n)%nat with i by lia.
    rewrite cat_sep1. rewrite (Kloc (block_cat n x z) x) by (intros; apply cat_lt; assumption). ring.
Qed.
Lemma Pk_unique k w w' : Pk k w -> Pk k w' -> forall i, (i < n + m)%nat -> w i = w' i.
Proof.
  intros H H'. pose proof (Pk_vi k w H) as [D1 V1]. pose proof (Pk_vi k w' H') as [D2 V2].
  specialize (V1 w' (block_sep1 n w') D2). specialize (V2 w (block_sep1 n w) D1).
  set (r := fun (w : vec) i => K w i - block_sep1 n w i) in *.
  assert (E : nrm2 n (fun i => w i - w' i) + q k * nrm2 m (fun i => r w i - r w' i) <= 0).
  { assert (E1 : dot n (fun i => w i - p i) (fun i => w' i - w i) + dot n (fun i => w' i - p i) (fun i => w i - w' i) = - nrm2 n (fun i => w i - w' i)).
    { unfold nrm2, dot. rewrite <- sumn_plus. rewrite <- (Rmult_1_l (sumn n (fun i => (w i - w' i) * (w i - w' i)))), Ropp_mult_distr_l, <- sumn_scal. apply sumn_ext. intros. ring. }
    assert (E2 : dot m (vk k w) (fun i => K w' i - block_sep1 n w' i - (K w i - block_sep1 n w i)) + dot m (vk k w') (fun i => K w i - block_sep1 n w i - (K w' i - block_sep1 n w' i))
      = - (q k * nrm2 m (fun i => r w i - r w' i))).
    { unfold nrm2, dot. rewrite <- sumn_plus, Ropp_mult_distr_l, <- sumn_scal. apply sumn_ext. intros. unfold vk, r. ring. }
    cbv beta in V1, V2. lra. }
  pose proof (nrm2_nonneg n (fun i => w i - w' i)) as N1. pose proof (nrm2_nonneg m (fun i => r w i - r w' i)) as N2. pose proof (q_pos k) as Hq.
  assert (Z1 : nrm2 n (fun i => w i - w' i) = 0) by nra. assert (Z2 : nrm2 m (fun i => r w i - r w' i) = 0) by nra.
  assert (X : forall i, (i < n)%nat -> w i = w' i). { intros i Hi. pose proof (nrm2_0 n (fun i => w i - w' i) Z1 i Hi) as Z. cbv beta in Z. lra. }
  intros i Hi. destruct (Nat.lt_ge_cases i n) as [L|L]; [apply X; exact L|].
  pose proof (nrm2_0 m (fun i => r w i - r w' i) Z2 (i - n)%nat ltac:(lia)) as Z. cbv beta in Z. unfold r, block_sep1 in Z. replace (n + (i - n))%nat with i in Z by lia.
  rewrite (Kloc w w' X) in Z. lra.
Qed.
(** The multipliers are bounded by the Lipschitz constant. *)
Lemma Pk_bound k w : Pk k w -> nrm m (vk k w) <= Lg.
Proof.
  intros H. pose proof (Pk_vi k w H) as [D1 V]. specialize (V w (fun i => block_sep1 n w i + vk k w i) D1).
  rewrite (dot_ext n _ _ (fun i => w i - p i) (fun _ => 0)) in V by (intros; reflexivity || ring).
  assert (Z : dot n (fun i => w i - p i) (fun _ => 0) = 0) by (unfold dot; apply sumn_0; intros; ring). rewrite Z in V.
  assert (E : dot m (vk k w) (fun i => K w i - (block_sep1 n w i + vk k w i) - (K w i - block_sep1 n w i)) = - nrm2 m (vk k w)).
  { unfold nrm2, dot. rewrite <- (Rmult_1_l (sumn m (fun i => vk k w i * vk k w i))), Ropp_mult_distr_l, <- sumn_scal. apply sumn_ext. intros. ring. }
  rewrite E in V. pose proof (Gl (fun i => block_sep1 n w i + vk k w i) (block_sep1 n w)) as G.
  rewrite (nrm_ext m _ (vk k w)) in G by (intros; ring). pose proof (Rle_abs (g (fun i => block_sep1 n w i + vk k w i) - g (block_sep1 n w))) as G'.
  rewrite <- nrm_sqr in V. pose proof (nrm_nonneg m (vk k w)) as N. set (a := nrm m (vk k w)) in *. destruct (Rle_dec a Lg) as [L|L]; [exact L|]. exfalso. nra.
Qed.
Lemma Pk_near k w : Pk k w -> nrm2 n (fun i => w i - p i) <= 2 * (Lg * Lg) * (eta k * eta k).
Proof.
  intros H. pose proof (Pk_vi k w H) as [D1 V]. specialize (V p (fun i => K p i - c i) (proj1 Hp)). pose proof (proj2 Hp w D1) as Ho. cbv beta in Ho.
  pose proof (Pk_bound k w H) as Hb. pose proof (nrm_nonneg m (vk k w)) as Nb. pose proof (Gl (fun i => K w i - c i) (block_sep1 n w)) as G.
  pose proof (Rle_abs (g (fun i => K w i - c i) - g (block_sep1 n w))) as G'.
  set (r := fun i => K w i - block_sep1 n w i - c i).
  assert (Ev : nrm m (vk k w) = q k * nrm m r). { rewrite (nrm_ext m (vk k w) (vscal (q k) r)) by reflexivity. rewrite nrm_scal. rewrite Rabs_pos_eq; [reflexivity|]. pose proof (q_pos k). lra. }
  rewrite (nrm_ext m _ r) in G by (intros; unfold r; ring).
  assert (E1 : dot n (fun i => w i - p i) (fun i => p i - w i) = - nrm2 n (fun i => w i - p i)).
  { unfold nrm2, dot. rewrite <- (Rmult_1_l (sumn n (fun i => (w i - p i) * (w i - p i)))), Ropp_mult_distr_l, <- sumn_scal. apply sumn_ext. intros. ring. }
  assert (E2 : dot m (vk k w) (fun i => K p i - (K p i - c i) - (K w i - block_sep1 n w i)) = - (q k * (nrm m r * nrm m r))).
  { rewrite nrm_sqr. unfold nrm2, dot. rewrite Ropp_mult_distr_l, <- sumn_scal. apply sumn_ext. intros. unfold vk, r. ring. }
  rewrite E1, E2 in V. rewrite Ev in Hb. pose proof (nrm_nonneg m r) as Nr. pose proof (q_pos k) as Hq. pose proof (q_eta k) as He. pose proof (eta_pos k) as Hep.
  assert (Hr : nrm m r <= Lg * (eta k * eta k)).
  { apply (Rmult_le_reg_l (q k)); [lra|]. replace (q k * (Lg * (eta k * eta k))) with (q k * (eta k * eta k) * Lg) by ring. rewrite He. lra. }
  set (a := nrm m r) in *. assert (Lg * a <= Lg * (Lg * (eta k * eta k))) by (apply Rmult_le_compat_l; assumption).
  assert (0 <= q k * (a * a)) by (apply Rmult_le_pos; [lra|apply Rle_0_sqr]). pose proof (Rle_0_sqr Lg). pose proof (Rle_0_sqr (eta k)). unfold Rsqr in *.
  assert (0 <= Lg * Lg * (eta k * eta k)) by (apply Rmult_le_pos; assumption). lra.
Qed.
Lemma eta_cv : Un_cv eta 0.
Proof. apply (cv_ext (fun k => / (INR k + 1))); [reflexivity|]. apply (cv_ext RinvN); [reflexivity|]. exact RinvN_cv. Qed.

Theorem multiplier_exists : exists v, forall x z, D x -> f p + g (fun i => K p i - c i) <= f x + g z + dot m v (fun i => K x i - z i - c i).
Proof.
  destruct (unique_vec (n + m) Pk Pk_ex Pk_unique) as [W HW].
  assert (Hk : forall k, D (W k) /\ (forall x z, D x ->
    0 <= f x + g z - f (W k) - g (block_sep1 n (W k)) + dot n (fun i => W k i - p i) (fun i => x i - W k i) + dot m (vk k (W k)) (fun i => (K x i - z i) - (K (W k) i - block_sep1 n (W k) i)))
    /\ nrm m (vk k (W k)) <= Lg /\ nrm2 n (fun i => W k i - p i) <= 2 * (Lg * Lg) * (eta k * eta k)).
  { intros k. destruct (HW k) as (w & Hw & E). assert (Pw : Pk k (W k)).
    { destruct Hw as [Dw Mw]. assert (Ex : forall i, (i < n)%nat -> w i = W k i) by (intros; symmetry; apply E; lia). split; [apply (closed_loc n D w _ HDc Ex Dw)|].
      intros x Hx. specialize (Mw x Hx). cbv beta in Mw |- *. eapply Rle_trans; [|exact Mw]. apply Req_le. unfold h. rewrite !pen_split.
      rewrite (lip_loc n f _ _ Lf Ex). rewrite (lip_loc m g (block_sep1 n w) (block_sep1 n (W k)) (glob_lip m g Lg HLg Gl)) by (intros; unfold block_sep1; symmetry; apply E; lia).
      f_equal. f_equal. f_equal; [f_equal|]; apply nrm2_ext; intros i Hi; [rewrite Ex by exact Hi; reflexivity|].
      rewrite (Kloc w (W k) Ex). unfold block_sep1. rewrite E by lia. reflexivity. }
    pose proof (Pk_vi k _ Pw) as [A B]. split; [exact A|]. split; [exact B|]. split; [apply Pk_bound; exact Pw|apply Pk_near; exact Pw]. }
  assert (Xcv : forall i, (i < n)%nat -> Un_cv (fun k => W k i) (p i)).
  { assert (N : Un_cv (fun k => nrm n (fun i => W k i - p i)) 0).
    { apply (cv_sqrt_0 (fun k => nrm2 n (fun i => W k i - p i))); [intros; apply nrm2_nonneg|].
      apply (squeeze_0 _ (fun k => 2 * (Lg * Lg) * (eta k * eta k)) O); [intros k _; split; [apply nrm2_nonneg|apply Hk]|].
      apply cv_scal_0. replace 0 with (0 * 0) by ring. apply CV_mult; exact eta_cv. }
    intros i Hi. pose proof (cv_nrm_coord n (fun k i => W k i - p i) N i Hi) as C. cbv beta in C.
    pose proof (CV_plus _ _ _ _ C (cv_const (p i))) as C'. rewrite Rplus_0_l in C'. exact (cv_ext _ _ _ (fun k => ltac:(ring) : W k i - p i + p i = W k i) C'). }
  destruct (bwn m (fun k => vk k (W k)) Lg) as (phi & v & Hphi & Hv).
  { intros k i Hi. eapply Rle_trans; [|apply (proj1 (proj2 (proj2 (Hk k))))]. rewrite <- sqrt_Rsqr_abs. unfold nrm. apply sqrt_le_1; [apply Rle_0_sqr|apply nrm2_nonneg|].
    unfold Rsqr, nrm2, dot. apply (sumn_ge_term m (fun i => vk k (W k) i * vk k (W k) i) i); [intros; apply Rle_0_sqr|exact Hi]. }
  exists v. intros x z Hx.
  (* z_k converges to K p - c *)
  assert (Kcv : forall i, (i < m)%nat -> Un_cv (fun k => K (W k) i) (K p i)).
  { intros i Hi. apply (lip_cv n (fun x => K x i) W p); [|exact Xcv]. apply (lip_linear n m K i HK); [intros; apply Kloc; assumption|exact Hi]. }
  assert (Rcv : forall i, (i < m)%nat -> Un_cv (fun k => K (W k) i - block_sep1 n (W k) i - c i) 0).
  { apply (cv_nrm_coord m (fun k i => K (W k) i - block_sep1 n (W k) i - c i)). apply (squeeze_0 _ (fun k => Lg * (eta k * eta k)) O).
    - intros k _. split; [apply nrm_nonneg|]. pose proof (proj1 (proj2 (proj2 (Hk k)))) as Hb.
      rewrite (nrm_ext m (vk k (W k)) (vscal (q k) (fun i => K (W k) i - block_sep1 n (W k) i - c i))) in Hb by reflexivity. rewrite nrm_scal, Rabs_pos_eq in Hb by (pose proof (q_pos k); lra).
      apply (Rmult_le_reg_l (q k)); [pose proof (q_pos k); lra|]. replace (q k * (Lg * (eta k * eta k))) with (q k * (eta k * eta k) * Lg) by ring. rewrite q_eta. lra.
    - apply cv_scal_0. replace 0 with (0 * 0) by ring. apply CV_mult; exact eta_cv. }
  assert (Zcv : forall i, (i < m)%nat -> Un_cv (fun k => block_sep1 n (W k) i) (K p i - c i)).
  { intros i Hi. apply (cv_ext (fun k => K (W k) i - (K (W k) i - block_sep1 n (W k) i - c i) - c i)); [intros; ring|].
    replace (K p i - c i) with (K p i - 0 - c i) by ring. apply CV_minus; [apply CV_minus; [apply Kcv; exact Hi|apply Rcv; exact Hi]|apply cv_const]. }
  set (Z := fun k => f x + g z - f (W (phi k)) - g (block_sep1 n (W (phi k))) + dot n (fun i => W (phi k) i - p i) (fun i => x i - W (phi k) i)
     + dot m (vk (phi k) (W (phi k))) (fun i => (K x i - z i) - (K (W (phi k)) i - block_sep1 n (W (phi k)) i))).
  assert (L : Un_cv Z (f x + g z - f p - g (fun i => K p i - c i) + dot n (fun i => 0) (fun i => x i - p i) + dot m v (fun i => (K x i - z i) - c i))).
  { unfold Z. apply CV_plus; [apply CV_plus; [apply CV_minus; [apply CV_minus; [apply cv_const|]|]|]|].
    - apply (cv_sub (fun k => f (W k)) (f p) phi); [|exact Hphi]. apply (lip_cv n f W p Lf Xcv).
    - apply (cv_sub (fun k => g (block_sep1 n (W k))) _ phi); [|exact Hphi]. apply (lip_cv m g (fun k => block_sep1 n (W k)) (fun i => K p i - c i) (glob_lip m g Lg HLg Gl) Zcv).
    - apply (cv_sub (fun k => dot n (fun i => W k i - p i) (fun i => x i - W k i)) _ phi); [|exact Hphi]. apply cv_dot; intros i Hi.
      + replace 0 with (p i - p i) by ring. apply CV_minus; [apply Xcv; exact Hi|apply cv_const].
      + apply CV_minus; [apply cv_const|apply Xcv; exact Hi].
    - apply (cv_dot m (fun k => vk (phi k) (W (phi k)))); [exact Hv|]. intros i Hi.
      apply (cv_sub (fun k => K x i - z i - (K (W k) i - block_sep1 n (W k) i)) _ phi); [|exact Hphi]. apply CV_minus; [apply cv_const|].
      pose proof (CV_plus _ _ _ _ (Rcv i Hi) (cv_const (c i))) as C'. rewrite Rplus_0_l in C'. exact (cv_ext _ _ _ (fun k => ltac:(ring) : K (W k) i - block_sep1 n (W k) i - c i + c i = K (W k) i - block_sep1 n (W k) i) C'). }
  assert (Q : 0 <= f x + g z - f p - g (fun i => K p i - c i) + dot n (fun i => 0) (fun i => x i - p i) + dot m v (fun i => (K x i - z i) - c i)).
  { apply (cv_le (fun _ => 0) Z); [|apply cv_const|exact L]. intros k. unfold Z. apply (proj1 (proj2 (Hk (phi k)))). exact Hx. }
  assert (Z0 : dot n (fun i => 0) (fun i => x i - p i) = 0) by (unfold dot; apply sumn_0; intros; ring). rewrite Z0 in Q. lra.
Qed.
End dual.
