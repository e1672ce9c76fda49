(** ADMM for min 1/2 || H x - s ||^2 + g(K x - c), split as K x - y = c, with g finite, convex and Lipschitz: stationary points are
    minimisers, and the iterates, the x variable included, converge to a minimiser when H and K have no common kernel. *)
Require Import Reals Lra Lia Arith FunctionalExtensionality.
Require Import Verif.RVec Verif.ProxModel Verif.AdmmModel Verif.AdmmSpec Verif.AdmmProofs Verif.AdmmConv Verif.AdmmProps Verif.Compact Verif.AdmmLimit.
Require Import Verif.StepsModel Verif.StepsSpec Verif.StepsProofs Verif.CscTwoProofs Verif.LimitProofs Verif.LimitTwo Verif.DualProofs.
Local Open Scope R_scope.
Local Notation vec := (nat -> R).

Lemma linear_affine m K : linear_map K -> affine m K.
Proof.
  intros HK x y t i _. replace (seg x y t) with (fun i => (1 - t) * x i + t * y i) by (extensionality j; unfold seg; ring). rewrite HK. ring.
Qed.
Lemma linear_sub L x y i : linear_map L -> L (fun j => x j - y j) i = L x i - L y i.
Proof. intros HL. replace (fun j => x j - y j) with (fun j => 1 * x j + (-1) * y j) by (extensionality j; ring). rewrite HL. ring. Qed.
Lemma lsq_mid m L s x y : linear_map L -> lsq m L s (seg x y (/ 2)) = / 2 * lsq m L s x + / 2 * lsq m L s y - / 8 * nrm2 m (fun i => L x i - L y i).
Proof.
  intros HL. unfold lsq, nrm2, dot. rewrite <- !sumn_scal, <- sumn_plus.
  replace (sumn m (fun i => / 2 * (/ 2 * ((L x i - s i) * (L x i - s i))) + / 2 * (/ 2 * ((L y i - s i) * (L y i - s i)))) - sumn m (fun i => / 8 * ((L x i - L y i) * (L x i - L y i))))
    with (sumn m (fun i => (/ 2 * (/ 2 * ((L x i - s i) * (L x i - s i))) + / 2 * (/ 2 * ((L y i - s i) * (L y i - s i)))) + (-1) * (/ 8 * ((L x i - L y i) * (L x i - L y i)))))
    by (rewrite sumn_plus, sumn_scal; ring).
  apply sumn_ext. intros i Hi. rewrite (linear_affine m L HL x y (/ 2) i Hi). field.
Qed.
Lemma lsq_convex m L s : linear_map L -> convex_on (fun _ => True) (lsq m L s).
Proof.
  intros HL x y t _ _ Ht. split; [exact I|]. unfold lsq, nrm2, dot.
  assert (Q : sumn m (fun i => (L (seg x y t) i - s i) * (L (seg x y t) i - s i)) <= sumn m (fun i => (1 - t) * ((L x i - s i) * (L x i - s i)) + t * ((L y i - s i) * (L y i - s i)))).
  { apply sumn_le. intros i Hi. rewrite (linear_affine m L HL x y t i Hi). pose proof (Rle_0_sqr (L x i - L y i)) as Q. unfold Rsqr in Q.
    assert (0 <= t * (1 - t) * ((L x i - L y i) * (L x i - L y i))) by (apply Rmult_le_pos; [apply Rmult_le_pos; lra|exact Q]). nra. }
  rewrite sumn_plus, !sumn_scal in Q. lra.
Qed.

Section split.
Context (n mh m : nat) (H : vec -> vec) (s : vec) (K : vec -> vec) (c : vec) (g : vec -> R) (Lg rlx rho : R) (xs ys : vec -> vec -> vec).
Context (HH : linear_map H) (Hloc : local_map n H) (HK : linear_map K) (Kloc : forall x y, (forall i, (i < n)%nat -> x i = y i) -> forall p, (p < m)%nat -> K x p = K y p).
Context (Cg : convex_on (fun _ => True) g) (Pg : forall y, 0 <= g y) (HLg : 0 <= Lg) (Gl : forall a b, Rabs (g a - g b) <= Lg * nrm m (fun i => a i - b i)).
Context (Hrho : 0 < rho).
Let f := lsq mh H s.
Definition split_obj (x : vec) : R := f x + g (fun i => K x i - c i).
Context (HX : forall y u, argmin (fun _ => True) (fun x => auglag m K eq_B c rho f g x y u) (xs y u)).
Context (HY : forall ax u, argmin (fun _ => True) (fun y => auglag m (fun _ => ax) eq_B c rho (fun _ => 0) g ax y u) (ys ax u)).

Lemma f_nonneg x : 0 <= f x. Proof. unfold f, lsq. pose proof (nrm2_nonneg mh (fun i => H x i - s i)). lra. Qed.
Lemma f_lip : loc_lip n f. Proof. apply (lip_lsq n mh H s HH). intros; apply Hloc; assumption. Qed.
Lemma g_lip : loc_lip m g. Proof. exact (glob_lip m g Lg HLg Gl). Qed.
Lemma eqB_affine : affine m eq_B. Proof. intros x y t i _. unfold eq_B, seg. ring. Qed.
Lemma gap_eq x y i : gap K eq_B c x y i = 0 <-> y i = K x i - c i. Proof. unfold gap, eq_B. split; lra. Qed.

Lemma saddle_argmin p y u : saddle m K eq_B c rho (fun _ => True) (fun _ => True) f g p y u -> argmin (fun _ => True) split_obj p /\ forall i, (i < m)%nat -> y i = K p i - c i.
Proof.
  intros [(_ & _ & G) S]. assert (Y : forall i, (i < m)%nat -> y i = K p i - c i) by (intros i Hi; apply gap_eq; apply G; exact Hi). split; [|exact Y].
  split; [exact I|]. intros x _. specialize (S x (fun i => K x i - c i) I I). unfold split_obj.
  assert (Z : dot m u (gap K eq_B c x (fun i => K x i - c i)) = 0) by (unfold dot; apply sumn_0; intros i Hi; unfold gap, eq_B; ring).
  rewrite Z in S. rewrite <- (lip_loc m g y (fun i => K p i - c i) g_lip Y). lra.
Qed.
Lemma argmin_saddle p : argmin (fun _ => True) split_obj p -> exists u, saddle m K eq_B c rho (fun _ => True) (fun _ => True) f g p (fun i => K p i - c i) u.
Proof.
  intros Hp. set (K' := fun x i => if Nat.ltb i m then K x i else 0).
  assert (EK : forall x i, (i < m)%nat -> K' x i = K x i) by (intros x i Hi; unfold K'; apply Nat.ltb_lt in Hi; rewrite Hi; reflexivity).
  assert (Eg : forall x, g (fun i => K' x i - c i) = g (fun i => K x i - c i)) by (intros x; apply (lip_loc m g _ _ g_lip); intros i Hi; rewrite EK by exact Hi; reflexivity).
  destruct (multiplier_exists n m K' c (fun _ => True) f g Lg p) as [v Hv0]; try assumption.
  { intros a x b y i. unfold K'. destruct (Nat.ltb i m); [apply HK|ring]. }
  { intros x y E i. unfold K'. destruct (Nat.ltb_spec i m) as [Hi|]; [apply Kloc; assumption|reflexivity]. }
  { apply boxes_true. }
  { apply closed_true. }
  { apply (lsq_convex mh H s HH). }
  { apply f_lip. }
  { intros x _. apply f_nonneg. }
  { destruct Hp as [_ Hp]. split; [exact I|]. intros x _. rewrite !Eg. apply Hp. exact I. }
  assert (Hv : forall x z, True -> f p + g (fun i => K p i - c i) <= f x + g z + dot m v (fun i => K x i - z i - c i)).
  { intros x z _. specialize (Hv0 x z I). rewrite Eg in Hv0. eapply Rle_trans; [exact Hv0|]. apply Req_le. f_equal. unfold dot. apply sumn_ext. intros i Hi. rewrite EK by exact Hi. reflexivity. }
  exists (fun i => / rho * v i). split.
  - split; [exact I|]. split; [exact I|]. intros i Hi. apply gap_eq. reflexivity.
  - intros x y _ _. specialize (Hv x y I). eapply Rle_trans; [exact Hv|]. apply Req_le. f_equal. unfold dot. rewrite <- sumn_scal. apply sumn_ext. intros i Hi. unfold gap, eq_B. field. lra.
Qed.
Theorem split_stationary st : rlx <> 0 -> let st' := iterate K eq_B c rlx xs ys 1 st in
  (forall i, (i < m)%nat -> sY st' i = sY st i) -> (forall i, (i < m)%nat -> sU st' i = sU st i) ->
  argmin (fun _ => True) split_obj (sX st') /\ forall i, (i < m)%nat -> sY st' i = K (sX st') i - c i.
Proof.
  intros Hr st' H1 H2. apply (saddle_argmin _ _ (sU st')).
  apply (C36_stationary_optimal m K eq_B c rlx rho (fun _ => True) (fun _ => True) f g xs ys (linear_affine m K HK) eqB_affine (lsq_convex mh H s HH) Cg Hrho HX HY st Hr); [|exact H2].
  intros i Hi. unfold eq_B. f_equal. apply H1. exact Hi.
Qed.

Context (kap : R) (Hkap : 0 <= kap) (Hinj : forall x, nrm2 n x <= kap * (nrm2 mh (H x) + nrm2 m (K x))).

Lemma nrm2_tri k (a b : vec) : nrm2 k a <= 2 * nrm2 k (fun i => a i - b i) + 2 * nrm2 k b.
Proof. unfold nrm2, dot. rewrite <- !sumn_scal, <- sumn_plus. apply sumn_le. intros i Hi. pose proof (Rle_0_sqr (a i - 2 * b i)) as Q. unfold Rsqr in Q. lra. Qed.
Lemma split_closed : forall (x y : nat -> nat -> R) (l : nat -> R) v, (forall k, (fun _ => True) (x k)) -> (forall k, (fun _ => True) (y k)) ->
  (forall i, (i < m)%nat -> Un_cv (fun k => y k i) (l i)) -> (forall i, (i < m)%nat -> Un_cv (fun k => gap K eq_B c (x k) (y k) i) 0) ->
  Un_cv (fun k => f (x k) + g (y k)) v -> exists p, feasible m K eq_B c (fun _ => True) (fun _ => True) p l /\ f p + g l <= v.
Proof.
  intros x y l v _ _ Cy Cgap Cv.
  assert (CK : forall i, (i < m)%nat -> Un_cv (fun k => K (x k) i) (l i + c i)).
  { intros i Hi. pose proof (CV_plus _ _ _ _ (CV_plus _ _ _ _ (Cgap i Hi) (Cy i Hi)) (cv_const (c i))) as Q. rewrite Rplus_0_l in Q. revert Q. apply cv_ext. intros k. unfold gap, eq_B. ring. }
  assert (Cgy : Un_cv (fun k => g (y k)) (g l)) by (apply (lip_cv m g y l g_lip Cy)).
  assert (Cfx : Un_cv (fun k => f (x k)) (v - g l)) by (pose proof (CV_minus _ _ _ _ Cv Cgy) as Q; revert Q; apply cv_ext; intros; ring).
  destruct (cv_bounded _ _ Cfx) as (bf & Hbf & Bf).
  destruct (cv_within m (fun k => K (x k)) _ CK) as (rk & Hrk & Bk & _).
  set (bx := kap * (4 * bf + 2 * nrm2 mh s + INR m * (rk * rk))).
  assert (Bx : forall k, nrm2 n (x k) <= bx).
  { intros k. eapply Rle_trans; [apply Hinj|]. unfold bx. apply Rmult_le_compat_l; [exact Hkap|].
    assert (E1 : nrm2 mh (H (x k)) <= 4 * bf + 2 * nrm2 mh s).
    { eapply Rle_trans; [apply (nrm2_tri mh (H (x k)) s)|]. specialize (Bf k). pose proof (Rle_abs (f (x k))) as Q. unfold f, lsq in Q, Bf. lra. }
    assert (E2 : nrm2 m (K (x k)) <= INR m * (rk * rk)).
    { unfold nrm2, dot. rewrite <- sumn_const. apply sumn_le. intros i Hi. specialize (Bk k i Hi). pose proof (Rabs_pos (K (x k) i)) as Q.
      rewrite <- (Rabs_pos_eq (K (x k) i * K (x k) i)) by apply Rle_0_sqr. rewrite Rabs_mult. apply Rmult_le_compat; assumption. }
    lra. }
  destruct (bwn n x (1 + bx)) as (phi & p & Hphi & Hp).
  { intros k i Hi. apply abs_of_sq; [|eapply Rle_trans; [apply (coord_sq n (x k) i Hi)|apply Bx]]. pose proof (nrm2_nonneg n (x k)). specialize (Bx k). lra. }
  exists p. split.
  - split; [exact I|]. split; [exact I|]. intros i Hi. unfold gap, eq_B.
    assert (CKp : Un_cv (fun k => K (x (phi k)) i) (K p i)) by (apply (lip_cv n (fun x => K x i) (fun k => x (phi k)) p); [apply (lip_linear n m K i HK); [intros; apply Kloc; assumption|exact Hi]|exact Hp]).
    pose proof (UL_sequence _ _ _ CKp (cv_sub (fun k => K (x k) i) _ phi (CK i Hi) Hphi)) as Q. lra.
  - pose proof (UL_sequence _ _ _ (lip_cv n f (fun k => x (phi k)) p f_lip Hp) (cv_sub (fun k => f (x k)) _ phi Cfx Hphi)) as Q. lra.
Qed.

Theorem split_limit st : 0 < rlx < 2 -> (exists p, argmin (fun _ => True) split_obj p) -> let it k := iterate K eq_B c rlx xs ys k st in
  exists p, argmin (fun _ => True) split_obj p /\ (forall i, (i < n)%nat -> Un_cv (fun k => sX (it k) i) (p i)) /\ (forall i, (i < m)%nat -> Un_cv (fun k => sY (it k) i) (K p i - c i)).
Proof.
  intros Hr [p0 Hp0] it0. destruct (argmin_saddle p0 Hp0) as [u0 S0].
  destruct (iterates_converge m K eq_B c rlx rho (fun _ => True) (fun _ => True) f g xs ys (linear_affine m K HK) (fun y i => eq_refl) (lsq_convex mh H s HH) Cg Hrho HX HY
     split_closed Hr st _ _ _ S0) as (p & l & u & S & Cy & Cu).
  fold it0 in Cy. assert (Cy' : forall i, (i < m)%nat -> Un_cv (fun k => sY (it0 k) i) (l i)) by exact Cy. clear Cy.
  destruct (saddle_argmin _ _ _ S) as [Ap Yl]. exists p. split; [exact Ap|]. split; [|intros i Hi; rewrite <- (Yl i Hi); apply Cy'; exact Hi].
  destruct (C38_convergence m K eq_B c rlx rho (fun _ => True) (fun _ => True) f g xs ys (linear_affine m K HK) eqB_affine (lsq_convex mh H s HH) Cg Hrho HX HY st _ _ _ Hr S) as (Pr & _ & Ob).
  fold it0 in Pr, Ob. assert (Pr' : Un_cv (fun k => nrm m (rsdl_r eq_B c (K (sX (it0 k))) (sY (it0 k)))) 0) by exact Pr.
  assert (Ob' : Un_cv (fun k => f (sX (it0 k)) + g (sY (it0 k))) (f p + g l)) by exact Ob. clear Pr Ob.
  assert (CK : forall i, (i < m)%nat -> Un_cv (fun k => K (sX (it0 k)) i) (K p i)).
  { intros i Hi. pose proof (CV_plus _ _ _ _ (CV_plus _ _ _ _ (cv_nrm_coord m (fun k => rsdl_r eq_B c (K (sX (it0 k))) (sY (it0 k))) Pr' i Hi) (Cy' i Hi)) (cv_const (c i))) as Q.
    rewrite Rplus_0_l, (Yl i Hi) in Q. replace (K p i - c i + c i) with (K p i) in Q by ring. revert Q. apply cv_ext. intros k. unfold rsdl_r, eq_B. ring. }
  assert (Cf : Un_cv (fun k => f (sX (it0 k))) (f p)).
  { pose proof (CV_minus _ _ _ _ Ob' (lip_cv m g (fun k => sY (it0 k)) l g_lip Cy')) as Q. replace (f p + g l - g l) with (f p) in Q by ring. revert Q. apply cv_ext. intros k. ring. }
  assert (CKd : Un_cv (fun k => dot m u (fun i => K (sX (it0 k)) i - K p i)) 0).
  { assert (Z : dot m u (fun i => K p i - K p i) = 0) by (unfold dot; apply sumn_0; intros; ring). rewrite <- Z. apply (cv_dot m (fun _ => u)); intros i Hi; [apply cv_const|]. apply CV_minus; [apply CK; exact Hi|apply cv_const]. }
  assert (Hh : Un_cv (fun k => nrm2 mh (fun i => H (sX (it0 k)) i - H p i)) 0).
  { apply (squeeze_0 _ (fun k => 4 * (f (sX (it0 k)) - f p) + 4 * rho * dot m u (fun i => K (sX (it0 k)) i - K p i)) O).
    - intros k _. split; [apply nrm2_nonneg|]. destruct S as [(_ & _ & G) Sm]. specialize (Sm (seg (sX (it0 k)) p (/ 2)) l I I). unfold f in Sm at 2. rewrite (lsq_mid mh H s _ _ HH) in Sm. fold f in Sm.
      assert (E : dot m u (gap K eq_B c (seg (sX (it0 k)) p (/ 2)) l) = / 2 * dot m u (fun i => K (sX (it0 k)) i - K p i)).
      { unfold dot. rewrite <- sumn_scal. apply sumn_ext. intros i Hi. specialize (G i Hi). unfold gap in *. rewrite (linear_affine m K HK _ _ _ i Hi).
        replace (K (sX (it0 k)) i + / 2 * (K p i - K (sX (it0 k)) i) + eq_B l i - c i) with (/ 2 * (K (sX (it0 k)) i - K p i) + (K p i + eq_B l i - c i)) by field. rewrite G. field. }
      rewrite E in Sm. lra.
    - assert (Cf0 : Un_cv (fun k => f (sX (it0 k)) - f p) 0) by (pose proof (CV_minus _ _ _ _ Cf (cv_const (f p))) as Q; rewrite Rminus_diag_eq in Q by reflexivity; exact Q).
      assert (C1 : Un_cv (fun k => 4 * (f (sX (it0 k)) - f p)) 0) by (apply cv_scal_0; exact Cf0).
      assert (C2 : Un_cv (fun k => 4 * rho * dot m u (fun i => K (sX (it0 k)) i - K p i)) 0) by (apply cv_scal_0; exact CKd).
      pose proof (CV_plus _ _ _ _ C1 C2) as Q.
      rewrite Rplus_0_l in Q. exact Q. }
  assert (Hk2 : Un_cv (fun k => nrm2 m (fun i => K (sX (it0 k)) i - K p i)) 0) by (apply (cv_coord_nrm2 m (fun k => K (sX (it0 k))) (K p)); exact CK).
  assert (N : Un_cv (fun k => nrm n (fun i => sX (it0 k) i - p i)) 0).
  { apply (cv_sqrt_0 (fun k => nrm2 n (fun i => sX (it0 k) i - p i))); [intros; apply nrm2_nonneg|].
    apply (squeeze_0 _ (fun k => kap * (nrm2 mh (fun i => H (sX (it0 k)) i - H p i) + nrm2 m (fun i => K (sX (it0 k)) i - K p i))) O).
    - intros k _. split; [apply nrm2_nonneg|]. eapply Rle_trans; [apply Hinj|]. apply Req_le. f_equal. f_equal; apply nrm2_ext; intros i _; apply linear_sub; assumption.
    - apply cv_scal_0. pose proof (CV_plus _ _ _ _ Hh Hk2) as Q. rewrite Rplus_0_l in Q. exact Q. }
  intros i Hi. pose proof (CV_plus _ _ _ _ (cv_nrm_coord n (fun k i => sX (it0 k) i - p i) N i Hi) (cv_const (p i))) as Q. rewrite Rplus_0_l in Q. revert Q. apply cv_ext. intros k. ring.
Qed.

Lemma abs_le_nrm k (x : vec) i : (i < k)%nat -> Rabs (x i) <= nrm k x.
Proof.
  intros Hi. rewrite <- sqrt_Rsqr_abs. unfold nrm. apply sqrt_le_1; [apply Rle_0_sqr|apply nrm2_nonneg|]. unfold Rsqr. apply (coord_sq k x i Hi).
Qed.
Theorem split_exists a b : 0 < a -> (forall y, a * sumn m (fun i => Rabs (y i)) - b <= g y) -> exists p, argmin (fun _ => True) split_obj p.
Proof.
  intros Ha Hc. set (cs := sumn m (fun i => Rabs (c i))). set (ka := kap + 1).
  assert (Bound : forall x, nrm2 n x <= 2 * kap * (2 * nrm2 mh s + 4 * f x) + 2 * kap * ((sumn m (fun i => Rabs (K x i - c i)) + cs) * (sumn m (fun i => Rabs (K x i - c i)) + cs))).
  { intros x. eapply Rle_trans; [apply Hinj|]. set (t := sumn m (fun i => Rabs (K x i - c i)) + cs).
    assert (E1 : nrm2 mh (H x) <= 2 * nrm2 mh s + 4 * f x) by (pose proof (nrm2_tri mh (H x) s) as Q; unfold f, lsq; lra).
    assert (E0 : nrm m (K x) <= t).
    { apply Rle_trans with (sumn m (fun i => Rabs (K x i))).
      - clear. induction m as [|k IH]; [unfold nrm, nrm2, dot; cbn [sumn]; rewrite sqrt_0; lra|]. cbn [sumn].
        set (z := K x) in *. pose proof (nrm_nonneg k z) as P1. pose proof (Rabs_pos (z k)) as P2. apply Rle_trans with (nrm k z + Rabs (z k)); [|lra].
        unfold nrm at 1. rewrite <- (sqrt_Rsqr (nrm k z + Rabs (z k))) by lra. apply sqrt_le_1; [apply nrm2_nonneg|apply Rle_0_sqr|].
        assert (E : nrm2 (S k) z = nrm k z * nrm k z + Rabs (z k) * Rabs (z k)).
        { rewrite nrm_sqr. unfold nrm2, dot. cbn [sumn]. f_equal. rewrite <- Rabs_mult. symmetry. apply Rabs_pos_eq. apply Rle_0_sqr. }
        rewrite E. unfold Rsqr. nra.
      - unfold t, cs. rewrite <- sumn_plus. apply sumn_le. intros i Hi. replace (K x i) with ((K x i - c i) + c i) at 1 by ring. apply Rabs_triang. }
    assert (E2 : nrm2 m (K x) <= t * t) by (rewrite <- nrm_sqr; pose proof (nrm_nonneg m (K x)); apply Rmult_le_compat; assumption).
    pose proof (nrm2_nonneg mh s). pose proof (f_nonneg x). pose proof (Rle_0_sqr t) as Q. unfold Rsqr in Q.
    apply Rle_trans with (kap * (2 * nrm2 mh s + 4 * f x + t * t)); [apply Rmult_le_compat_l; [exact Hkap|lra]|].
    assert (0 <= kap * (2 * nrm2 mh s + 4 * f x)) by (apply Rmult_le_pos; [exact Hkap|lra]). assert (0 <= kap * (t * t)) by (apply Rmult_le_pos; assumption). lra. }
  (* a linear lower bound *)
  set (w := 2 * kap * (2 * nrm2 mh s) + 8 * kap * kap).
  assert (Hw : 0 <= w) by (unfold w; pose proof (nrm2_nonneg mh s); pose proof (Rmult_le_pos _ _ Hkap Hkap); pose proof (Rmult_le_pos _ _ Hkap (nrm2_nonneg mh s)); lra).
  set (q := INR n * (2 + 2 * ka)). assert (Hq : 0 <= q) by (unfold q, ka; pose proof (pos_INR n); apply Rmult_le_pos; lra).
  assert (Lin : forall x, sumn n (fun i => Rabs (x i)) <= q * (f x + sumn m (fun i => Rabs (K x i - c i)) + (cs + w + 1))).
  { intros x. set (t := sumn m (fun i => Rabs (K x i - c i))).
    assert (Pt : 0 <= t) by (apply sumn_nonneg; intros; apply Rabs_pos). assert (Pc : 0 <= cs) by (apply sumn_nonneg; intros; apply Rabs_pos). pose proof (f_nonneg x) as Pf0.
    assert (N : nrm n x <= (2 + 2 * ka) * (f x + t + (cs + w + 1))).
    { set (z := (2 + 2 * ka) * (f x + t + (cs + w + 1))). assert (Pz : 0 <= z) by (unfold z, ka; apply Rmult_le_pos; lra).
      unfold nrm. rewrite <- (sqrt_Rsqr z Pz). apply sqrt_le_1; [apply nrm2_nonneg|apply Rle_0_sqr|]. eapply Rle_trans; [apply Bound|]. fold t.
      set (r := f x + t + (cs + w + 1)). assert (Hr : 1 <= r) by (unfold r; lra).
      assert (Z : Rsqr z = (2 + 2 * ka) * (2 + 2 * ka) * (r * r)) by (unfold Rsqr, z; fold r; ring). rewrite Z.
      assert (T1 : (t + cs) * (t + cs) <= r * r) by (apply Rmult_le_compat; unfold r; lra).
      assert (T2 : 2 * nrm2 mh s * (2 * kap) <= r * r) by (assert (2 * nrm2 mh s * (2 * kap) <= r) by (unfold r, w; pose proof (Rmult_le_pos _ _ Hkap Hkap); lra); nra).
      assert (T3 : f x <= r * r) by (assert (f x <= r) by (unfold r; lra); nra).
      assert (Pr : 0 <= r * r) by nra.
      assert (U1 : 2 * kap * ((t + cs) * (t + cs)) <= 2 * kap * (r * r)) by (apply Rmult_le_compat_l; lra).
      assert (U3 : 8 * kap * f x <= 8 * kap * (r * r)) by (apply Rmult_le_compat_l; lra).
      assert (U4 : (1 + 10 * kap) * (r * r) <= (2 + 2 * ka) * (2 + 2 * ka) * (r * r)) by (apply Rmult_le_compat_r; [exact Pr|unfold ka; nra]). lra. }
    apply Rle_trans with (sumn n (fun _ => nrm n x)); [apply sumn_le; intros i Hi; apply abs_le_nrm; exact Hi|]. rewrite sumn_const. unfold q. rewrite Rmult_assoc. apply Rmult_le_compat_l; [apply pos_INR|exact N]. }
  set (A := (q + 1) * (1 + / a)). assert (Pa : 0 < / a) by (apply Rinv_0_lt_compat; exact Ha). assert (PA : 0 < A) by (unfold A; apply Rmult_lt_0_compat; lra).
  apply (coercive_min n (fun _ => True) split_obj (/ A) (b + / A * ((q + 1) * (cs + w + 1)))).
  - apply boxes_true.
  - unfold split_obj. apply lip_plus; [exact f_lip|]. intros r Hr.
    destruct (linear_bounded n m K HK ltac:(intros; apply Kloc; assumption)) as (k2 & Hk2 & Bk). exists (Lg * (1 + k2)). split; [apply Rmult_le_pos; lra|]. intros x y _ _.
    eapply Rle_trans; [apply Gl|]. rewrite Rmult_assoc. apply Rmult_le_compat_l; [exact HLg|].
    rewrite (nrm_ext m _ (K (fun i => x i - y i))) by (intros; rewrite linear_sub by exact HK; ring).
    set (d := dist1 n x y). assert (Pd : 0 <= d) by apply dist1_nonneg. unfold nrm. rewrite <- (sqrt_Rsqr ((1 + k2) * d)) by (apply Rmult_le_pos; lra).
    apply sqrt_le_1; [apply nrm2_nonneg|apply Rle_0_sqr|]. eapply Rle_trans; [apply Bk|].
    assert (E : nrm2 n (fun i => x i - y i) <= d * d).
    { unfold d, dist1. clear. induction n as [|k IH]; [unfold nrm2, dot; cbn; lra|]. unfold nrm2, dot in *. cbn [sumn]. set (q := sumn k (fun i => Rabs (x i - y i))) in *.
      assert (0 <= q) by (apply sumn_nonneg; intros; apply Rabs_pos). pose proof (Rabs_pos (x k - y k)) as P.
      assert (Rabs (x k - y k) * Rabs (x k - y k) = (x k - y k) * (x k - y k)) by (rewrite <- Rabs_mult; apply Rabs_pos_eq; apply Rle_0_sqr). nra. }
    unfold Rsqr. assert (0 <= d * d) by nra. apply Rle_trans with (k2 * (d * d)); [apply Rmult_le_compat_l; assumption|]. nra.
  - apply Rinv_0_lt_compat. exact PA.
  - intros x _. specialize (Lin x). specialize (Hc (fun i => K x i - c i)). cbv beta in Hc. unfold split_obj. set (t := sumn m (fun i => Rabs (K x i - c i))) in *. pose proof (f_nonneg x) as P0.
    assert (Pt : 0 <= t) by (apply sumn_nonneg; intros; apply Rabs_pos). assert (Pc : 0 <= cs) by (apply sumn_nonneg; intros; apply Rabs_pos).
    enough (E : / A * sumn n (fun i => Rabs (x i)) <= / A * (A * (f x + a * t) + (q + 1) * (cs + w + 1))).
    { rewrite Rmult_plus_distr_l, <- Rmult_assoc, Rinv_l in E by lra. lra. }
    apply Rmult_le_compat_l; [left; apply Rinv_0_lt_compat; exact PA|]. eapply Rle_trans; [exact Lin|].
    assert (E1 : f x + t <= (1 + / a) * (f x + a * t)).
    { replace ((1 + / a) * (f x + a * t)) with (f x + a * t + / a * f x + t) by (field; lra). assert (0 <= / a * f x) by (apply Rmult_le_pos; lra). assert (0 <= a * t) by (apply Rmult_le_pos; lra). lra. }
    unfold A. replace ((q + 1) * (1 + / a) * (f x + a * t) + (q + 1) * (cs + w + 1)) with ((q + 1) * ((1 + / a) * (f x + a * t) + (cs + w + 1))) by ring.
    apply Rmult_le_compat; [exact Hq|lra|lra|lra].
Qed.
End split.
