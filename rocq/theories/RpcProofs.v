(** ADMM for min f(x) + g(y), x + y = c with f and g finite and convex: convergence of both variables; properties of the nuclear norm. *)
Require Import Reals Lra Lia Arith Bool FunctionalExtensionality.
Require Import Verif.RVec Verif.ProxModel Verif.NucModel Verif.NucSpec Verif.NucProofs.
Require Import Verif.AdmmModel Verif.AdmmSpec Verif.AdmmProofs Verif.AdmmConv Verif.AdmmProps Verif.Compact Verif.AdmmLimit.
Require Import Verif.StepsModel Verif.StepsSpec Verif.StepsProofs Verif.StepsProofs2 Verif.LimitProofs Verif.LimitTwo Verif.DualProofs.
Local Open Scope R_scope.
Local Notation vec := (nat -> R).

(** ** x + y = c *)
Section sum.
Context (m : nat) (c : vec) (f g : vec -> R) (Lg rlx rho : R) (xs ys : vec -> vec -> vec).
Context (Cf : convex_on (fun _ => True) f) (Lf : loc_lip m f) (Pf : forall x, 0 <= f x).
Context (Cg : convex_on (fun _ => True) g) (Pg : forall y, 0 <= g y) (HLg : 0 <= Lg) (Gl : forall a b, Rabs (g a - g b) <= Lg * nrm m (fun i => a i - b i)).
Context (Hrho : 0 < rho).
Context (HX : forall y u, argmin (fun _ => True) (fun x => auglag m rpca_id rpca_id c rho f g x y u) (xs y u)).
Context (HY : forall ax u, argmin (fun _ => True) (fun y => auglag m (fun _ => ax) rpca_id c rho (fun _ => 0) g ax y u) (ys ax u)).
Definition sum_obj (x : vec) : R := f x + g (fun i => c i - x i).

(** The same iteration in terms of - y. *)
Let neg (y : vec) : vec := fun i => - y i.
Let g' (y : vec) : R := g (neg y).
Let xs' (y u : vec) : vec := xs (neg y) u.
Let ys' (ax u : vec) : vec := neg (ys ax u).
Let flip (st : state) : state := mkState (sX st) (neg (sY st)) (sU st) (neg (sYprev st)).
Lemma neg_neg y : neg (neg y) = y. Proof. extensionality i. unfold neg. ring. Qed.
Lemma flip_iterate st : forall k, iterate eq_A eq_B c rlx xs' ys' k (flip st) = flip (iterate rpca_id rpca_id c rlx xs ys k st).
Proof.
  induction k as [|k IH]; [reflexivity|]. cbn [iterate]. rewrite IH. set (s := iterate rpca_id rpca_id c rlx xs ys k st).
  unfold iteration, flip. cbn [sX sY sU sYprev]. unfold xs'. rewrite neg_neg.
  assert (R : relax_AX eq_A eq_B c rlx (xs (sY s) (sU s)) (neg (sY s)) = relax_AX rpca_id rpca_id c rlx (xs (sY s) (sU s)) (sY s)).
  { unfold relax_AX. destruct (Req_EM_T rlx 1); [reflexivity|]. extensionality i. unfold eq_A, eq_B, rpca_id, neg. ring. }
  rewrite !R. f_equal. extensionality i. unfold ustep, rsdl_r, eq_B, ys', rpca_id, neg. cbv beta. rewrite Ropp_involutive. reflexivity.
Qed.
Lemma HX' : forall y u, argmin (fun _ => True) (fun x => auglag m eq_A eq_B c rho f g' x y u) (xs' y u).
Proof.
  intros y u. split; [exact I|]. intros x _. destruct (HX (neg y) u) as [_ Q]. exact (Q x I).
Qed.
Lemma HY' : forall ax u, argmin (fun _ => True) (fun y => auglag m (fun _ => ax) eq_B c rho (fun _ => 0) g' ax y u) (ys' ax u).
Proof.
  intros ax u. split; [exact I|]. intros y _. destruct (HY ax u) as [_ Q]. specialize (Q (neg y) I). unfold auglag, g', ys' in *. rewrite neg_neg.
  rewrite (nrm2_ext m (fun i => ax i + eq_B (neg (ys ax u)) i - c i + u i) (fun i => ax i + rpca_id (ys ax u) i - c i + u i)) by (intros; unfold eq_B, rpca_id, neg; ring). exact Q.
Qed.
Lemma Cg' : convex_on (fun _ => True) g'.
Proof.
  intros x y t _ _ Ht. split; [exact I|]. unfold g'. destruct (Cg (neg x) (neg y) t I I Ht) as [_ Q]. replace (neg (seg x y t)) with (seg (neg x) (neg y) t); [exact Q|].
  extensionality i. unfold seg, neg. ring.
Qed.
Lemma Gl' a b : Rabs (g' a - g' b) <= Lg * nrm m (fun i => a i - b i).
Proof.
  unfold g'. eapply Rle_trans; [apply Gl|]. apply Rmult_le_compat_l; [exact HLg|]. apply Req_le. unfold nrm. f_equal. unfold nrm2, dot. apply sumn_ext. intros. unfold neg. ring.
Qed.
Lemma obj_eq x : f x + g' (fun i => x i - c i) = sum_obj x.
Proof. unfold sum_obj, g', neg. do 2 f_equal. extensionality i. ring. Qed.
Lemma eqA_aff : affine m eq_A. Proof. intros x y t i _. reflexivity. Qed.
Lemma sum_closed : forall (x y : nat -> nat -> R) (l : nat -> R) v, (forall k, (fun _ => True) (x k)) -> (forall k, (fun _ => True) (y k)) ->
  (forall i, (i < m)%nat -> Un_cv (fun k => y k i) (l i)) -> (forall i, (i < m)%nat -> Un_cv (fun k => gap eq_A eq_B c (x k) (y k) i) 0) ->
  Un_cv (fun k => f (x k) + g' (y k)) v -> exists p, feasible m eq_A eq_B c (fun _ => True) (fun _ => True) p l /\ f p + g' l <= v.
Proof.
  intros x y l v _ _ Cy Cgap Cv. exists (fun i => l i + c i).
  assert (CX : forall i, (i < m)%nat -> Un_cv (fun k => x k i) (l i + c i)).
  { intros i Hi. pose proof (CV_plus _ _ _ _ (CV_plus _ _ _ _ (Cgap i Hi) (Cy i Hi)) (cv_const (c i))) as Q. rewrite Rplus_0_l in Q. revert Q. apply cv_ext. intros k. unfold gap, eq_A, eq_B. ring. }
  split; [split; [exact I|split; [exact I|]]; intros i Hi; unfold gap, eq_A, eq_B; ring|].
  pose proof (CV_plus _ _ _ _ (lip_cv m f x _ Lf CX) (lip_cv m g' y l (glob_lip m g' Lg HLg Gl') Cy)) as Q. rewrite (UL_sequence _ _ _ Cv Q). lra.
Qed.
Theorem sum_limit st : 0 < rlx < 2 -> (exists p, argmin (fun _ => True) sum_obj p) -> let it k := iterate rpca_id rpca_id c rlx xs ys k st in
  exists p, argmin (fun _ => True) sum_obj p /\ (forall i, (i < m)%nat -> Un_cv (fun k => sX (it k) i) (p i)) /\ (forall i, (i < m)%nat -> Un_cv (fun k => sY (it k) i) (c i - p i)).
Proof.
  intros Hr [p0 [_ A0]] it0.
  set (K' := fun (x : vec) i => if Nat.ltb i m then x i else 0).
  assert (Lg0 : loc_lip m g') by (exact (glob_lip m g' Lg HLg Gl')).
  assert (EK : forall x i, (i < m)%nat -> K' x i = x i) by (intros x i Hi; unfold K'; apply Nat.ltb_lt in Hi; rewrite Hi; reflexivity).
  assert (Eg : forall x, g' (fun i => K' x i - c i) = g' (fun i => x i - c i)) by (intros x; apply (lip_loc m g' _ _ Lg0); intros i Hi; rewrite EK by exact Hi; reflexivity).
  destruct (multiplier_exists m m K' c (fun _ => True) f g' Lg p0) as [v Hv0]; try assumption.
  { intros a x b y i. unfold K'. destruct (Nat.ltb i m); ring. }
  { intros x y E i. unfold K'. destruct (Nat.ltb_spec i m) as [Hi|]; [apply E; assumption|reflexivity]. }
  { apply boxes_true. }
  { apply closed_true. }
  { apply Cg'. }
  { intros x _. apply Pf. }
  { intros y. apply Pg. }
  { apply Gl'. }
  { split; [exact I|]. intros x _. rewrite !Eg, !obj_eq. apply A0. exact I. }
  assert (S0 : saddle m eq_A eq_B c rho (fun _ => True) (fun _ => True) f g' p0 (fun i => p0 i - c i) (fun i => / rho * v i)).
  { split; [split; [exact I|split; [exact I|]]; intros i Hi; unfold gap, eq_A, eq_B; ring|]. intros x y _ _. specialize (Hv0 x y I). rewrite Eg in Hv0. eapply Rle_trans; [exact Hv0|]. apply Req_le. f_equal.
    unfold dot. rewrite <- sumn_scal. apply sumn_ext. intros i Hi. rewrite EK by exact Hi. unfold gap, eq_A, eq_B. field. lra. }
  destruct (iterates_converge m eq_A eq_B c rlx rho (fun _ => True) (fun _ => True) f g' xs' ys' eqA_aff (fun y i => eq_refl) Cf Cg' Hrho HX' HY' sum_closed Hr (flip st) _ _ _ S0) as (p & l & u & [(_ & _ & G) Sm] & Cy & _).
  assert (Yl : forall i, (i < m)%nat -> l i = p i - c i) by (intros i Hi; specialize (G i Hi); unfold gap, eq_A, eq_B in G; lra).
  assert (Cy' : forall i, (i < m)%nat -> Un_cv (fun k => sY (it0 k) i) (c i - p i)).
  { intros i Hi. specialize (Cy i Hi). apply CV_opp in Cy. rewrite (Yl i Hi) in Cy. replace (- (p i - c i)) with (c i - p i) in Cy by ring. revert Cy. apply cv_ext. intros k.
    unfold opp_seq. change (AdmmConv.it eq_A eq_B c rlx xs' ys' (flip st) k) with (iterate eq_A eq_B c rlx xs' ys' k (flip st)). rewrite flip_iterate. cbn [flip sY]. unfold neg. fold (it0 k). ring. }
  exists p. split; [|split; [|exact Cy']].
  - split; [exact I|]. intros x _. specialize (Sm x (fun i => x i - c i) I I). rewrite <- !obj_eq.
    assert (Z : dot m u (gap eq_A eq_B c x (fun i => x i - c i)) = 0) by (unfold dot; apply sumn_0; intros i Hi; unfold gap, eq_A, eq_B; ring). rewrite Z in Sm.
    rewrite <- (lip_loc m g' l (fun i => p i - c i) Lg0 Yl). lra.
  - destruct (C38_convergence m eq_A eq_B c rlx rho (fun _ => True) (fun _ => True) f g' xs' ys' eqA_aff (fun x y t i _ => ltac:(unfold eq_B, seg; ring)) Cf Cg' Hrho HX' HY' (flip st) _ _ _ Hr S0) as (Pr & _ & _).
    intros i Hi. assert (Pr' : Un_cv (fun k => nrm m (rsdl_r eq_B c (eq_A (sX (iterate eq_A eq_B c rlx xs' ys' k (flip st)))) (sY (iterate eq_A eq_B c rlx xs' ys' k (flip st))))) 0) by exact Pr.
    pose proof (cv_nrm_coord m _ Pr' i Hi) as Q. cbv beta in Q.
    pose proof (CV_plus _ _ _ _ (CV_minus _ _ _ _ Q (Cy' i Hi)) (cv_const (c i))) as Q'. replace (0 - (c i - p i) + c i) with (p i) in Q' by ring. revert Q'. apply cv_ext. intros k.
    rewrite flip_iterate. fold (it0 k). cbn [flip sX sY]. unfold rsdl_r, eq_A, eq_B, neg. ring.
Qed.
End sum.

(** ** The nuclear norm *)
Section nuc.
Variables (M N : nat).
Lemma contraction_entry W i j : contraction M N W -> (i < M)%nat -> (j < N)%nat -> Rabs (W i j) <= 1.
Proof.
  intros H Hi Hj.
  assert (D1 : forall n k a, (k < n)%nat -> nrm n (fun i => if Nat.eqb i k then a else 0) = Rabs a).
  { intros n k a Hk. unfold nrm, nrm2, dot. rewrite (sumn_ext n _ (fun i => if Nat.eqb i k then a * a else 0)) by (intros t _; destruct (Nat.eqb t k); ring).
    rewrite (sumn_delta n k (fun _ => a * a)) by exact Hk. exact (sqrt_Rsqr_abs a). }
  assert (B : forall a, a * W i j <= Rabs a).
  { intros a. pose proof (H (fun t => if Nat.eqb t i then a else 0) (fun t => if Nat.eqb t j then 1 else 0)) as Q. rewrite (D1 M i a Hi), (D1 N j 1 Hj), (Rabs_pos_eq 1), Rmult_1_r in Q by lra.
    unfold bilin in Q. rewrite (sumn_ext M _ (fun t => if Nat.eqb t i then a * W t j else 0)) in Q.
    - rewrite (sumn_delta M i (fun t => a * W t j)) in Q by exact Hi. exact Q.
    - intros t _. destruct (Nat.eqb t i).
      + rewrite (sumn_ext N _ (fun r => if Nat.eqb r j then a * W t r else 0)) by (intros r _; destruct (Nat.eqb r j); ring). apply (sumn_delta N j (fun r => a * W t r)). exact Hj.
      + apply sumn_0. intros; ring. }
  apply Rabs_le. pose proof (B 1) as Q1. pose proof (B (-1)) as Q2. rewrite Rabs_pos_eq in Q1 by lra. rewrite Rabs_left in Q2 by lra. lra.
Qed.
Lemma nuc_diff x y v w : (0 < N)%nat -> is_nuclear M N (unvec N x) v -> is_nuclear M N (unvec N y) w -> v <= w + sumn (M * N) (fun i => Rabs (x i - y i)).
Proof.
  intros HN [_ (W & HW & E)] [Hy _]. specialize (Hy W HW). rewrite <- E.
  assert (Q : fdot M N (unvec N x) W - fdot M N (unvec N y) W <= sumn (M * N) (fun i => Rabs (x i - y i))); [|lra].
  rewrite (AdmmProps.sumn_flat N M) by exact HN. unfold fdot. rewrite <- sumn_minus. apply sumn_le. intros i Hi. rewrite <- sumn_minus. apply sumn_le. intros j Hj. unfold unvec.
  rewrite <- Rmult_minus_distr_r. eapply Rle_trans; [apply Rle_abs|]. rewrite Rabs_mult. pose proof (contraction_entry W i j HW Hi Hj). pose proof (Rabs_pos (x (i * N + j)%nat - y (i * N + j)%nat)). nra.
Qed.
Lemma nuclear_nonneg X v : is_nuclear M N X v -> 0 <= v.
Proof.
  intros [H _]. replace 0 with (fdot M N X (fun _ _ => 0)).
  - apply H. intros x y. replace (bilin M N (fun _ _ => 0) x y) with 0; [apply Rmult_le_pos; apply nrm_nonneg|]. unfold bilin. symmetry. apply sumn_0. intros. apply sumn_0. intros. ring.
  - unfold fdot. apply sumn_0. intros. apply sumn_0. intros. ring.
Qed.
Lemma nuclear_zero : is_nuclear M N (unvec N (fun _ => 0)) 0.
Proof.
  split.
  - intros W _. apply Req_le. unfold fdot, unvec. apply sumn_0. intros. apply sumn_0. intros. ring.
  - exists (fun _ _ => 0). split; [|unfold fdot; apply sumn_0; intros; apply sumn_0; intros; ring].
    intros x y. replace (bilin M N (fun _ _ => 0) x y) with 0; [apply Rmult_le_pos; apply nrm_nonneg|]. unfold bilin. symmetry. apply sumn_0. intros. apply sumn_0. intros. ring.
Qed.
(** A matrix of Frobenius norm at most one is a contraction. *)
Lemma contraction_frob W : fnrm2 M N W <= 1 -> contraction M N W.
Proof.
  intros H x y. unfold bilin.
  assert (E : sumn M (fun i => sumn N (fun j => x i * W i j * y j)) = dot M x (fun i => dot N (W i) y)).
  { unfold dot. apply sumn_ext. intros i _. rewrite <- sumn_scal. apply sumn_ext. intros; ring. }
  rewrite E. pose proof (cauchy_schwarz M x (fun i => dot N (W i) y)) as Q. eapply Rle_trans; [apply Rle_abs|]. eapply Rle_trans; [exact Q|].
  apply Rmult_le_compat_l; [apply nrm_nonneg|]. unfold nrm at 1. rewrite <- (sqrt_square (nrm N y)) by apply nrm_nonneg. apply sqrt_le_1; [apply nrm2_nonneg|apply Rle_0_sqr|].
  apply Rle_trans with (fnrm2 M N W * (nrm N y * nrm N y)).
  - unfold nrm2 at 1, dot at 1. unfold fnrm2, fdot. rewrite <- sumn_scal_r. apply sumn_le. intros i Hi. change (sumn N (fun j => W i j * W i j)) with (nrm2 N (W i)).
    rewrite <- (nrm_sqr N (W i)). pose proof (cauchy_schwarz N (W i) y) as C. set (d := dot N (W i) y) in *.
    replace (d * d) with (Rabs d * Rabs d) by (rewrite <- Rabs_mult; apply Rabs_pos_eq; apply Rle_0_sqr).
    replace (nrm N (W i) * nrm N (W i) * (nrm N y * nrm N y)) with ((nrm N (W i) * nrm N y) * (nrm N (W i) * nrm N y)) by ring. apply Rmult_le_compat; try apply Rabs_pos; exact C.
  - rewrite <- (Rmult_1_l (nrm N y * nrm N y)) at 2. apply Rmult_le_compat_r; [apply Rle_0_sqr|exact H].
Qed.
End nuc.
