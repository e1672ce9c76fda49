(** Convergence of the iterates of ADMM, not only of the residuals and the objective, when B y = - y. *)
Require Import Reals Lra Lia Arith.
Require Import Verif.RVec Verif.AdmmModel Verif.AdmmSpec Verif.AdmmProofs Verif.AdmmConv Verif.Compact.
Local Open Scope R_scope.

Section limit.
Variables (m : nat) (A B : (nat -> R) -> nat -> R) (c : nat -> R) (rlx rho : R).
Variables (D E : (nat -> R) -> Prop) (f g : (nat -> R) -> R).
Variables (xstep ystep : (nat -> R) -> (nat -> R) -> nat -> R).
Hypothesis HA : affine m A.
Hypothesis HB : forall y i, B y i = - y i.
Hypothesis Hf : convex_on D f.
Hypothesis Hg : convex_on E g.
Hypothesis Hrho : 0 < rho.
Hypothesis HX : forall y u, argmin D (fun x => auglag m A B c rho f g x y u) (xstep y u).
Hypothesis HY : forall ax u, argmin E (fun y => auglag m (fun _ => ax) B c rho (fun _ => 0) g ax y u) (ystep ax u).
(** The constraint set and the objective are closed. *)
Hypothesis Hcl : forall (x y : nat -> nat -> R) (l : nat -> R) v, (forall k, D (x k)) -> (forall k, E (y k)) ->
  (forall i, (i < m)%nat -> Un_cv (fun k => y k i) (l i)) -> (forall i, (i < m)%nat -> Un_cv (fun k => gap A B c (x k) (y k) i) 0) ->
  Un_cv (fun k => f (x k) + g (y k)) v -> exists p, feasible m A B c D E p l /\ f p + g l <= v.
Hypothesis Hrlx : 0 < rlx < 2.
Variable st : state.
Variables xs ys us : nat -> R.
Hypothesis Hs : saddle m A B c rho D E f g xs ys us.

Lemma HB' : affine m B. Proof. intros x y t i _. rewrite !HB. unfold seg. ring. Qed.
Notation it := (it A B c rlx xstep ystep st).
Notation dzz := (dz m A B c rlx xstep ystep st).

Lemma abs_of_sq a K : 0 <= K -> a * a <= K -> Rabs a <= 1 + K.
Proof.
  intros HK H. apply Rabs_le. pose proof (Rle_0_sqr (a - 1)) as Q1. pose proof (Rle_0_sqr (a + 1)) as Q2. unfold Rsqr in *. split; lra.
Qed.
Lemma coord_sq n x i : (i < n)%nat -> x i * x i <= nrm2 n x.
Proof. intros Hi. unfold nrm2, dot. apply (sumn_ge_term n (fun j => x j * x j) i); [intros; apply Rle_0_sqr|exact Hi]. Qed.

Lemma iterates_bounded : exists K, forall k i, (i < m)%nat -> Rabs (sY (it (S k)) i) <= K /\ Rabs (sU (it (S k)) i) <= K.
Proof.
  set (d := dzz ys us 1). assert (D0 : 0 <= d) by apply nrm2_nonneg.
  exists (1 + d + sumn m (fun i => Rabs (ys i)) + sumn m (fun i => Rabs (us i))). intros k i Hi.
  pose proof (bound_dz m A B c rlx rho D E f g xstep ystep HB' Hg Hrho HY st xs ys us Hs k) as Q1.
  pose proof (dz_bounded m A B c rlx rho D E f g xstep ystep HA HB' Hf Hg Hrho HX HY st xs ys us Hs Hrlx k) as Q2. fold d in Q2.
  pose proof (coord_sq m (fun i => sU (it (S k)) i - us i) i Hi) as C1. pose proof (coord_sq m (fun i => B (sY (it (S k))) i - B ys i) i Hi) as C2. cbv beta in C1, C2. rewrite !HB in C2.
  pose proof (nrm2_nonneg m (fun i => sU (it (S k)) i - us i)). pose proof (nrm2_nonneg m (fun i => B (sY (it (S k))) i - B ys i)).
  pose proof (sumn_ge_term m (fun i => Rabs (ys i)) i (fun j _ => Rabs_pos _) Hi) as G1. pose proof (sumn_ge_term m (fun i => Rabs (us i)) i (fun j _ => Rabs_pos _) Hi) as G2. cbv beta in G1, G2.
  assert (S1 : 0 <= sumn m (fun i => Rabs (ys i))) by (apply sumn_nonneg; intros; apply Rabs_pos).
  assert (S2 : 0 <= sumn m (fun i => Rabs (us i))) by (apply sumn_nonneg; intros; apply Rabs_pos).
  assert (A1 : Rabs (sU (it (S k)) i - us i) <= 1 + d) by (apply abs_of_sq; lra).
  assert (A2 : Rabs (sY (it (S k)) i - ys i) <= 1 + d) by (apply abs_of_sq; lra).
  pose proof (Rabs_triang (sU (it (S k)) i - us i) (us i)) as T1. pose proof (Rabs_triang (sY (it (S k)) i - ys i) (ys i)) as T2.
  replace (sU (it (S k)) i - us i + us i) with (sU (it (S k)) i) in T1 by ring. replace (sY (it (S k)) i - ys i + ys i) with (sY (it (S k)) i) in T2 by ring. lra.
Qed.

(** The inequality of one iteration against any competitor. *)
Lemma step_upper k x y : D x -> E y -> f (sX (it (S k))) + g (sY (it (S k))) <=
  f x + g y + rho * (dot m (fun i => mid A B c rlx xstep ystep st k i + sU (it k) i) (fun i => A x i - A (sX (it (S k))) i) +
                     dot m (sU (it (S k))) (fun i => B y i - B (sY (it (S k))) i)).
Proof.
  intros Dx Ey.
  pose proof (x_vi m A B c rho D f HA Hf Hrho _ _ _ (it_x m A B c rlx rho D f g xstep ystep HX st k) x Dx) as V1.
  pose proof (y_vi m B c rho E g HB' Hg Hrho _ _ _ (AXk A B c rlx xstep ystep st k) (it_y m A B c rlx rho E g xstep ystep HY st k) (fun i _ => it_u A B c rlx xstep ystep st k i) y Ey) as V2.
  unfold mid. lra.
Qed.

Theorem iterates_converge : exists p l u, saddle m A B c rho D E f g p l u /\
  (forall i, (i < m)%nat -> Un_cv (fun k => sY (it k) i) (l i)) /\ (forall i, (i < m)%nat -> Un_cv (fun k => sU (it k) i) (u i)).
Proof.
  destruct iterates_bounded as [K HK].
  destruct (bwn (m + m) (fun k i => if Nat.ltb i m then sY (it (S k)) i else sU (it (S k)) (i - m)) K) as (phi & l & Hphi & Hl).
  { intros k i Hi. destruct (Nat.ltb_spec i m); apply HK; lia. }
  set (u := fun i => l (m + i)%nat).
  assert (L1 : forall i, (i < m)%nat -> Un_cv (fun k => sY (it (S (phi k))) i) (l i)).
  { intros i Hi. generalize (Hl i ltac:(lia)). apply cv_ext. intros k. apply Nat.ltb_lt in Hi. rewrite Hi. reflexivity. }
  assert (L2 : forall i, (i < m)%nat -> Un_cv (fun k => sU (it (S (phi k))) i) (u i)).
  { intros i Hi. generalize (Hl (m + i)%nat ltac:(lia)). apply cv_ext. intros k. destruct (Nat.ltb_spec (m + i) m); [lia|]. replace (m + i - m)%nat with i by lia. reflexivity. }
  (* the next iterates along the subsequence *)
  assert (Hsub : increasing (fun k => S (phi k))) by (intros k; specialize (Hphi k); lia).
  assert (Hsub2 : increasing (fun k => S (S (phi k)))) by (intros k; specialize (Hphi k); lia).
  pose proof (dy_cv m A B c rlx rho D E f g xstep ystep HA HB' Hf Hg Hrho HX HY st xs ys us Hs Hrlx) as [Cy Cu].
  assert (Cy' : forall i, (i < m)%nat -> Un_cv (fun k => sY (it (S k)) i - sY (it k) i) 0).
  { intros i Hi. pose proof (cv_nrm_coord m (fun k => dy A B c rlx xstep ystep st k) (cv_sqrt_0 _ (fun k => nrm2_nonneg _ _) Cy) i Hi) as Q.
    apply (cv_scal_0 _ (-1)) in Q. revert Q. apply cv_ext. intros k. unfold dy. rewrite !HB. ring. }
  assert (Cu' : forall i, (i < m)%nat -> Un_cv (fun k => sU (it (S k)) i - sU (it k) i) 0).
  { intros i Hi. exact (cv_nrm_coord m (fun k i => sU (it (S k)) i - sU (it k) i) (cv_sqrt_0 _ (fun k => nrm2_nonneg _ _) Cu) i Hi). }
  assert (N1 : forall i, (i < m)%nat -> Un_cv (fun k => sY (it (S (S (phi k)))) i) (l i)).
  { intros i Hi. pose proof (cv_sub _ _ _ (Cy' i Hi) Hsub) as Q. pose proof (CV_plus _ _ _ _ Q (L1 i Hi)) as P. rewrite Rplus_0_l in P. revert P. apply cv_ext. intros k. ring. }
  assert (N2 : forall i, (i < m)%nat -> Un_cv (fun k => sU (it (S (S (phi k)))) i) (u i)).
  { intros i Hi. pose proof (cv_sub _ _ _ (Cu' i Hi) Hsub) as Q. pose proof (CV_plus _ _ _ _ Q (L2 i Hi)) as P. rewrite Rplus_0_l in P. revert P. apply cv_ext. intros k. ring. }
  pose proof (pri_cv m A B c rlx rho D E f g xstep ystep HA HB' Hf Hg Hrho HX HY st xs ys us Hs Hrlx) as Cp.
  assert (Cp' : forall i, (i < m)%nat -> Un_cv (fun k => gap A B c (sX (it (S (S (phi k))))) (sY (it (S (S (phi k))))) i) 0).
  { intros i Hi. exact (cv_sub _ _ _ (cv_nrm_coord m (fun k => pri A B c rlx xstep ystep st k) Cp i Hi) Hsub2). }
  pose proof (objective_cv m A B c rlx rho D E f g xstep ystep HA HB' Hf Hg Hrho HX HY st xs ys us Hs Hrlx) as Co.
  pose proof (cv_sub _ _ _ Co Hsub2) as Co'.
  destruct (Hcl (fun k => sX (it (S (S (phi k))))) (fun k => sY (it (S (S (phi k))))) l (f xs + g ys)) as [p [Fp Vp]].
  { intros k. apply (proj1 (it_x m A B c rlx rho D f g xstep ystep HX st (S (phi k)))). }
  { intros k. apply (proj1 (it_y m A B c rlx rho E g xstep ystep HY st (S (phi k)))). }
  { exact N1. }
  { exact Cp'. }
  { exact Co'. }
  (* the limit is a saddle point *)
  assert (Sd : saddle m A B c rho D E f g p l u).
  { split; [exact Fp|]. intros x y Dx Ey. eapply Rle_trans; [exact Vp|].
    assert (CA : forall i, (i < m)%nat -> Un_cv (fun k => A (sX (it (S (S (phi k))))) i) (l i + c i)).
    { intros i Hi. pose proof (CV_plus _ _ _ _ (Cp' i Hi) (CV_plus _ _ _ _ (N1 i Hi) (cv_const (c i)))) as P. rewrite Rplus_0_l in P. revert P. apply cv_ext. intros k. unfold gap. rewrite HB. ring. }
    assert (CM : forall i, (i < m)%nat -> Un_cv (fun k => mid A B c rlx xstep ystep st (S (phi k)) i) 0).
    { intros i Hi. apply (cv_sub (fun k => mid A B c rlx xstep ystep st k i) 0 (fun k => S (phi k))); [|exact Hsub].
      apply (cv_nrm_coord m (fun k => mid A B c rlx xstep ystep st k)); [|exact Hi]. apply cv_sqrt_0; [intros; apply nrm2_nonneg|].
      apply (mid_cv m A B c rlx rho D E f g xstep ystep HA HB' Hf Hg Hrho HX HY st xs ys us Hs Hrlx). }
    set (rhs := fun k => f x + g y + rho * (dot m (fun i => mid A B c rlx xstep ystep st (S (phi k)) i + sU (it (S (phi k))) i) (fun i => A x i - A (sX (it (S (S (phi k))))) i) +
                     dot m (sU (it (S (S (phi k))))) (fun i => B y i - B (sY (it (S (S (phi k))))) i))).
    assert (CR : Un_cv rhs (f x + g y + rho * (dot m (fun i => 0 + u i) (fun i => A x i - (l i + c i)) + dot m u (fun i => B y i - - l i)))).
    { unfold rhs. apply CV_plus; [apply cv_const|]. apply CV_mult; [apply cv_const|]. apply CV_plus.
      - apply (cv_dot m (fun k i => mid A B c rlx xstep ystep st (S (phi k)) i + sU (it (S (phi k))) i) (fun k i => A x i - A (sX (it (S (S (phi k))))) i)).
        + intros i Hi. apply CV_plus; [apply CM; exact Hi|apply L2; exact Hi].
        + intros i Hi. apply CV_minus; [apply cv_const|apply CA; exact Hi].
      - apply (cv_dot m (fun k => sU (it (S (S (phi k))))) (fun k i => B y i - B (sY (it (S (S (phi k))))) i)); [exact N2|].
        intros i Hi. apply CV_minus; [apply cv_const|].
        apply (cv_ext (fun k => - sY (it (S (S (phi k)))) i)); [intros; rewrite HB; reflexivity|]. apply CV_opp. apply N1. exact Hi. }
    assert (EQ : dot m (fun i => 0 + u i) (fun i => A x i - (l i + c i)) + dot m u (fun i => B y i - - l i) = dot m u (gap A B c x y)).
    { unfold dot. rewrite <- sumn_plus. apply sumn_ext. intros i _. unfold gap. ring. }
    rewrite EQ in CR. refine (cv_le _ _ _ _ _ Co' CR). intros k. unfold rhs. apply step_upper; assumption. }
  exists p, l, u. split; [exact Sd|].
  (* the distance to it decreases, and tends to zero along the subsequence *)
  assert (Z : Un_cv (fun k => dzz l u (S (phi k))) 0).
  { pose proof (cv_coord_nrm2 m (fun k i => sU (it (S (phi k))) i - (B (sY (it (S (phi k)))) i - c i)) (fun i => u i - (B l i - c i))) as Q. apply Q. intros i Hi.
    apply CV_minus; [apply L2; exact Hi|]. apply CV_minus; [|apply cv_const]. rewrite HB.
    apply (cv_ext (fun k => - sY (it (S (phi k))) i)); [intros; rewrite HB; reflexivity|]. apply CV_opp. apply L1. exact Hi. }
  assert (Mo : forall j k, (j <= k)%nat -> dzz l u (S k) <= dzz l u (S j)).
  { intros j k Hjk. induction Hjk as [|k _ IH]; [lra|].
    pose proof (dz_step m A B c rlx rho D E f g xstep ystep HA HB' Hf Hg Hrho HX HY st p l u Sd k ltac:(lra)) as Q.
    pose proof (nrm2_nonneg m (mid A B c rlx xstep ystep st (S k))). assert (0 <= rlx * (2 - rlx)) by nra. nra. }
  assert (Zs : Un_cv (fun k => dzz l u (S k)) 0).
  { intros e He. destruct (Z e He) as [N HN]. exists (phi N). intros k Hk. specialize (HN N ltac:(lia)). specialize (Mo (phi N) k ltac:(lia)).
    unfold R_dist in *. rewrite Rminus_0_r in *. assert (0 <= dzz l u (S k)) by apply nrm2_nonneg. assert (0 <= dzz l u (S (phi N))) by apply nrm2_nonneg.
    rewrite Rabs_pos_eq in * by assumption. lra. }
  assert (Bd := bound_dz m A B c rlx rho D E f g xstep ystep HB' Hg Hrho HY st p l u Sd).
  split; intros i Hi; apply cv_shift_S.
  - assert (Q : Un_cv (fun k => nrm2 m (fun i => B (sY (it (S k))) i - B l i)) 0).
    { apply (squeeze_0 _ (fun k => dzz l u (S k)) O); [|exact Zs]. intros k _. specialize (Bd k). pose proof (nrm2_nonneg m (fun i => sU (it (S k)) i - u i)).
      pose proof (nrm2_nonneg m (fun i => B (sY (it (S k))) i - B l i)). lra. }
    pose proof (cv_nrm_coord m (fun k i => B (sY (it (S k))) i - B l i) (cv_sqrt_0 _ (fun k => nrm2_nonneg _ _) Q) i Hi) as P. cbv beta in P.
    pose proof (CV_minus _ _ _ _ (cv_const (l i)) P) as P2. rewrite Rminus_0_r in P2. revert P2. apply cv_ext. intros k. rewrite !HB. ring.
  - assert (Q : Un_cv (fun k => nrm2 m (fun i => sU (it (S k)) i - u i)) 0).
    { apply (squeeze_0 _ (fun k => dzz l u (S k)) O); [|exact Zs]. intros k _. specialize (Bd k). pose proof (nrm2_nonneg m (fun i => sU (it (S k)) i - u i)).
      pose proof (nrm2_nonneg m (fun i => B (sY (it (S k))) i - B l i)). lra. }
    pose proof (cv_nrm_coord m (fun k i => sU (it (S k)) i - u i) (cv_sqrt_0 _ (fun k => nrm2_nonneg _ _) Q) i Hi) as P. cbv beta in P.
    pose proof (CV_plus _ _ _ _ P (cv_const (u i))) as P2. rewrite Rplus_0_l in P2. revert P2. apply cv_ext. intros k. ring.
Qed.
End limit.
