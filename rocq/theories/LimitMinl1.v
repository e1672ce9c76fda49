(** Convergence of the iterates of MinL1InL2Ball of admm/bpdn.py. *)
Require Import List Reals Lra Lia Arith Bool FunctionalExtensionality.
Require Import Verif.RVec Verif.ProxModel Verif.ProxProofs Verif.NucModel Verif.AdmmModel Verif.AdmmSpec Verif.AdmmProofs Verif.AdmmConv Verif.AdmmProps Verif.Compact Verif.AdmmLimit.
Require Import Verif.StepsModel Verif.StepsSpec Verif.StepsProofs Verif.StepsProofs2 Verif.StepsProps Verif.LimitProofs Verif.Lagrange Verif.CscTwoProofs Verif.LimitTwo.
Local Open Scope R_scope.
Local Notation vec := (nat -> R).

Section minl1.
Variables (Nr Nc Nm : nat) (solve : mat -> R -> vec -> vec) (D : mat) (S : vec).
Hypothesis HR : (0 < Nr)%nat.
Hypothesis HN : (0 < Nm)%nat.
Hypothesis Hsolve : ATAI_contract Nr Nc Nm solve.
Variables (rlx rho epsilon : R) (nonneg : bool) (wl1 : vec).
Hypothesis Hrho : 0 < rho.
Hypothesis Hrlx : 0 < rlx < 2.
Notation n := (Nc * Nm)%nat.
Notation m1 := (Nr * Nm)%nat.
Hypothesis Hw : forall i, (i < n)%nat -> 0 < wl1 i.
Notation feas := (fun x => nonneg_set nonneg n x /\ l2ball_cols Nr Nm S epsilon (mm Nc Nm D x)).
(** Position of the entry which is at [r] when the array is stored column by column. *)
Definition cm (r : nat) : nat := (r mod Nr * Nm + r / Nr)%nat.
Lemma cm_at c k : (k < Nr)%nat -> cm (c * Nr + k) = (k * Nm + c)%nat.
Proof. intros Hk. unfold cm. rewrite div_at, mod_at by exact Hk. reflexivity. Qed.
Definition Lc (x : vec) : vec := fun r => mm Nc Nm D x (cm r).
Definition Sc : vec := fun r => S (cm r).
Lemma Lc_linear : linear_map Lc. Proof. intros a x b y p. unfold Lc. apply mm_linear. Qed.
Lemma Lc_local : local_map n Lc. Proof. intros x y H p. unfold Lc. apply mm_local; [exact HN|exact H]. Qed.
Lemma col_row x c : nrm Nr (row Nr c (fun i => Lc x i - Sc i)) = nrm Nr (fun i => col Nm c (mm Nc Nm D x) i - col Nm c S i).
Proof. apply nrm_ext. intros k Hk. unfold row, Lc, Sc. rewrite cm_at by exact Hk. reflexivity. Qed.
Lemma feas_tfeas x : tfeas Lc Sc (fun y => forall c, (c < Nm)%nat -> nrm Nr (row Nr c y) <= epsilon) (nonneg_set nonneg n) x <-> feas x.
Proof.
  unfold tfeas, l2ball_cols. split; intros [H1 H2].
  - split; [exact H2|]. intros k Hk. rewrite <- col_row. apply H1. exact Hk.
  - split; [|exact H1]. intros c Hc. rewrite col_row. apply H2. exact Hc.
Qed.
Lemma tobj_l1 x : tobj Lc Sc (fun _ => 0) (l1reg n 1 wl1) x = l1reg n 1 wl1 x.
Proof. unfold tobj. lra. Qed.
Lemma minl1_exists x0 : 0 <= epsilon -> feas x0 -> exists p, argmin feas (l1reg n 1 wl1) p.
Proof.
  intros He H0. apply feas_tfeas in H0.
  destruct (ball_exists n Nr Nm Lc Sc (nonneg_set nonneg n) epsilon HR Lc_linear Lc_local He 1 wl1 x0 ltac:(lra) Hw (boxes_nonneg n nonneg) (proj2 H0) (proj1 H0)) as [p [P1 P2]].
  exists p. split; [apply feas_tfeas; exact P1|]. intros x Hx. apply feas_tfeas in Hx. specialize (P2 x Hx). rewrite !tobj_l1 in P2. exact P2.
Qed.
Notation A := (tb_A n (fun x => x) (mm Nc Nm D)).
Notation c0 := (block_cat n (fun _ => 0) (fun _ => 0)).
Lemma c0_zero i : c0 i = 0. Proof. unfold block_cat. destruct (Nat.ltb i n); reflexivity. Qed.
Lemma feas_gap x y : (forall i, (i < n + m1)%nat -> gap A tb_B c0 x y i = 0) ->
  (forall i, (i < n)%nat -> y i = x i) /\ (forall i, (i < m1)%nat -> y (n + i)%nat = mm Nc Nm D x i).
Proof.
  intros G. split; intros i Hi.
  - specialize (G i ltac:(lia)). unfold gap, tb_A, tb_B in G. rewrite c0_zero, cat_lt in G by exact Hi. lra.
  - specialize (G (n + i)%nat ltac:(lia)). unfold gap, tb_A, tb_B in G. rewrite c0_zero, cat_ge in G. lra.
Qed.
Lemma minl1_saddle x0 p : nonneg_set nonneg n x0 -> (forall k, (k < Nm)%nat -> nrm Nr (fun i => col Nm k (mm Nc Nm D x0) i - col Nm k S i) < epsilon) ->
  argmin feas (l1reg n 1 wl1) p ->
  exists u, saddle (n + m1) A tb_B c0 rho (fun _ => True) (ml_E Nr Nc Nm S nonneg epsilon) (fun _ => 0) (ml_g Nc Nm wl1) p (block_cat n p (mm Nc Nm D p)) u.
Proof.
  intros E0 Sl [P1 P2].
  assert (He : 0 <= epsilon) by (left; eapply Rle_lt_trans; [|apply (Sl O HN)]; apply nrm_nonneg).
  destruct (ball_saddle n Nr Nm Lc Sc (nonneg_set nonneg n) (l1reg n 1 wl1) rho epsilon HR Lc_linear Lc_local (l1reg_convex _ n 1 wl1 ltac:(lra) (nonneg_convex nonneg n)) Hrho He x0 p E0) as [u [_ Sd]].
  { intros c Hc. rewrite col_row. apply Sl. exact Hc. }
  { split; [apply feas_tfeas; exact P1|]. intros x Hx. apply feas_tfeas in Hx. rewrite !tobj_l1. apply P2. exact Hx. }
  set (m0 := (Nm * Nr)%nat) in *.
  exists (block_cat n (block_sep1 m0 u) (fun q => u (q mod Nm * Nr + q / Nm)%nat)). split.
  - split; [exact I|]. split; [split|].
    + intros e i Hi. unfold block_sep0. rewrite cat_lt by exact Hi. apply P1; assumption.
    + intros k Hk. rewrite (nrm_ext Nr _ (fun i => col Nm k (mm Nc Nm D p) i - col Nm k S i)); [apply P1; exact Hk|]. intros i Hi. unfold col, block_sep1, minl1_b. rewrite cat_ge. reflexivity.
    + intros i Hi. unfold gap, tb_A, tb_B. rewrite c0_zero. ring.
  - intros x y _ [Y0 Y1]. pose (y' := block_cat m0 (fun r => y (n + cm r)%nat - Sc r) (block_sep0 y)).
    assert (Ey : tE m0 (fun y => forall c, (c < Nm)%nat -> nrm Nr (row Nr c y) <= epsilon) (nonneg_set nonneg n) y').
    { split.
      - intros c Hc. rewrite (nrm_ext Nr _ (fun i => col Nm c (block_sep1 n y) i - col Nm c S i)); [apply Y1; exact Hc|].
        intros k Hk. unfold row, block_sep0, y'. rewrite cat_lt by (unfold m0; nia). rewrite cm_at by exact Hk. unfold Sc. rewrite cm_at by exact Hk. reflexivity.
      - unfold y'. rewrite cat_sep1. exact Y0. }
    specialize (Sd x y' I Ey). assert (B1 : block_sep1 m0 y' = block_sep0 y) by apply cat_sep1. unfold tg in Sd. rewrite B1, cat_sep1 in Sd. unfold ml_g.
    assert (L0 : l1reg n 1 wl1 (block_sep0 (block_cat n p (mm Nc Nm D p))) = l1reg n 1 wl1 p).
    { unfold l1reg. f_equal. apply sumn_ext. intros i Hi. unfold block_sep0. rewrite cat_lt by exact Hi. reflexivity. }
    rewrite L0.
    assert (Q : dot (n + m1) (block_cat n (block_sep1 m0 u) (fun q => u (q mod Nm * Nr + q / Nm)%nat)) (gap A tb_B c0 x y) = dot (m0 + n) u (gap (tA m0 Lc) tb_B (tc m0 Sc) x y')).
    { unfold dot. rewrite !sumn_split. rewrite Rplus_comm. f_equal.
      - unfold m0. rewrite !sumn_flat by assumption. rewrite sumn_swap. apply sumn_ext. intros c Hc. apply sumn_ext. intros k Hk.
        rewrite cat_ge. rewrite div_at, mod_at by exact Hc. f_equal. unfold gap, tb_A, tA, tb_B, tc, y'. fold m0. rewrite c0_zero, cat_ge, !cat_lt by (unfold m0; nia). unfold Lc, Sc. rewrite cm_at by exact Hk. ring.
      - apply sumn_ext. intros i Hi. rewrite cat_lt by exact Hi. unfold block_sep1. f_equal. unfold gap, tb_A, tA, tb_B, tc, y'. rewrite c0_zero, cat_lt, !cat_ge by exact Hi. unfold block_sep0. ring. }
    rewrite Q. lra.
Qed.
Lemma minl1_limit st x0 : nonneg_set nonneg n x0 -> (forall k, (k < Nm)%nat -> nrm Nr (fun i => col Nm k (mm Nc Nm D x0) i - col Nm k S i) < epsilon) ->
  let it k := iterate A tb_B c0 rlx (minl1_xstep Nr Nc Nm solve D) (minl1_ystep Nr Nc Nm S nonneg rho wl1 epsilon) k st in
  exists p, argmin feas (l1reg n 1 wl1) p /\ forall i, (i < n)%nat -> Un_cv (fun k => sX (it k) i) (p i) /\ Un_cv (fun k => block_sep0 (sY (it k)) i) (p i).
Proof.
  intros E0 Sl it0.
  assert (He : 0 <= epsilon) by (left; eapply Rle_lt_trans; [|apply (Sl O HN)]; apply nrm_nonneg).
  assert (Hw' : forall i, (i < n)%nat -> 0 <= wl1 i) by (intros; left; apply Hw; assumption).
  destruct (minl1_exists x0 He) as [p0 H0]; [split; [exact E0|intros k Hk; left; apply Sl; exact Hk]|].
  destruct (minl1_saddle x0 p0 E0 Sl H0) as [u0 Sd].
  assert (HA : affine (n + m1) A) by exact (linear_affine _ _ (ml_linear Nc Nm D)).
  assert (C0 : convex_on (fun _ => True) (fun _ : vec => 0)) by (intros x y t _ _ Ht; split; [exact I|lra]).
  assert (HX : forall y u, argmin (fun _ => True) (fun x => auglag (n + m1) A tb_B c0 rho (fun _ => 0) (ml_g Nc Nm wl1) x y u) (minl1_xstep Nr Nc Nm solve D y u)) by (intros y u; exact (C37_minl1_x Nr Nc Nm solve D HN Hsolve rho _ y u Hrho)).
  assert (HY : forall ax u, argmin (ml_E Nr Nc Nm S nonneg epsilon) (fun y => auglag (n + m1) (fun _ => ax) tb_B c0 rho (fun _ => 0) (ml_g Nc Nm wl1) ax y u) (minl1_ystep Nr Nc Nm S nonneg rho wl1 epsilon ax u))
    by (intros ax u; exact (C37_minl1_y Nr Nc Nm S HN nonneg rho wl1 epsilon ax u Hrho He Hw')).
  assert (Cl1 : closed m1 (l2ball_cols Nr Nm S epsilon)).
  { apply (closed_all m1 nat (fun k => (k < Nm)%nat) (fun k y => nrm Nr (fun i => col Nm k y i - col Nm k S i) <= epsilon)). intros k Hk. apply closed_level.
    apply (lip_nrm m1 Nr (fun y i => col Nm k y i - col Nm k S i)). intros i Hi. apply (lip_plus m1 (fun y => col Nm k y i) (fun _ => - col Nm k S i)); [unfold col; apply lip_coord; nia|apply lip_const]. }
  destruct (iterates_converge (n + m1) A tb_B c0 rlx rho (fun _ => True) (ml_E Nr Nc Nm S nonneg epsilon) (fun _ => 0) (ml_g Nc Nm wl1)
    (minl1_xstep Nr Nc Nm solve D) (minl1_ystep Nr Nc Nm S nonneg rho wl1 epsilon) HA (fun y i => eq_refl) C0 (ml_convex Nr Nc Nm S nonneg epsilon wl1) Hrho HX HY) with (st := st) (xs := p0) (ys := block_cat n p0 (mm Nc Nm D p0)) (us := u0)
    as (p & l & u & [(_ & [El0 El1] & G) Hm] & K1 & K2); try assumption.
  - intros x y l v _ Hy Cy Cg Cv. exists (block_sep0 l).
    assert (Cx : forall i, (i < n)%nat -> Un_cv (fun k => x k i) (l i)).
    { intros i Hi. pose proof (CV_plus _ _ _ _ (Cg i ltac:(lia)) (Cy i ltac:(lia))) as Q. rewrite Rplus_0_l in Q. revert Q. apply cv_ext. intros k. unfold gap, tb_A, tb_B. rewrite c0_zero, cat_lt by exact Hi. ring. }
    assert (Ll : forall i, (i < m1)%nat -> l (n + i)%nat = mm Nc Nm D l i).
    { intros i Hi. assert (CL : Un_cv (fun k => mm Nc Nm D (x k) i) (mm Nc Nm D l i)).
      { apply (lip_cv n (fun x => mm Nc Nm D x i) x l); [|exact Cx]. apply (lip_linear n m1 (mm Nc Nm D) i (mm_linear Nc Nm D) (mm_loc Nr Nc Nm D HN) Hi). }
      pose proof (CV_minus _ _ _ _ CL (Cg (n + i)%nat ltac:(lia))) as Q. rewrite Rminus_0_r in Q.
      apply (UL_sequence (fun k => y k (n + i)%nat)); [apply Cy; lia|]. revert Q. apply cv_ext. intros k. unfold gap, tb_A, tb_B. rewrite c0_zero, cat_ge. ring. }
    split; [split; [exact I|split; [split|]]|].
    + apply (closed_nonneg n nonneg (fun k => block_sep0 (y k))); [intros k; apply Hy|]. intros i Hi. apply Cy. lia.
    + apply (Cl1 (fun k => block_sep1 n (y k))); [intros k; apply Hy|]. intros i Hi. apply Cy. lia.
    + intros i Hi. unfold gap, tb_A, tb_B. rewrite c0_zero. destruct (Nat.ltb_spec i n).
      * rewrite cat_lt by assumption. unfold block_sep0. ring.
      * replace i with (n + (i - n))%nat by lia. rewrite cat_ge, Ll by lia. unfold block_sep0. ring.
    + right. rewrite Rplus_0_l. apply (UL_sequence (fun k => ml_g Nc Nm wl1 (y k))).
      * unfold ml_g. apply (lip_cv n (l1reg n 1 wl1) (fun k => block_sep0 (y k)) (block_sep0 l) (lip_l1reg n 1 wl1)). intros i Hi. apply Cy. lia.
      * revert Cv. apply cv_ext. intros; ring.
  - destruct (feas_gap p l G) as [G0 G1]. exists l.
    assert (Ml : forall i, mm Nc Nm D p i = mm Nc Nm D l i) by (intros i; apply mm_local; [exact HN|]; intros j Hj; symmetry; apply G0; exact Hj).
    split; [split; [split|]|].
    + exact El0.
    + intros k Hk. rewrite (nrm_ext Nr _ (fun i => col Nm k (block_sep1 n l) i - col Nm k S i)); [apply El1; exact Hk|]. intros i Hi. unfold col, block_sep1. rewrite G1 by nia. rewrite Ml. reflexivity.
    + intros x [F0 F1]. specialize (Hm x (block_cat n x (mm Nc Nm D x)) I).
      assert (Ex : ml_E Nr Nc Nm S nonneg epsilon (block_cat n x (mm Nc Nm D x))).
      { split.
        - intros e i Hi. unfold block_sep0. rewrite cat_lt by exact Hi. apply F0; assumption.
        - intros k Hk. rewrite (nrm_ext Nr _ (fun i => col Nm k (mm Nc Nm D x) i - col Nm k S i)); [apply F1; exact Hk|]. intros i Hi. unfold col, block_sep1, minl1_b. rewrite cat_ge. reflexivity. }
      specialize (Hm Ex).
      assert (Z : dot (n + m1) u (gap A tb_B c0 x (block_cat n x (mm Nc Nm D x))) = 0).
      { unfold dot. apply sumn_0. intros i _. unfold gap, tb_A, tb_B. rewrite c0_zero. ring. }
      rewrite Z in Hm. unfold ml_g in Hm.
      assert (L0 : l1reg n 1 wl1 (block_sep0 (block_cat n x (mm Nc Nm D x))) = l1reg n 1 wl1 x).
      { unfold l1reg. f_equal. apply sumn_ext. intros i Hi. unfold block_sep0. rewrite cat_lt by exact Hi. reflexivity. }
      rewrite L0 in Hm. change (block_sep0 l) with l in Hm. lra.
    + intros i Hi. assert (Q1 : Un_cv (fun k => block_sep0 (sY (it0 k)) i) (l i)) by (apply (K1 i); lia). split; [|exact Q1].
      assert (HB : affine (n + m1) tb_B) by (intros a b t j _; unfold tb_B, seg; ring).
      pose proof (pri_cv (n + m1) A tb_B c0 rlx rho (fun _ => True) (ml_E Nr Nc Nm S nonneg epsilon) (fun _ => 0) (ml_g Nc Nm wl1) (minl1_xstep Nr Nc Nm solve D) (minl1_ystep Nr Nc Nm S nonneg rho wl1 epsilon)
        HA HB C0 (ml_convex Nr Nc Nm S nonneg epsilon wl1) Hrho HX HY st p0 _ u0 Sd Hrlx) as Cp.
      pose proof (CV_plus _ _ _ _ (cv_nrm_coord (n + m1) _ Cp i ltac:(lia)) Q1) as Q. rewrite Rplus_0_l in Q. revert Q. apply cv_ext. intros k. unfold pri, gap, AdmmConv.it. fold (it0 k). unfold tb_A, tb_B. rewrite c0_zero, cat_lt by exact Hi. unfold block_sep0. ring.
Qed.
End minl1.
