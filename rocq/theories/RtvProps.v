(** C81: convolutional sparse coding with the total variation of the reconstruction (ConvBPDNRecTV). *)
Require Import List Arith ZArith Reals Bool Lia Lra FunctionalExtensionality.
Require Import Verif.RVec Verif.Cplx Verif.FftModel Verif.FftProofs Verif.FftInv Verif.CscModel Verif.CscSpec Verif.CscProofs Verif.CscIterModel Verif.CscIterProofs.
Require Import Verif.AdmmSpec Verif.AdmmModel Verif.AdmmProofs Verif.AdmmProps Verif.StepsSpec Verif.StepsProofs Verif.ProxModel Verif.Compact.
Require Import Verif.LimitProofs Verif.SplitConv Verif.TvdModel Verif.TvdFourier Verif.TvdProofs Verif.TvdSteps Verif.TvdObj Verif.CtvModel Verif.CtvSpec Verif.CtvFreq Verif.CtvObj Verif.CcmFit.
Require Import Verif.RtvModel Verif.RtvSpec Verif.RtvProofs Verif.RtvObj.
Import ListNotations.
Local Open Scope R_scope.
Local Notation vec := (nat -> R).

(** The assignment in line 1105 changes Y, for a dictionary with several channels, exactly if there is a single signal or as many signals
    as channels. *)
Theorem C81_view N M dN Cd KS : (0 < N)%nat -> (0 < M)%nat -> (0 < dN)%nat -> (1 < Cd)%nat -> (0 < KS)%nat -> (reshape_view N M dN Cd KS <-> KS = 1%nat \/ KS = Cd).
Proof.
  intros HN HM Hd HC HK. split.
  - intros V. destruct (Nat.eq_dec KS 1) as [E|E]; [left; exact E|]. destruct (Nat.eq_dec KS Cd) as [E'|E']; [right; exact E'|].
    exfalso. revert V. apply no_view; assumption.
  - intros [E|E]; [apply view_1|apply view_C]; assumption.
Qed.

Section c81.
Variables (s dsh : nat -> nat) (axes : list nat) (M Cd : nat) (D : nat -> nat -> index -> R) (S : nat -> index -> R) (G : nat -> index -> R) (wtv : nat -> R).
Variables (Cx KS : nat) (bases : nat -> index).
Hypothesis ND : NoDup axes.
Hypothesis Hne : axes <> [].
Hypothesis H2 : forall ax, In ax axes -> (2 <= s ax)%nat.
Hypothesis HG : gradient_filters axes = Some G.
Hypothesis HM : (0 < M)%nat.
Hypothesis HC : (0 < Cd)%nat.
Hypothesis HN : (0 < Cx * KS)%nat.
Notation K := (length axes).
Notation P := (size s axes).
Notation NS := (Cx * KS)%nat.
Notation n := (M * NS * P)%nat.
Notation o := (K * Cd * NS * P)%nat.
Notation A := (rtv_cnst_A s dsh axes M Cd D G wtv Cx KS bases).
Notation rec := (wrec s dsh axes M D Cx KS wtv).

(** The components of cnst_A are the periodic differences of the weighted reconstruction, and the coefficients. *)
Theorem C81_A x t p : (t < NS)%nat -> on_slice s axes (bases t) p ->
  (forall j c, (j < K)%nat -> (c < Cd)%nat -> sep1 s axes Cd Cx KS (A x) t j c p = diff s j (rec x t c) p) /\
  (forall m, (m < M)%nat -> sep0 s axes Cd Cx KS (A x) t m p = cmap s axes Cx KS x t m p).
Proof.
  intros Ht Hp. rewrite (A_KR s dsh axes M Cd D G wtv Cx KS bases ND Hne H2 HG HM HC HN). pose proof (rank_lt s axes p (proj1 Hp)) as Hr. pose proof (place_rank s axes ND (bases t) p Hp) as E. split.
  - intros j c Hj Hc. unfold sep1, slice. rewrite (KR_at s dsh axes M Cd D wtv Cx KS bases H2 HM HC HN) by assumption. rewrite E. reflexivity.
  - intros m Hm. unfold sep0, cmap. replace (o + (m * NS + t) * P + rank s axes p)%nat with (o + ((m * NS + t) * P + rank s axes p))%nat by lia.
    apply (KR_tail s dsh axes M Cd D wtv Cx KS bases H2 HM HC HN). assert (m * NS + t < M * NS)%nat by nia. nia.
Qed.
Variables (lmbda mu rho rlx : R) (wl1 : vec).
Hypothesis Hr : 0 < rho.
(** The array Xf which is passed to cnst_A is the transform of X. *)
Theorem C81_Xf Y0 U0 Y1 U1 m i : (m < M)%nat -> inr s axes i ->
  rfftn s axes (rtv_x s dsh axes M Cd D S G wtv rho Y0 U0 Y1 U1 m) i = rtv_xf s dsh axes M Cd D S G wtv rho Y0 U0 Y1 U1 m i.
Proof. apply rtv_inv; assumption. Qed.
(** The weights are non-negative. *)
Hypothesis Hl : 0 <= lmbda.
Hypothesis Hmu : 0 <= mu.
Hypothesis Hwl : forall k, (k < n)%nat -> 0 <= wl1 k.
Notation problem := (rec_problem s dsh axes M Cd D S Cx KS bases wtv wl1 lmbda mu).
Notation it w := (rtv_iterate s dsh axes M Cd D S G wtv Cx KS bases w lmbda mu rho rlx wl1).
Notation KRx := (KR s dsh axes M Cd D wtv Cx KS bases).
Let prob' := prob s dsh axes M Cd D S wtv Cx KS bases H2 HM HC HN lmbda mu wl1.
Let itT := it_true s dsh axes M Cd D S G wtv Cx KS bases ND Hne H2 HG HM HC HN lmbda mu rho rlx wl1.

(** If the assignment changes Y, then a state which is not changed by an iteration is a solution, *)
Theorem C81_stationary st : rlx <> 0 -> let st' := it true 1 st in
  (forall i, (i < o + n)%nat -> sY st' i = sY st i) -> (forall i, (i < o + n)%nat -> sU st' i = sU st i) -> argmin (fun _ => True) problem (sX st').
Proof.
  intros Hx. rewrite itT. intros st' E1 E2.
  destruct (split_stationary _ _ _ _ _ _ _ _ rlx rho _ _ (HS_linear s dsh axes M Cd D NS bases) (KR_linear s dsh axes M Cd D wtv Cx KS bases)
    (gg_convex s axes M NS (K * Cd * Cx) (KS * P) lmbda mu wl1 Hl Hmu Hwl) (Lgg_nn s axes M NS (KS * P) lmbda mu wl1 Hl Hmu Hwl) (ggr_lip s axes M Cd Cx KS lmbda mu wl1 Hl Hmu Hwl) Hr
    (Xmin s dsh axes M Cd D S G wtv Cx KS bases ND Hne H2 HG HM HC HN rho Hr _) (Ymin s axes M Cd Cx KS bases lmbda mu rho wl1 Hl Hmu Hr Hwl (fun _ => 0)) st Hx E1 E2) as [Q0 _].
  revert Q0. apply argmin_ext. apply prob'.
Qed.
(** and the iterates converge to a solution from every initial state. *)
Theorem C81_limit st : 0 < rlx < 2 -> (exists p, argmin (fun _ => True) problem p) ->
  exists p, argmin (fun _ => True) problem p /\ (forall i, (i < n)%nat -> Un_cv (fun k => sX (it true k st) i) (p i)) /\ (forall i, (i < n)%nat -> Un_cv (fun k => sY (it true k st) (o + i)%nat) (p i)).
Proof.
  intros Hx [p0 Hp0].
  destruct (split_limit n _ _ _ _ _ _ _ _ rlx rho _ _ (HS_linear s dsh axes M Cd D NS bases) (HS_local s dsh axes M Cd D NS bases ND H2 HM HC HN)
    (KR_linear s dsh axes M Cd D wtv Cx KS bases) (fun x y E i _ => KR_local s dsh axes M Cd D G wtv Cx KS bases ND H2 HG HM HC HN x y E i)
    (gg_convex s axes M NS (K * Cd * Cx) (KS * P) lmbda mu wl1 Hl Hmu Hwl) (gg_nonneg s axes M NS (K * Cd * Cx) (KS * P) lmbda mu wl1 Hl Hmu Hwl) (Lgg_nn s axes M NS (KS * P) lmbda mu wl1 Hl Hmu Hwl) (ggr_lip s axes M Cd Cx KS lmbda mu wl1 Hl Hmu Hwl) Hr
    (Xmin s dsh axes M Cd D S G wtv Cx KS bases ND Hne H2 HG HM HC HN rho Hr _) (Ymin s axes M Cd Cx KS bases lmbda mu rho wl1 Hl Hmu Hr Hwl (fun _ => 0))
    1 ltac:(lra) (RtvObj.inj s dsh axes M Cd D wtv Cx KS bases H2 HM HC HN) st Hx) as (p & Q0 & Cvx & Cvy).
  - exists p0. revert Hp0. apply argmin_ext. intros x. symmetry. apply prob'.
  - exists p. split; [revert Q0; apply argmin_ext; apply prob'|]. split.
    + intros i Hi. specialize (Cvx i Hi). revert Cvx. apply AdmmConv.cv_ext. intros k. rewrite itT. reflexivity.
    + intros i Hi. specialize (Cvy (o + i)%nat ltac:(lia)). rewrite Rminus_0_r, (KR_tail s dsh axes M Cd D wtv Cx KS bases H2 HM HC HN) in Cvy by exact Hi. revert Cvy. apply AdmmConv.cv_ext. intros k. rewrite itT. reflexivity.
Qed.
(** With positive weights there are solutions. *)
Theorem C81_exists : 0 < lmbda -> 0 < mu -> (forall k, (k < n)%nat -> 0 < wl1 k) -> exists p, argmin (fun _ => True) problem p.
Proof.
  intros Hl0 Hm0 Hw0. destruct (ggr_coercive s axes M Cd Cx KS lmbda mu wl1 Hl0 Hm0 Hw0) as (a & Ha & Ea).
  destruct (split_exists n (NS * Cd * P) (o + n) _ (svc s axes Cd S bases) _ (fun _ => 0) _ _ (HS_linear s dsh axes M Cd D NS bases) (HS_local s dsh axes M Cd D NS bases ND H2 HM HC HN)
    (KR_linear s dsh axes M Cd D wtv Cx KS bases) (fun x y E i _ => KR_local s dsh axes M Cd D G wtv Cx KS bases ND H2 HG HM HC HN x y E i) (Lgg_nn s axes M NS (KS * P) lmbda mu wl1 Hl Hmu Hwl) (ggr_lip s axes M Cd Cx KS lmbda mu wl1 Hl Hmu Hwl)
    1 ltac:(lra) (RtvObj.inj s dsh axes M Cd D wtv Cx KS bases H2 HM HC HN) a 0 Ha Ea) as [p Q0].
  exists p. revert Q0. apply argmin_ext. apply prob'.
Qed.

(** Otherwise the gradient part of Y keeps its initial value and the parameter mu has no effect; *)
Theorem C81_copy k st mu' : rtv_iterate s dsh axes M Cd D S G wtv Cx KS bases false lmbda mu' rho rlx wl1 k st = it false k st /\
  forall i, (i < o)%nat -> sY (it false k st) i = sY st i.
Proof.
  split; [|apply it_false_y]. induction k as [|k IH]; [reflexivity|]. cbn [rtv_iterate]. rewrite IH. reflexivity.
Qed.
(** the reconstructions are required to be constant. *)
Definition flat_rec (x : vec) : Prop := forall t j c p, (t < NS)%nat -> (j < K)%nat -> (c < Cd)%nat -> on_slice s axes (bases t) p -> diff s j (rec x t c) p = 0.
Lemma flat_KR x : flat_rec x <-> forall i, (i < o)%nat -> KRx x i = 0.
Proof.
  pose proof (PP s axes H2) as HP. split.
  - intros F i Hi. unfold KR. pose proof Hi as Hi'. apply Nat.ltb_lt in Hi'. rewrite Hi'. cbv zeta. apply F.
    + apply Nat.mod_upper_bound. lia.
    + apply Nat.div_lt_upper_bound; [lia|]; apply Nat.div_lt_upper_bound; [lia|]; apply Nat.div_lt_upper_bound; nia.
    + apply Nat.mod_upper_bound. lia.
    + apply (pl' s axes bases ND H2). apply Nat.mod_upper_bound. lia.
  - intros F t j c p Ht Hj Hc Hp. pose proof (rank_lt s axes p (proj1 Hp)) as Hk. pose proof (KR_at s dsh axes M Cd D wtv Cx KS bases H2 HM HC HN x j c t (rank s axes p) Hj Hc Ht Hk) as E.
    rewrite (place_rank s axes ND (bases t) p Hp) in E. rewrite <- E. apply F. assert (j * Cd + c < K * Cd)%nat by nia. assert ((j * Cd + c) * NS + t < K * Cd * NS)%nat by nia. nia.
Qed.
Let itF := it_false s dsh axes M Cd D S G wtv Cx KS bases ND Hne H2 HG HM HC HN lmbda mu rho rlx wl1.
Theorem C81_copy_stationary st : rlx <> 0 -> (forall i, (i < o)%nat -> sY st i = 0) -> let st' := it false 1 st in
  (forall i, (i < o + n)%nat -> sY st' i = sY st i) -> (forall i, (i < o + n)%nat -> sU st' i = sU st i) ->
  argmin flat_rec (fun x => rec_fit s dsh axes M Cd D S Cx KS bases x + rec_l1 s axes M Cx KS wl1 lmbda x) (sX st').
Proof.
  intros Hx HY0. rewrite itF. intros st' E1 E2.
  destruct (C36_stationary_optimal (o + n) KRx eq_B (fun _ => 0) rlx rho (fun _ => True) (fixed s axes Cd Cx KS (sY st)) (lsq (NS * Cd * P) (HS s dsh axes M Cd D NS bases) (svc s axes Cd S bases))
    (gt s axes M Cd Cx KS lmbda wl1) _ _ (linear_affine _ _ (KR_linear s dsh axes M Cd D wtv Cx KS bases)) (eqB_affine (o + n)) (lsq_convex _ _ _ (HS_linear s dsh axes M Cd D NS bases))
    (gt_convex s axes M Cd Cx KS lmbda wl1 Hl Hwl (sY st)) Hr (Xmin s dsh axes M Cd D S G wtv Cx KS bases ND Hne H2 HG HM HC HN rho Hr _)
    (Ymin_fixed s axes M Cd Cx KS bases H2 HM HC HN lmbda mu rho wl1 Hl Hr Hwl (sY st)) st Hx) as [[(_ & Fy & Gp) Sol] _].
  { intros i Hi. unfold eq_B. f_equal. apply E1. exact Hi. }
  { exact E2. }
  fold st' in Fy, Gp, Sol. change (iteration KRx eq_B (fun _ => 0) rlx (rtv_xstep s dsh axes M Cd D S G wtv Cx KS bases rho) (fun ax u => rtv_ystep s axes Cd Cx KS false lmbda mu rho wl1 (sY st) ax u) st) with st' in *.
  assert (Gk : forall i, (i < o + n)%nat -> sY st' i = KRx (sX st') i) by (intros i Hi; specialize (Gp i Hi); unfold gap, eq_B in Gp; lra).
  assert (T : forall y, (forall i, (i < o + n)%nat -> y i = KRx (sX st') i) -> gt s axes M Cd Cx KS lmbda wl1 y = rec_l1 s axes M Cx KS wl1 lmbda (sX st')).
  { intros y Ey. rewrite <- (gt_l1 s dsh axes M Cd D wtv Cx KS bases H2 HM HC HN). unfold gt, tail1. apply sumn_ext. intros k Hk. rewrite Ey by lia. reflexivity. }
  split.
  - apply flat_KR. intros i Hi. rewrite <- Gk by lia. rewrite (Fy i Hi). apply HY0. exact Hi.
  - intros x Hfx. pose proof (proj1 (flat_KR x) Hfx) as Hfx'. clear Hfx. rename Hfx' into Hfx. specialize (Sol x (KRx x)). rewrite (T (sY st') Gk), (gt_l1 s dsh axes M Cd D wtv Cx KS bases H2 HM HC HN) in Sol. rewrite !(lsq_rec s dsh axes M Cd D S Cx KS bases H2 HM HC HN) in Sol.
    apply Sol. split; [exact Logic.I|]. split; [intros i Hi; rewrite (Hfx i Hi); symmetry; apply HY0; exact Hi|]. intros i _. unfold gap, eq_B. ring.
Qed.
(** If this problem has a solution with multipliers, then the gradient of the reconstructions tends to zero, for every mu. *)
Theorem C81_copy_limit st p u : 0 < rlx < 2 -> (forall i, (i < o)%nat -> sY st i = 0) -> flat_rec p ->
  (forall x y, rec_fit s dsh axes M Cd D S Cx KS bases p + rec_l1 s axes M Cx KS wl1 lmbda p <=
     rec_fit s dsh axes M Cd D S Cx KS bases x + rec_l1 s axes M Cx KS wl1 lmbda y + sumn o (fun i => u i * A x i) + sumn n (fun i => u (o + i)%nat * (x i - y i))) ->
  forall t j c q, (t < NS)%nat -> (j < K)%nat -> (c < Cd)%nat -> on_slice s axes (bases t) q -> Un_cv (fun k => diff s j (rec (sX (it false k st)) t c) q) 0.
Proof.
  intros Hx HY0 Hp Hsad t j c q Ht Hj Hc Hq.
  assert (Sad : saddle (o + n) KRx eq_B (fun _ => 0) rho (fun _ => True) (fixed s axes Cd Cx KS (sY st)) (lsq (NS * Cd * P) (HS s dsh axes M Cd D NS bases) (svc s axes Cd S bases))
    (gt s axes M Cd Cx KS lmbda wl1) p (KRx p) (fun i => / rho * u i)).
  { pose proof (proj1 (flat_KR p) Hp) as Hp0. clear Hp. rename Hp0 into Hp. split.
    - split; [exact Logic.I|]. split; [intros i Hi; rewrite (Hp i Hi); symmetry; apply HY0; exact Hi|]. intros i _. unfold gap, eq_B. ring.
    - intros x' y' _ Fy. rewrite (gt_l1 s dsh axes M Cd D wtv Cx KS bases H2 HM HC HN). rewrite !(lsq_rec s dsh axes M Cd D S Cx KS bases H2 HM HC HN).
      specialize (Hsad x' (fun k => y' (o + k)%nat)). eapply Rle_trans; [exact Hsad|]. apply Req_le.
      assert (E1 : rec_l1 s axes M Cx KS wl1 lmbda (fun k => y' (o + k)%nat) = gt s axes M Cd Cx KS lmbda wl1 y').
      { unfold rec_l1, gt, tail1. rewrite <- sumn_scal. apply sumn_ext. intros. ring. }
      rewrite E1. rewrite Rplus_assoc. f_equal. unfold dot. rewrite <- sumn_scal, sumn_split. f_equal.
      + apply sumn_ext. intros i Hi. rewrite (A_KR s dsh axes M Cd D G wtv Cx KS bases ND Hne H2 HG HM HC HN). unfold gap, eq_B. rewrite (Fy i Hi), (HY0 i Hi). field. lra.
      + apply sumn_ext. intros i Hi. unfold gap, eq_B. rewrite (KR_tail s dsh axes M Cd D wtv Cx KS bases H2 HM HC HN) by exact Hi. field. lra. }
  destruct (C38_convergence (o + n) KRx eq_B (fun _ => 0) rlx rho (fun _ => True) (fixed s axes Cd Cx KS (sY st)) (lsq (NS * Cd * P) (HS s dsh axes M Cd D NS bases) (svc s axes Cd S bases))
    (gt s axes M Cd Cx KS lmbda wl1) _ _ (linear_affine _ _ (KR_linear s dsh axes M Cd D wtv Cx KS bases)) (eqB_affine (o + n)) (lsq_convex _ _ _ (HS_linear s dsh axes M Cd D NS bases))
    (gt_convex s axes M Cd Cx KS lmbda wl1 Hl Hwl (sY st)) Hr (Xmin s dsh axes M Cd D S G wtv Cx KS bases ND Hne H2 HG HM HC HN rho Hr _)
    (Ymin_fixed s axes M Cd Cx KS bases H2 HM HC HN lmbda mu rho wl1 Hl Hr Hwl (sY st)) st _ _ _ Hx Sad) as [Pr _].
  pose proof (rank_lt s axes q (proj1 Hq)) as Hk. set (i := (((j * Cd + c) * NS + t) * P + rank s axes q)%nat).
  assert (Hi : (i < o)%nat) by (unfold i; assert (j * Cd + c < K * Cd)%nat by nia; assert ((j * Cd + c) * NS + t < K * Cd * NS)%nat by nia; nia).
  pose proof (cv_nrm_coord (o + n) _ Pr i ltac:(lia)) as Q. cbv beta in Q. revert Q. apply AdmmConv.cv_ext. intros k.
  rewrite <- (itF k st). unfold rsdl_r, eq_B. rewrite (it_false_y s dsh axes M Cd D S G wtv Cx KS bases lmbda mu rho rlx wl1 k st i Hi), (HY0 i Hi).
  unfold i. rewrite (KR_at s dsh axes M Cd D wtv Cx KS bases H2 HM HC HN) by assumption. rewrite (place_rank s axes ND (bases t) q Hq). ring.
Qed.
End c81.

(** ** Three signals with two channels, two samples each; the dictionary is one impulse *)
Module Rec3.
Definition s2 : nat -> nat := fun _ => 2%nat.
Definition d1 : nat -> nat := fun _ => 1%nat.
Definition ax : list nat := [0%nat].
Definition Dd : nat -> nat -> index -> R := fun _ _ _ => 1.
Definition Sg : nat -> index -> R := fun _ p => INR (p O).
Definition Gg : nat -> index -> R := fun j => if mem j ax then grad_filter ax j else fun _ => 0.
Definition bs : nat -> index := fun t k => t.
Definition w1 : nat -> R := fun _ => 1.
Lemma ND : NoDup ax. Proof. repeat constructor. intros []. Qed.
Lemma Hne : ax <> []. Proof. discriminate. Qed.
Lemma H2 : forall a, In a ax -> (2 <= s2 a)%nat. Proof. intros. unfold s2. lia. Qed.
Lemma HG : gradient_filters ax = Some Gg. Proof. reflexivity. Qed.
Notation rec := (wrec s2 d1 ax 1 Dd 1 3 w1).
Lemma rec_val x t c p : (p O < 2)%nat -> rec x t c p = x (t * 2 + p O)%nat.
Proof.
  intros Hp. unfold wrec, w1. cbn [sumn]. unfold conv, ax. cbn [total]. unfold s2 at 1. cbn [sumn]. unfold ext, Dd, set_at, d1. cbn [forallb Nat.eqb Nat.ltb Nat.leb andb]. unfold cmap, minus, s2, ax. cbn [existsb Nat.eqb orb size rank fold_right map Nat.mul Nat.add].
  replace ((p O + 2 - 0) mod 2)%nat with (p O) by (destruct (p O) as [|[|k]]; [reflexivity|reflexivity|lia]).
  match goal with |- _ = x ?a => match goal with |- context [x ?b] => replace b with a by (cbn; lia) end end. ring.
Qed.
Lemma place_val t k : (k < 2)%nat -> place s2 ax (bs t) k O = k.
Proof. intros Hk. destruct k as [|[|k]]; [reflexivity|reflexivity|lia]. Qed.
Lemma diff_val x t c k : (k < 2)%nat -> diff s2 0 (rec x t c) (place s2 ax (bs t) k) = x (t * 2 + k)%nat - x (t * 2 + (1 - k))%nat.
Proof.
  intros Hk. unfold diff. rewrite !rec_val.
  - rewrite place_val by exact Hk. unfold back, set_at. cbn [Nat.eqb]. rewrite place_val by exact Hk. destruct k as [|[|k]]; [reflexivity|reflexivity|lia].
  - unfold back, set_at. cbn [Nat.eqb]. apply Nat.mod_upper_bound. unfold s2. lia.
  - rewrite place_val by exact Hk. exact Hk.
Qed.
Lemma fit_val x : rec_fit s2 d1 ax 1 2 Dd Sg 1 3 bs x = sumn 3 (fun t => (x (t * 2)%nat - 0) * (x (t * 2)%nat - 0) + (x (t * 2 + 1)%nat - 1) * (x (t * 2 + 1)%nat - 1)).
Proof.
  unfold rec_fit. apply sumn_ext. intros t Ht. unfold datafit.
  assert (E : forall c p, (p O < 2)%nat -> synth s2 d1 ax 1 Dd (cmap s2 ax 1 3 x t) c p = x (t * 2 + p O)%nat).
  { intros c p Hp. rewrite <- (rec_val x t c p Hp). unfold synth, wrec, w1. apply sumn_ext. intros. ring. }
  cbn [sumn]. unfold sqn, ax. cbn [total]. change (s2 0) with 2%nat. cbn [sumn]. unfold ax in E. rewrite !E by (unfold set_at; cbn; lia). unfold Sg, set_at. cbn [Nat.eqb INR]. rewrite Nat.add_0_r. field.
Qed.
Definition half : vec := fun _ => / 2.
Definition sig : vec := fun i => INR (i mod 2).
(** The value of the problem for constant reconstructions, and for the signal itself. *)
Lemma flat_eq x : flat_rec s2 d1 ax 1 2 Dd w1 1 3 bs x -> forall t, (t < 3)%nat -> x (t * 2)%nat = x (t * 2 + 1)%nat.
Proof.
  intros F t Ht. specialize (F t O O (place s2 ax (bs t) 0) ltac:(lia) ltac:(cbn; lia) ltac:(lia)). rewrite diff_val in F by lia. cbn [Nat.sub] in F. rewrite Nat.add_0_r in F.
  apply Rminus_diag_uniq. apply F. apply (pl' s2 ax bs ND H2). cbn. lia.
Qed.
Lemma flat_fit x : (forall t, (t < 3)%nat -> x (t * 2)%nat = x (t * 2 + 1)%nat) -> 3 / 2 <= rec_fit s2 d1 ax 1 2 Dd Sg 1 3 bs x.
Proof.
  intros F. rewrite fit_val. cbn [sumn Nat.mul Nat.add]. pose proof (F 0%nat ltac:(lia)) as E0. pose proof (F 1%nat ltac:(lia)) as E1. pose proof (F 2%nat ltac:(lia)) as E2. cbn [Nat.mul Nat.add] in E0, E1, E2. rewrite E0, E1, E2.
  assert (Q : forall z, / 2 <= (z - 0) * (z - 0) + (z - 1) * (z - 1)) by (intros z; pose proof (Rle_0_sqr (z - / 2)) as Q; unfold Rsqr in Q; lra).
  pose proof (Q (x 1%nat)). pose proof (Q (x 3%nat)). pose proof (Q (x 5%nat)). lra.
Qed.
Lemma tv_nonneg x : 0 <= rec_tv s2 d1 ax 1 2 Dd 1 3 bs w1 x.
Proof. unfold rec_tv. apply sumn_nonneg. intros k _. apply sumn_nonneg. intros i _. apply sqrt_pos. Qed.
Lemma sig_tv : rec_tv s2 d1 ax 1 2 Dd 1 3 bs w1 sig = 6 * sqrt 2.
Proof.
  unfold rec_tv. rewrite (sumn_ext 3 _ (fun k => 2 * sqrt 2)); [cbn [sumn]; ring|]. intros k Hk. change (size s2 ax) with 2%nat. rewrite (sumn_ext 2 _ (fun _ => sqrt 2)); [cbn [sumn]; ring|]. intros i Hi. f_equal.
  change (length ax) with 1%nat. cbn [sumn Nat.mul Nat.add]. rewrite !diff_val by exact Hi. unfold sig. rewrite !(Nat.add_comm (k * 2)), !Nat.mod_add by lia. destruct i as [|[|i]]; [| |lia]; cbn; ring.
Qed.
Lemma sig_fit : rec_fit s2 d1 ax 1 2 Dd Sg 1 3 bs sig = 0.
Proof. rewrite fit_val. unfold sig. cbn [sumn Nat.mul Nat.add]. cbn. ring. Qed.
End Rec3.
Import Rec3.

(** For three signals and a dictionary with two channels the assignment is without effect.  For every mu, and lmbda = 0, the objective of
    the limit of the iterates is at least 3/2, although the objective of the signals themselves is at most 9 mu. *)
Theorem C81_copy_refuted : ~ reshape_view 2 1 1 2 3 /\ forall mu rho rlx wl1, 0 <= mu -> 0 < rho -> 0 < rlx < 2 -> (forall k, 0 <= wl1 k) ->
  forall st q, (forall i, (i < 12)%nat -> sY st i = 0) ->
  (forall i, (i < 6)%nat -> Un_cv (fun k => sX (rtv_iterate s2 d1 ax 1 2 Dd Sg Gg w1 1 3 bs false 0 mu rho rlx wl1 k st) i) (q i)) ->
  3 / 2 <= rec_problem s2 d1 ax 1 2 Dd Sg 1 3 bs w1 wl1 0 mu q /\ rec_problem s2 d1 ax 1 2 Dd Sg 1 3 bs w1 wl1 0 mu sig <= 9 * mu.
Proof.
  split. { intros V. apply C81_view in V; lia. }
  intros mu rho rlx wl1 Hmu Hr Hx Hw st q HY Hq. split.
  - assert (L : forall t, (t < 3)%nat -> q (t * 2)%nat = q (t * 2 + 1)%nat).
    { intros t Ht. apply Rminus_diag_uniq. set (u := fun i => if Nat.ltb i 12 then (if Nat.eqb (i mod 2) 0 then - / 2 else 0) else 0).
      assert (Fl : flat_rec s2 d1 ax 1 2 Dd w1 1 3 bs half).
      { intros t' j c p Ht' Hj Hc Hp. cbn in Hj. replace j with O by lia. unfold diff. destruct Hp as [Hp _]. specialize (Hp O ltac:(left; reflexivity)). rewrite !rec_val; [unfold half; ring| |exact Hp]. unfold back, set_at. cbn [Nat.eqb]. apply Nat.mod_upper_bound. unfold s2. lia. }
      pose proof (C81_copy_limit s2 d1 ax 1 2 Dd Sg Gg w1 1 3 bs ND Hne H2 HG ltac:(lia) ltac:(lia) ltac:(lia) 0 mu rho rlx wl1 Hr ltac:(lra) ltac:(intros; apply Hw) st half u Hx HY Fl) as Lim.
      assert (Sd : forall x y, rec_fit s2 d1 ax 1 2 Dd Sg 1 3 bs half + rec_l1 s2 ax 1 1 3 wl1 0 half <=
         rec_fit s2 d1 ax 1 2 Dd Sg 1 3 bs x + rec_l1 s2 ax 1 1 3 wl1 0 y + sumn (length ax * 2 * (1 * 3) * size s2 ax) (fun i => u i * rtv_cnst_A s2 d1 ax 1 2 Dd Gg w1 1 3 bs x i) + sumn (1 * (1 * 3) * size s2 ax) (fun i => u (length ax * 2 * (1 * 3) * size s2 ax + i)%nat * (x i - y i))).
      { intros x y. unfold rec_l1. rewrite !Rmult_0_l. rewrite (A_KR s2 d1 ax 1 2 Dd Gg w1 1 3 bs ND Hne H2 HG) by lia.
        rewrite (sumn_0 (1 * (1 * 3) * size s2 ax)) by (intros i Hi; unfold u; assert (E : Nat.ltb (length ax * 2 * (1 * 3) * size s2 ax + i) 12 = false) by (apply Nat.ltb_ge; cbn; lia); rewrite E; ring).
        change (length ax * 2 * (1 * 3) * size s2 ax)%nat with (2 * 3 * 2)%nat. rewrite (sumn_flat 2 (2 * 3)), (sumn_flat 3 2) by lia.
        rewrite (sumn_ext 2 _ (fun c => sumn 3 (fun t => - / 2 * (x (t * 2)%nat - x (t * 2 + 1)%nat)))).
        2:{ intros c Hc. apply sumn_ext. intros t' Ht'. cbn [sumn].
            pose proof (KR_at s2 d1 ax 1 2 Dd w1 1 3 bs H2 ltac:(lia) ltac:(lia) ltac:(lia) x O c t' O ltac:(cbn; lia) Hc ltac:(lia) ltac:(cbn; lia)) as E. rewrite diff_val in E by lia.
            change (((0 * 2 + c) * (1 * 3) + t') * size s2 ax + 0)%nat with ((c * 3 + t') * 2 + 0)%nat in E. rewrite E. unfold u.
            assert (L1 : Nat.ltb ((c * 3 + t') * 2 + 0) 12 = true) by (apply Nat.ltb_lt; lia). rewrite L1.
            rewrite !(Nat.add_comm ((c * 3 + t') * 2)), !Nat.mod_add by lia. cbn [Nat.modulo Nat.divmod fst snd Nat.sub Nat.eqb].
            assert (L2 : Nat.ltb (1 + (c * 3 + t') * 2) 12 = true) by (apply Nat.ltb_lt; lia). rewrite L2, Nat.add_0_r. ring. }
        rewrite !fit_val. unfold half. cbn [sumn Nat.mul Nat.add].
        assert (Q : forall a b, (/ 2 - 0) * (/ 2 - 0) + (/ 2 - 1) * (/ 2 - 1) <= (a - 0) * (a - 0) + (b - 1) * (b - 1) - (a - b)) by (intros a b; pose proof (Rle_0_sqr (a - / 2)) as Q1; pose proof (Rle_0_sqr (b - / 2)) as Q2; unfold Rsqr in Q1, Q2; lra).
        pose proof (Q (x 0%nat) (x 1%nat)). pose proof (Q (x 2%nat) (x 3%nat)). pose proof (Q (x 4%nat) (x 5%nat)). lra. }
      specialize (Lim Sd t O O (place s2 ax (bs t) 0) ltac:(lia) ltac:(cbn; lia) ltac:(lia) ltac:(apply (pl' s2 ax bs ND H2); cbn; lia)).
      apply (UL_sequence _ _ _ (CV_minus _ _ _ _ (Hq (t * 2)%nat ltac:(lia)) (Hq (t * 2 + 1)%nat ltac:(lia)))). revert Lim. apply AdmmConv.cv_ext. intros k. rewrite diff_val by lia. cbn [Nat.sub]. rewrite Nat.add_0_r. reflexivity. }
    unfold rec_problem, rec_l1. pose proof (flat_fit q L). pose proof (Rmult_le_pos _ _ Hmu (tv_nonneg q)). lra.
  - unfold rec_problem, rec_l1. rewrite sig_fit, sig_tv. assert (sqrt 2 <= 3 / 2) by (rewrite <- (sqrt_Rsqr (3 / 2)) by lra; apply sqrt_le_1; unfold Rsqr; lra). nra.
Qed.

(** The dual residual: the block of the coefficients is repeated for each channel of the dictionary. *)
Theorem C81_dual_refuted s dsh axes M D G wtv Cd Y0 base : NoDup axes -> axes <> [] -> (forall ax, In ax axes -> (0 < s ax)%nat) ->
  sumn Cd (fun c => sumn M (fun m => sqn s axes (rtv_AT s dsh axes D G wtv Y0 (fun _ _ _ => 0) c m) base)) = INR Cd * sumn M (fun m => sqn s axes (Y0 m) base).
Proof.
  intros ND Hne Hs. rewrite <- sumn_const. apply sumn_ext. intros c _. apply sumn_ext. intros m _. apply CscIterProofs.sqn_ext; [exact ND|]. intros p [Hp _]. unfold rtv_AT.
  rewrite sumn_0; [ring|]. intros j _. unfold rtv_A1T.
  assert (Z : forall i, rfftn s axes (fun _ => 0) i = c0).
  { intros i. transitivity (rfftn s axes (fun _ => 0 * 0) i); [f_equal; extensionality q; ring|]. rewrite (hat_scal s axes Hne 0 (fun _ => 0)). unfold cmul, ofR, c0, re, im. cbn [fst snd]. f_equal; ring. }
  transitivity (irfftn s axes (rfftn s axes (fun _ => 0)) p); [|apply inv_rfft; assumption]. f_equal. extensionality i. rewrite Z. unfold cmul, c0, re, im. cbn [fst snd]. f_equal; ring.
Qed.

(** With two signals the hypotheses hold, and the iterates converge to a solution. *)
Example C81_instance : reshape_view 2 1 1 2 2 /\
  exists p, argmin (fun _ => True) (rec_problem s2 d1 ax 1 2 Dd Sg 1 2 bs w1 (fun _ => 1) 1 1) p /\
    forall i, (i < 4)%nat -> Un_cv (fun k => sX (rtv_iterate s2 d1 ax 1 2 Dd Sg Gg w1 1 2 bs true 1 1 1 1 (fun _ => 1) k (mkState (fun _ => 0) (fun _ => 0) (fun _ => 0) (fun _ => 0))) i) (p i).
Proof.
  split; [apply C81_view; lia|].
  destruct (C81_limit s2 d1 ax 1 2 Dd Sg Gg w1 1 2 bs ND Hne H2 HG ltac:(lia) ltac:(lia) ltac:(lia) 1 1 1 1 (fun _ => 1) ltac:(lra) ltac:(lra) ltac:(lra) ltac:(intros; lra) (mkState (fun _ => 0) (fun _ => 0) (fun _ => 0) (fun _ => 0)) ltac:(lra)) as (p & Ap & Cx & _).
  { apply (C81_exists s2 d1 ax 1 2 Dd Sg Gg w1 1 2 bs ND H2 HG); try lia; try lra; intros; lra. }
  exists p. split; [exact Ap|]. intros i Hi. apply Cx. cbn. lia.
Qed.
Print Assumptions C81_view.
Print Assumptions C81_A.
Print Assumptions C81_Xf.
Print Assumptions C81_stationary.
Print Assumptions C81_limit.
Print Assumptions C81_exists.
Print Assumptions C81_copy.
Print Assumptions C81_copy_stationary.
Print Assumptions C81_copy_limit.
Print Assumptions C81_copy_refuted.
Print Assumptions C81_dual_refuted.
