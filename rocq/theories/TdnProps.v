(** C89: TVL2Denoise and TVL1Denoise, whose x step is an inner loop of relaxation sweeps, converge to a solution of their problem
    when MaxGSIter is even (the default is 2) and GSTol is 0 (the default); with MaxGSIter = 1 they need not converge. *)
Require Import List Arith ZArith Reals Bool Lra Lia FunctionalExtensionality.
Require Import Verif.RVec Verif.NdIndex Verif.NdSum Verif.SignalModel Verif.SignalProofs Verif.AdmmModel Verif.AdmmSpec Verif.AdmmProps Verif.AdmmProofs Verif.AdmmConv Verif.Compact.
Require Import Verif.ProxModel Verif.StepsModel Verif.StepsSpec Verif.StepsProofs Verif.LimitProofs Verif.DualProofs Verif.SplitConv Verif.JacProofs.
Require Import Verif.TvdModel Verif.TvdSteps Verif.TdnModel Verif.TdnSpec Verif.TdnProofs.
Import ListNotations.
Local Open Scope R_scope.

Lemma amin_ext (F F' : vec -> R) p : (forall x, F x = F' x) -> argmin (fun _ => True) F p -> argmin (fun _ => True) F' p.
Proof. intros E [_ M]. split; [exact I|]. intros x _. rewrite <- !E. apply M. exact I. Qed.
Section tdn.
Context (s : list nat) (K C : nat) (lmbda rho rlx tol : R) (S wd w : nat -> R).
Let axes := seq 0 K.
Let P := prod s.
Let n := (C * P)%nat.
Let m2 := (K * C * P)%nat.
Let m1 := (K * C * P + n)%nat.
Context (HP : (0 < P)%nat) (HC : (0 < C)%nat) (Hv : valid_axes s axes).
Context (Hlam : 0 <= lmbda) (Hw : forall q, (q < P)%nat -> 0 <= w q).
Let A2 := td2_A s axes C.
Let A1 := td1_A s axes C.
Let c1 := td1_c s axes C S.
Let g2 := tvg (K * C) P lmbda w.
Let g1 := fun y => tvg (K * C) P lmbda w y + tail1 m2 n wd y.

Lemma H2_at x i : (i < n)%nat -> H2 s C wd x i = wd i * x i.
Proof. intros Hi. unfold H2. destruct (Nat.ltb_spec i (C * prod s)) as [|L]; [reflexivity|]. exfalso. apply (Nat.lt_irrefl i). apply (Nat.lt_le_trans _ n); [exact Hi|exact L]. Qed.
Lemma idx_lt r q : (r < K * C)%nat -> (q < P)%nat -> (r * P + q < m2)%nat.
Proof. intros Hr Hq. unfold m2. nia. Qed.
Lemma tv_eq (y x : vec) : (forall i, (i < m2)%nat -> y i = A2 x i) -> g2 y = lmbda * tv_norm s K C w x.
Proof.
  intros E. unfold g2, tvg, tv_norm. f_equal. unfold P. rewrite sum_ravel' by exact HP. apply ndsum_ext. intros idx Hi. f_equal. unfold nrm. f_equal. unfold nrm2, dot.
  rewrite sumn_flat by exact HC. apply sumn_ext. intros j Hj. apply sumn_ext. intros c Hc.
  assert (V : col (prod s) y (ravel s idx) (j * C + c) = fdiff s j (pix s x c) idx).
  { unfold col. rewrite E; [|apply idx_lt; [nia|apply ravel_lt; exact Hi]].
    transitivity (grad s (Z.of_nat j) (chan s x c) idx); [exact (A2_val s K C HP HC x j c idx Hj Hc Hi)|]. destruct (ax_ok s K C HP HC Hv j Hj) as [V1 V2].
    rewrite grad_val by (apply inb_coord; assumption). unfold fdiff. pose proof (inb_coord _ _ _ Hi V1) as L.
    destruct (Nat.eqb_spec (coord j idx) (nth j s O - 1)); destruct (Nat.ltb_spec (coord j idx + 1) (nth j s O)); try lia; reflexivity. }
  rewrite V. reflexivity.
Qed.
Lemma obj2 x : split_obj n (H2 s C wd) (s2 S wd) A2 (fun _ => 0) g2 x = tvl2_problem s K C lmbda S wd w x.
Proof.
  unfold split_obj, tvl2_problem. rewrite (tv_eq (fun i => A2 x i - 0) x) by (intros; ring). f_equal. unfold lsq. f_equal. unfold nrm2, dot. apply sumn_ext. intros i Hi. rewrite H2_at by exact Hi. unfold s2. ring.
Qed.
Lemma obj1 x : (forall i, (i < n)%nat -> 0 <= wd i) -> split_obj 0 Z1 (fun _ => 0) A1 c1 g1 x = tvl1_problem s K C lmbda S wd w x.
Proof.
  intros Hwd. unfold split_obj, tvl1_problem, g1. fold (g2 (fun i => A1 x i - c1 i)).
  rewrite (tv_eq (fun i => A1 x i - c1 i) x) by (intros i Hi; assert (E1 : c1 i = 0) by exact (c_head s K C S i Hi); assert (E2 : A1 x i = A2 x i) by exact (A1_head s K C HP HC x i Hi); rewrite E1, E2; ring).
  unfold lsq, nrm2, dot. cbn [sumn]. rewrite Rmult_0_r, Rplus_0_l, Rplus_comm. f_equal. unfold tail1. apply sumn_ext. intros k Hk.
  assert (E1 : c1 (m2 + k)%nat = S k) by exact (c_tail s K C S HP HC k). assert (E2 : A1 x (m2 + k)%nat = x k) by exact (A1_tail s K C HP HC x k Hk). rewrite E1, E2.
  rewrite Rabs_mult, (Rabs_pos_eq _ (Hwd k Hk)). reflexivity.
Qed.

(** The problems have solutions, and that of TVL2Denoise only one. *)
Lemma g2_lipA (A : vec -> vec) (c : vec) (m : nat) : (m2 <= m)%nat -> linear_map A -> (forall x y, (forall i, (i < n)%nat -> x i = y i) -> forall p, (p < m)%nat -> A x p = A y p) -> loc_lip n (fun x => g2 (fun i => A x i - c i)).
Proof.
  intros Hm HA HL. unfold g2, tvg. apply lip_scal. apply lip_sumn. intros q Hq. apply lip_scal. apply (lip_nrm n (K * C) (fun x r => A x (r * P + q)%nat - c (r * P + q)%nat)). intros r Hr.
  apply (lip_plus n (fun x => A x (r * P + q)%nat) (fun _ => - c (r * P + q)%nat)); [|apply lip_const]. apply (lip_linear n m A); [exact HA|exact HL|]. pose proof (idx_lt r q Hr Hq). lia.
Qed.
Theorem C89_exists_l2 : (forall i, (i < n)%nat -> wd i <> 0) -> exists p, argmin (fun _ => True) (tvl2_problem s K C lmbda S wd w) p.
Proof.
  intros Hwd. destruct (min_weight n (fun i => wd i * wd i) (wd2 s C wd Hwd)) as (a & Ha & B).
  destruct (coercive_min n (fun _ => True) (tvl2_problem s K C lmbda S wd w) a (a * sumn n (fun i => Rabs (S i) + / 2)) (boxes_true n)) as (p & Hp); [|exact Ha| |exists p; exact Hp].
  - apply (lip_ext_fun n (split_obj n (H2 s C wd) (s2 S wd) A2 (fun _ => 0) g2)); [exact obj2|]. apply lip_plus.
    + apply (lip_lsq n n (H2 s C wd) (s2 S wd) (H2_lin s C wd)). intros x y E p _. exact (H2_loc s C wd x y E p).
    + apply (g2_lipA A2 (fun _ => 0) m2); [lia|exact (A2_lin s K C)|exact (A2_loc s K C HP HC Hv)].
  - intros x _. rewrite <- obj2. unfold split_obj. assert (Pg : 0 <= g2 (fun i => A2 x i - 0)) by (apply (tvg_nonneg (K * C) P lmbda w Hlam Hw)).
    enough (E : a * sumn n (fun i => Rabs (x i)) - a * sumn n (fun i => Rabs (S i) + / 2) <= lsq n (H2 s C wd) (s2 S wd) x) by lra.
    unfold lsq, nrm2, dot. rewrite <- !sumn_scal, <- sumn_minus. apply sumn_le. intros i Hi. specialize (B i Hi). cbv beta in B. rewrite !H2_at by exact Hi. unfold s2.
    replace (/ 2 * ((wd i * x i - wd i * S i) * (wd i * x i - wd i * S i))) with (wd i * wd i * (/ 2 * ((x i - S i) * (x i - S i)))) by ring.
    set (t := x i - S i). assert (T : Rabs (x i) - Rabs (S i) - / 2 <= / 2 * (t * t)).
    { assert (Rabs (x i) <= Rabs t + Rabs (S i)) by (replace (x i) with (t + S i) by (unfold t; ring); apply Rabs_triang).
      assert (Q : t * t = Rabs t * Rabs t) by (rewrite <- Rabs_mult; symmetry; apply Rabs_pos_eq; apply Rle_0_sqr). rewrite Q. pose proof (Rle_0_sqr (Rabs t - 1)) as Z. unfold Rsqr in Z. lra. }
    assert (0 <= / 2 * (t * t)) by (apply Rmult_le_pos; [lra|apply Rle_0_sqr]). nra.
Qed.
Theorem C89_exists_l1 : (forall i, (i < n)%nat -> 0 < wd i) -> exists p, argmin (fun _ => True) (tvl1_problem s K C lmbda S wd w) p.
Proof.
  intros Hwd. destruct (min_weight n wd Hwd) as (a & Ha & B). assert (Hwd0 : forall i, (i < n)%nat -> 0 <= wd i) by (intros; left; apply Hwd; assumption).
  destruct (coercive_min n (fun _ => True) (tvl1_problem s K C lmbda S wd w) a (a * sumn n (fun i => Rabs (S i))) (boxes_true n)) as (p & Hp); [|exact Ha| |exists p; exact Hp].
  - unfold tvl1_problem. apply lip_plus.
    + apply (lip_sumn n n (fun i x => Rabs (wd i * (x i - S i)))). intros i Hi. apply lip_abs. apply lip_scal. apply (lip_plus n (fun x => x i) (fun _ => - S i)); [apply lip_coord; exact Hi|apply lip_const].
    + apply (lip_ext_fun n (fun x => g2 (fun i => A2 x i - 0))); [intros x; apply tv_eq; intros; ring|]. apply (g2_lipA A2 (fun _ => 0) m2); [lia|exact (A2_lin s K C)|exact (A2_loc s K C HP HC Hv)].
  - intros x _. unfold tvl1_problem. assert (Pg : 0 <= lmbda * tv_norm s K C w x) by (rewrite <- (tv_eq (A2 x) x) by reflexivity; apply (tvg_nonneg (K * C) P lmbda w Hlam Hw)).
    enough (E : a * sumn n (fun i => Rabs (x i)) - a * sumn n (fun i => Rabs (S i)) <= sumn n (fun i => Rabs (wd i * (x i - S i)))) by (change (C * prod s)%nat with n; lra).
    rewrite <- !sumn_scal, <- sumn_minus. apply sumn_le. intros i Hi. specialize (B i Hi). rewrite Rabs_mult, (Rabs_pos_eq _ (Hwd0 i Hi)).
    assert (Rabs (x i) <= Rabs (x i - S i) + Rabs (S i)) by (replace (x i) with ((x i - S i) + S i) at 1 by ring; apply Rabs_triang). pose proof (Rabs_pos (x i - S i)). nra.
Qed.
Theorem C89_unique_l2 p q : (forall i, (i < n)%nat -> wd i <> 0) -> argmin (fun _ => True) (tvl2_problem s K C lmbda S wd w) p -> argmin (fun _ => True) (tvl2_problem s K C lmbda S wd w) q ->
  forall i, (i < n)%nat -> p i = q i.
Proof.
  intros Hwd [_ Mp] [_ Mq]. set (F := tvl2_problem s K C lmbda S wd w) in *. set (h := seg p q (/ 2)).
  assert (E : F h <= / 2 * (F p + F q) - / 8 * sumn n (fun i => wd i * wd i * ((p i - q i) * (p i - q i)))).
  { unfold F. rewrite <- !obj2. unfold split_obj.
    assert (G : g2 (fun i => A2 h i - 0) <= / 2 * (g2 (fun i => A2 p i - 0) + g2 (fun i => A2 q i - 0))).
    { destruct (tvg_convex (K * C) P lmbda w Hlam Hw (fun i => A2 p i - 0) (fun i => A2 q i - 0) (/ 2) I I ltac:(lra)) as [_ Q].
      replace (fun i => A2 h i - 0) with (seg (fun i => A2 p i - 0) (fun i => A2 q i - 0) (/ 2)); [fold g2 in Q; lra|]. extensionality i. unfold seg.
      assert (EH : A2 h i = / 2 * A2 p i + / 2 * A2 q i) by (replace h with (fun i => / 2 * p i + / 2 * q i) by (extensionality j; unfold h, seg; field); exact (A2_lin s K C (/ 2) p (/ 2) q i)).
      rewrite EH. field. }
    assert (L : lsq n (H2 s C wd) (s2 S wd) h = / 2 * (lsq n (H2 s C wd) (s2 S wd) p + lsq n (H2 s C wd) (s2 S wd) q) - / 8 * sumn n (fun i => wd i * wd i * ((p i - q i) * (p i - q i)))).
    { unfold lsq, nrm2, dot. rewrite <- !sumn_scal, <- sumn_plus, <- sumn_scal, <- sumn_minus. apply sumn_ext. intros i Hi. rewrite !H2_at by exact Hi. unfold s2. unfold h, seg. field. }
    rewrite L. lra. }
  pose proof (Mp h I). pose proof (Mq h I). pose proof (Mp q I). pose proof (Mq p I).
  assert (Z : sumn n (fun i => wd i * wd i * ((p i - q i) * (p i - q i))) <= 0) by lra.
  assert (NN : forall i, (i < n)%nat -> 0 <= wd i * wd i * ((p i - q i) * (p i - q i))) by (intros; apply Rmult_le_pos; apply Rle_0_sqr).
  assert (Z0 : sumn n (fun i => wd i * wd i * ((p i - q i) * (p i - q i))) = 0) by (apply Rle_antisym; [exact Z|apply sumn_nonneg; exact NN]).
  intros i Hi. pose proof (sumn_nonneg_0 n _ NN Z0 i Hi) as Q. cbv beta in Q. pose proof (wd2 s C wd Hwd i Hi) as W. destruct (Rmult_integral _ _ Q) as [E1|E1]; [lra|]. destruct (Rmult_integral _ _ E1); lra.
Qed.

Context (Hrho : 0 < rho) (Hrlx : 0 < rlx < 2) (Htol : tol <= 0) (k : nat) (Hk : (0 < k)%nat) (st : state).

(** TVL2Denoise: X converges to the solution, Y to its differences, the dual variable converges, and the recorded objective
    converges to the minimum. *)
Theorem C89_limit_l2 : (forall i, (i < n)%nat -> wd i <> 0) ->
  let it := fun j => td2_iterate s axes C (2 * k) tol lmbda rho rlx S wd w j st in
  exists p, argmin (fun _ => True) (tvl2_problem s K C lmbda S wd w) p /\
    (forall i, (i < n)%nat -> Un_cv (fun j => sX (it j) i) (p i)) /\
    (forall ax c idx, (ax < K)%nat -> (c < C)%nat -> inb s idx -> Un_cv (fun j => sY (it j) ((ax * C + c) * P + ravel s idx)%nat) (fdiff s ax (pix s p c) idx)) /\
    (exists u, forall i, (i < m2)%nat -> Un_cv (fun j => sU (it j) i) (u i)) /\
    (forall b, Un_cv (fun j => td2_obj s axes C b lmbda S wd w (sX (it j)) (sY (it j))) (tvl2_problem s K C lmbda S wd w p)).
Proof.
  intros Hwd it. destruct (kap2 s K C rho wd HP HC Hv Hrho Hwd) as (kap & Hkap & KP & KM).
  destruct (C89_exists_l2 Hwd) as (p0 & Hp0).
  assert (Gl : forall a b, Rabs (g2 a - g2 b) <= lmbda * sumn P w * nrm m2 (fun i => a i - b i)) by (intros a b; pose proof (tvg_lip (K * C) P 0 lmbda w Hlam Hw a b) as E; rewrite Nat.add_0_r in E; exact E).
  assert (HLg : 0 <= lmbda * sumn P w) by (apply Rmult_le_pos; [exact Hlam|apply sumn_nonneg; exact Hw]).
  assert (EA : forall j, relax_AX A2 eq_B (fun _ => 0) rlx (sX (it (Datatypes.S j))) (sY (it j)) = AXr A2 (fun _ => 0) rlx (fun j => sX (it j)) (fun j => sY (it j)) j).
  { intros j. extensionality i. unfold relax_AX, AXr, eq_B. destruct (Req_EM_T rlx 1) as [->|]; ring. }
  destruct (jac_limit n n m2 (H2 s C wd) (HT2 wd) (s2 S wd) A2 (td2_AT s axes C) (fun _ => 0) g2 (lmbda * sumn P w) rlx rho (M2 s K rho wd) (N2 s K rho) kap k
    (H2_lin s C wd) (H2_loc s C wd) (H2_adj s C wd) (A2_lin s K C) (A2_loc s K C HP HC Hv) (adj2 s K C HP HC Hv) (tvg_convex (K * C) P lmbda w Hlam Hw)
    (tvg_nonneg (K * C) P lmbda w Hlam Hw) HLg Gl Hrho Hrlx) with (X := fun j => sX (it j)) (Y := fun j => sY (it j)) (U := fun j => sU (it j)) as (p & u & Hp & CX & CY & CU).
  - exact (M2_pos s K C rho wd HP HC Hv Hrho Hwd).
  - intros a x b y i. unfold N2. rewrite (nbs_lin s K). ring.
  - intros x y E i Hi. unfold N2. rewrite (nbs_loc s K C HP HC Hv x y E i Hi). reflexivity.
  - exact (split2 s K C rho wd HP HC Hv).
  - exact Hkap.
  - exact KP.
  - exact KM.
  - exact Hk.
  - intros j i Hi. exact (xstep2 s K C rho S wd HP HC Hv Hrho Hwd (2 * k) tol (sX (it j)) (sY (it j)) (sU (it j)) i Htol Hi).
  - intros j. split; [exact I|]. intros v _. rewrite <- EA. set (ax := relax_AX _ _ _ _ _ _). set (u := sU (it j)).
    pose proof (ystep2_min (K * C) P lmbda rho w ax u v Hlam Hrho Hw) as M. cbv zeta in M.
    assert (EY : sY (it (Datatypes.S j)) = tvl2_ystep (K * C) P lmbda rho w ax u).
    { unfold it. cbn [td2_iterate]. unfold iteration. cbn [sY]. unfold td2_ystep, axes. rewrite seq_length. reflexivity. }
    rewrite EY. set (y := tvl2_ystep (K * C) P lmbda rho w ax u) in *. unfold g2, m2.
    rewrite (nrm2_ext (K * C * P) (fun i => eq_B y i + (ax i - 0 + u i)) (fun i => ax i - y i + u i)) by (intros; unfold eq_B; ring).
    rewrite (nrm2_ext (K * C * P) (fun i => eq_B v i + (ax i - 0 + u i)) (fun i => ax i - v i + u i)) by (intros; unfold eq_B; ring). exact M.
  - intros j i Hi. rewrite <- EA. reflexivity.
  - exists p0. apply (amin_ext (tvl2_problem s K C lmbda S wd w)); [intros x; symmetry; apply obj2|exact Hp0].
  - exists p. split; [apply (amin_ext (split_obj n (H2 s C wd) (s2 S wd) A2 (fun _ => 0) g2)); [exact obj2|exact Hp]|]. split; [exact CX|].
    assert (CY' : forall i, (i < m2)%nat -> Un_cv (fun j => sY (it j) i) (A2 p i)) by (intros i Hi; specialize (CY i Hi); rewrite Rminus_0_r in CY; exact CY).
    split; [|split; [exists u; exact CU|]].
    + intros ax c idx Ha Hc Hi. assert (V : A2 p ((ax * C + c) * P + ravel s idx)%nat = fdiff s ax (pix s p c) idx).
      { transitivity (grad s (Z.of_nat ax) (chan s p c) idx); [exact (A2_val s K C HP HC p ax c idx Ha Hc Hi)|]. destruct (ax_ok s K C HP HC Hv ax Ha) as [V1 V2].
        rewrite grad_val by (apply inb_coord; assumption). unfold fdiff. pose proof (inb_coord _ _ _ Hi V1) as L.
        destruct (Nat.eqb_spec (coord ax idx) (nth ax s O - 1)); destruct (Nat.ltb_spec (coord ax idx + 1) (nth ax s O)); try lia; reflexivity. }
      rewrite <- V. apply CY'. apply idx_lt; [nia|apply ravel_lt; exact Hi].
    + intros b. apply (cv_ext (fun j => lsq n (H2 s C wd) (s2 S wd) (sX (it j)) + g2 (if b then sY (it j) else A2 (sX (it j))))).
      { intros j. unfold td2_obj, axes. rewrite seq_length. f_equal.
        - change (prod s) with P. fold n. rewrite nrm_sqr. unfold lsq. f_equal. apply nrm2_ext. intros i Hi. rewrite !H2_at by exact Hi. unfold s2. ring. }
      rewrite <- obj2. apply CV_plus.
      * apply (lip_cv n (lsq n (H2 s C wd) (s2 S wd)) (fun j => sX (it j)) p); [|exact CX]. apply (lip_lsq n n (H2 s C wd) (s2 S wd) (H2_lin s C wd)). intros x y E q _. exact (H2_loc s C wd x y E q).
      * apply (lip_cv m2 g2 (fun j => if b then sY (it j) else A2 (sX (it j))) (fun i => A2 p i - 0)); [exact (DualProofs.glob_lip m2 g2 _ HLg Gl)|]. intros i Hi. rewrite Rminus_0_r. destruct b; [apply CY'; exact Hi|].
        apply (lip_cv n (fun x => A2 x i) (fun j => sX (it j)) p); [|exact CX]. exact (lip_linear n m2 A2 i (A2_lin s K C) (A2_loc s K C HP HC Hv) Hi).
Qed.

(** TVL1Denoise: the same for its problem. The weights of the data term may vanish if the problem has a solution. *)
Theorem C89_limit_l1 : (forall i, (i < n)%nat -> 0 <= wd i) -> (exists p, argmin (fun _ => True) (tvl1_problem s K C lmbda S wd w) p) ->
  let it := fun j => td1_iterate s axes C (2 * k) tol lmbda rho rlx S wd w j st in
  exists p, argmin (fun _ => True) (tvl1_problem s K C lmbda S wd w) p /\
    (forall i, (i < n)%nat -> Un_cv (fun j => sX (it j) i) (p i)) /\
    (forall ax c idx, (ax < K)%nat -> (c < C)%nat -> inb s idx -> Un_cv (fun j => sY (it j) ((ax * C + c) * P + ravel s idx)%nat) (fdiff s ax (pix s p c) idx)) /\
    (forall i, (i < n)%nat -> Un_cv (fun j => sY (it j) (K * C * P + i)%nat) (p i - S i)) /\
    (exists u, forall i, (i < m1)%nat -> Un_cv (fun j => sU (it j) i) (u i)) /\
    (forall b, Un_cv (fun j => td1_obj s axes C b lmbda S wd w (sX (it j)) (sY (it j))) (tvl1_problem s K C lmbda S wd w p)).
Proof.
  intros Hwd (p0 & Hp0) it.
  set (Lg := lmbda * sumn P w + sumn n wd).
  assert (HLg : 0 <= Lg).
  { unfold Lg. assert (0 <= lmbda * sumn P w) by (apply Rmult_le_pos; [exact Hlam|apply sumn_nonneg; exact Hw]). assert (0 <= sumn n wd) by (apply sumn_nonneg; exact Hwd). lra. }
  assert (Gl : forall a b, Rabs (g1 a - g1 b) <= Lg * nrm m1 (fun i => a i - b i)).
  { intros a b. pose proof (tvg_lip (K * C) P n lmbda w Hlam Hw a b) as E1. pose proof (tail1_lip n wd Hwd m2 a b) as E2. unfold g1.
    replace (tvg (K * C) P lmbda w a + tail1 m2 n wd a - (tvg (K * C) P lmbda w b + tail1 m2 n wd b)) with ((tvg (K * C) P lmbda w a - tvg (K * C) P lmbda w b) + (tail1 m2 n wd a - tail1 m2 n wd b)) by ring.
    eapply Rle_trans; [apply Rabs_triang|]. unfold Lg, m1. unfold m2 in E2 |- *. lra. }
  assert (Cg : convex_on (fun _ => True) g1).
  { intros x y t _ _ Ht. split; [exact I|]. destruct (tvg_convex (K * C) P lmbda w Hlam Hw x y t I I Ht) as [_ E1]. destruct (tail1_convex n wd Hwd m2 x y t I I Ht) as [_ E2]. unfold g1. lra. }
  assert (Pg : forall y, 0 <= g1 y) by (intros y; pose proof (tvg_nonneg (K * C) P lmbda w Hlam Hw y); pose proof (tail1_nonneg n wd Hwd m2 y); unfold g1; lra).
  assert (EA : forall j, relax_AX A1 eq_B c1 rlx (sX (it (Datatypes.S j))) (sY (it j)) = AXr A1 c1 rlx (fun j => sX (it j)) (fun j => sY (it j)) j).
  { intros j. extensionality i. unfold relax_AX, AXr, eq_B. destruct (Req_EM_T rlx 1) as [->|]; ring. }
  destruct (jac_limit n 0 m1 Z1 Z1 (fun _ => 0) A1 (td1_AT s axes C) c1 g1 Lg rlx rho (M1 s K rho) (N2 s K rho) rho k) with (X := fun j => sX (it j)) (Y := fun j => sY (it j)) (U := fun j => sU (it j)) as (p & u & Hp & CX & CY & CU); try assumption.
  - intros a x b y i. unfold Z1. ring.
  - intros x y _ i. reflexivity.
  - intros x v. unfold dot, Z1. cbn [sumn]. symmetry. apply sumn_0. intros. ring.
  - exact (A1_lin s K C).
  - exact (A1_loc s K C HP HC Hv).
  - exact (adj1 s K C HP HC Hv).
  - intros i _. exact (M1_pos s K C rho HP HC Hv Hrho i).
  - intros a x b y i. unfold N2. rewrite (nbs_lin s K). ring.
  - intros x y E i Hi. unfold N2. rewrite (nbs_loc s K C HP HC Hv x y E i Hi). reflexivity.
  - exact (split1 s K C rho HP HC Hv).
  - exact (plus1 s K C rho HP HC Hv Hrho).
  - intros x. assert (Q : nrm2 n x <= nrm2 m1 (A1 x)) by exact (nrm2_A1 s K C HP HC x). apply (Rmult_le_compat_l rho) in Q; [|lra]. pose proof (nrm2_nonneg 0 (Z1 x)). lra.
  - intros j i Hi. exact (xstep1 s K C rho S HP HC Hv Hrho (2 * k) tol (sX (it j)) (sY (it j)) (sU (it j)) i Htol Hi).
  - intros j. split; [exact I|]. intros v _. rewrite <- EA. set (ax := relax_AX _ _ _ _ _ _). set (u := sU (it j)).
    pose proof (ystep1d s K C lmbda rho S wd w HP HC Hrho ax u v Hlam Hw Hwd) as M. cbv zeta in M.
    assert (EY : sY (it (Datatypes.S j)) = td1_ystep s axes C lmbda rho w wd S ax u) by reflexivity.
    rewrite EY. set (y := td1_ystep s axes C lmbda rho w wd S ax u) in *. unfold g1.
    rewrite (nrm2_ext m1 (fun i => eq_B y i + (ax i - c1 i + u i)) (fun i => ax i - y i - c1 i + u i)) by (intros; unfold eq_B; ring).
    rewrite (nrm2_ext m1 (fun i => eq_B v i + (ax i - c1 i + u i)) (fun i => ax i - v i - c1 i + u i)) by (intros; unfold eq_B; ring). exact M.
  - intros j i Hi. rewrite <- EA. reflexivity.
  - exists p0. apply (amin_ext (tvl1_problem s K C lmbda S wd w)); [intros x; symmetry; apply obj1; exact Hwd|exact Hp0].
  - exists p. split; [apply (amin_ext (split_obj 0 Z1 (fun _ => 0) A1 c1 g1)); [intros x; apply obj1; exact Hwd|exact Hp]|]. split; [exact CX|].
    split; [|split; [|split; [exists u; exact CU|]]].
    + intros ax c idx Ha Hc Hi. assert (Hlt : ((ax * C + c) * P + ravel s idx < m2)%nat) by (apply idx_lt; [nia|apply ravel_lt; exact Hi]).
      assert (V : A1 p ((ax * C + c) * P + ravel s idx)%nat - c1 ((ax * C + c) * P + ravel s idx)%nat = fdiff s ax (pix s p c) idx).
      { assert (E0 : c1 ((ax * C + c) * P + ravel s idx)%nat = 0) by exact (c_head s K C S _ Hlt). rewrite E0, Rminus_0_r.
        transitivity (grad s (Z.of_nat ax) (chan s p c) idx); [exact (A1_val s K C HP HC p ax c idx Ha Hc Hi)|]. destruct (ax_ok s K C HP HC Hv ax Ha) as [V1 V2].
        rewrite grad_val by (apply inb_coord; assumption). unfold fdiff. pose proof (inb_coord _ _ _ Hi V1) as L.
        destruct (Nat.eqb_spec (coord ax idx) (nth ax s O - 1)); destruct (Nat.ltb_spec (coord ax idx + 1) (nth ax s O)); try lia; reflexivity. }
      rewrite <- V. apply CY. unfold m1. unfold m2 in Hlt. lia.
    + intros i Hi. assert (V : A1 p (K * C * P + i)%nat - c1 (K * C * P + i)%nat = p i - S i).
      { assert (E1 : c1 (K * C * P + i)%nat = S i) by exact (c_tail s K C S HP HC i). assert (E2 : A1 p (K * C * P + i)%nat = p i) by exact (A1_tail s K C HP HC p i Hi). rewrite E1, E2. reflexivity. }
      rewrite <- V. apply CY. unfold m1. lia.
    + intros b. apply (cv_ext (fun j => g1 (if b then sY (it j) else fun i => A1 (sX (it j)) i - c1 i))).
      { intros j. unfold td1_obj, axes. rewrite seq_length. unfold g1. rewrite Rplus_comm. f_equal.
        unfold tail1. apply sumn_ext. intros i Hi. rewrite Rabs_mult, (Rabs_pos_eq _ (Hwd i Hi)). reflexivity. }
      rewrite <- (obj1 p Hwd). unfold split_obj, lsq, nrm2, dot. cbn [sumn]. rewrite Rmult_0_r, Rplus_0_l.
      apply (lip_cv m1 g1 (fun j => if b then sY (it j) else fun i => A1 (sX (it j)) i - c1 i) (fun i => A1 p i - c1 i)); [exact (DualProofs.glob_lip m1 g1 _ HLg Gl)|]. intros i Hi. destruct b; [apply CY; exact Hi|].
      apply CV_minus; [|apply cv_const].
      apply (lip_cv n (fun x => A1 x i) (fun j => sX (it j)) p); [|exact CX]. exact (lip_linear n m1 A1 i (A1_lin s K C) (A1_loc s K C HP HC Hv) Hi).
Qed.
End tdn.

(** ** One sweep per iteration *)
(** The signal (2, -2) along one axis, lmbda = 109/20, everything else as by default (rho = 2 lmbda + 0.1 = 11, RelaxParam 1.8,
    GSTol 0, X = S, Y = U = 0) but MaxGSIter = 1. *)
Definition sig2 : nat -> R := fun i => match i with O => 2 | _ => -2 end.
Definition it1 (j : nat) : state := td2_iterate [2%nat] [O] 1 1 0 (109 / 20) 11 (9 / 5) sig2 (fun _ => 1) (fun _ => 1) j (mkState sig2 (fun _ => 0) (fun _ => 0) (fun _ => 0)).
Definition at1 (j : nat) (x y u : R) : Prop := sX (it1 j) O = x /\ sX (it1 j) 1%nat = - x /\ sY (it1 j) O = y /\ sU (it1 j) O = u.
Lemma prox1 (f : nat -> R) a : 0 < a -> (a <= f O -> prox_l2 1 f a O = f O - a) /\ (f O <= - a -> prox_l2 1 f a O = f O + a).
Proof.
  intros Ha. unfold prox_l2. set (v := f O). assert (N : norm_l2 1 f = Rabs v).
  { unfold norm_l2, norm_2l2. cbn [sumn]. fold v. rewrite <- sqrt_Rsqr_abs. f_equal. unfold Rsqr. ring. }
  rewrite N. unfold zdivide, eqb. split; intros Hv.
  - rewrite Rabs_pos_eq by lra. rewrite Rmax_right by lra. destruct (Req_EM_T v 0); [lra|]. field. lra.
  - rewrite Rabs_left by lra. rewrite Rmax_right by lra. destruct (Req_EM_T (- v) 0); [lra|]. field. lra.
Qed.
Lemma step1 j x y u : at1 j x y u -> let x' := (11 * (- x - (y - u)) + 2) / 12 in let v := 9 / 5 * (-2 * x') - 4 / 5 * y + u in
  (109 / 220 <= v -> at1 (Datatypes.S j) x' (v - 109 / 220) (109 / 220)) /\ (v <= - (109 / 220) -> at1 (Datatypes.S j) x' (v + 109 / 220) (- (109 / 220))).
Proof.
  intros (EX0 & EX1 & EY & EU) x' v. unfold at1.
  assert (EI : it1 (Datatypes.S j) = iteration (td2_A [2%nat] [O] 1) eq_B (fun _ => 0) (9 / 5) (td2_xstep [2%nat] [O] 1 1 0 11 sig2 (fun _ => 1) (sX (it1 j))) (td2_ystep [2%nat] [O] 1 (109 / 20) 11 (fun _ => 1)) (it1 j)) by reflexivity.
  rewrite EI. clear EI. set (st := it1 j) in *. clearbody st. unfold iteration. cbn [sX sY sU].
  set (X := td2_xstep [2%nat] [O] 1 1 0 11 sig2 (fun _ => 1) (sX st) (sY st) (sU st)).
  assert (X0 : X O = x').
  { unfold X, td2_xstep. cbn [gs_loop orb]. lazy -[Rplus Rmult Rminus Ropp Rinv Rdiv IZR sX sY sU x']. rewrite EX1, EY, EU. unfold x'. field. }
  assert (X1 : X 1%nat = - x').
  { unfold X, td2_xstep. cbn [gs_loop orb]. lazy -[Rplus Rmult Rminus Ropp Rinv Rdiv IZR sX sY sU x']. rewrite EX0, EY, EU. unfold x'. field. }
  set (AX := relax_AX (td2_A [2%nat] [O] 1) eq_B (fun _ => 0) (9 / 5) X (sY st)).
  assert (EA : AX O + u = v).
  { unfold AX, relax_AX. destruct (Req_EM_T (9 / 5) 1) as [E|_]; [lra|]. assert (D : td2_A [2%nat] [O] 1 X O = X 1%nat - X O) by reflexivity. rewrite D, X0, X1. unfold eq_B. rewrite EY. unfold v. field. }
  assert (EYn : td2_ystep [2%nat] [O] 1 (109 / 20) 11 (fun _ => 1) AX (sU st) O = prox_l2 1 (fun r => AX (r * 2 + 0 mod 2)%nat + sU st (r * 2 + 0 mod 2)%nat) (109 / 20 / 11 * 1) O) by reflexivity.
  replace (109 / 20 / 11 * 1) with (109 / 220) in EYn by field.
  destruct (prox1 (fun r => AX (r * 2 + 0 mod 2)%nat + sU st (r * 2 + 0 mod 2)%nat) (109 / 220) ltac:(lra)) as [P1 P2].
  change (AX (0 * 2 + 0 mod 2)%nat) with (AX O) in P1, P2. change (sU st (0 * 2 + 0 mod 2)%nat) with (sU st O) in P1, P2. rewrite EU, EA in P1, P2.
  split; intros Hv; (split; [exact X0|]); (split; [exact X1|]).
  - rewrite EYn, (P1 Hv). split; [reflexivity|]. unfold ustep, rsdl_r, eq_B. rewrite EYn, (P1 Hv), EU. lra.
  - rewrite EYn, (P2 Hv). split; [reflexivity|]. unfold ustep, rsdl_r, eq_B. rewrite EYn, (P2 Hv), EU. lra.
Qed.
Lemma at1_eq j x y u x' y' : at1 j x y u -> x = x' -> y = y' -> at1 j x' y' u.
Proof. intros H -> ->. exact H. Qed.
Lemma start1 : at1 0 2 0 0.
Proof. unfold at1, it1. cbn [td2_iterate sX sY sU]. unfold sig2. repeat split; lra. Qed.
Lemma entry1 : at1 1 (- (5 / 3)) (1211 / 220) (109 / 220).
Proof. refine (at1_eq _ _ _ _ _ _ (proj1 (step1 _ _ _ _ start1) _) _ _); lra. Qed.
Lemma entry2 : at1 2 (- (1043 / 360)) (6629 / 1100) (109 / 220).
Proof. refine (at1_eq _ _ _ _ _ _ (proj1 (step1 _ _ _ _ entry1) _) _ _); lra. Qed.
Lemma entry3 : at1 3 (- (48547 / 21600)) (8633 / 2640) (109 / 220).
Proof. refine (at1_eq _ _ _ _ _ _ (proj1 (step1 _ _ _ _ entry2) _) _ _); lra. Qed.
Lemma entry4 : at1 4 (- (82033 / 259200)) (- (384757 / 792000)) (- (109 / 220)).
Proof. refine (at1_eq _ _ _ _ _ _ (proj2 (step1 _ _ _ _ entry3) _) _ _); lra. Qed.
Lemma entry5 : at1 5 (6966241 / 15552000) (- (11632063 / 9504000)) (- (109 / 220)).
Proof. refine (at1_eq _ _ _ _ _ _ (proj2 (step1 _ _ _ _ entry4) _) _ _); lra. Qed.
Lemma entry6 : at1 6 (79094083 / 186624000) (- (311695889 / 570240000)) (- (109 / 220)).
Proof. refine (at1_eq _ _ _ _ _ _ (proj2 (step1 _ _ _ _ entry5) _) _ _); lra. Qed.
Lemma entry7 : at1 7 (- (1958912563 / 11197440000)) (521216173 / 6842880000) (109 / 220).
Proof. refine (at1_eq _ _ _ _ _ _ (proj1 (step1 _ _ _ _ entry6) _) _ _); lra. Qed.
Lemma entry8 : at1 8 (95587075079 / 134369280000) (- (669635882173 / 410572800000)) (- (109 / 220)).
Proof. refine (at1_eq _ _ _ _ _ _ (proj2 (step1 _ _ _ _ entry7) _) _ _); lra. Qed.
Lemma entry9 : at1 9 (4478286669769 / 8062156800000) (- (3423726204631 / 4926873600000)) (- (109 / 220)).
Proof. refine (at1_eq _ _ _ _ _ _ (proj2 (step1 _ _ _ _ entry8) _) _ _); lra. Qed.
Lemma entry10 : at1 10 (- (15448522644101 / 96745881600000)) (41347576507399 / 295612416000000) (109 / 220).
Proof. refine (at1_eq _ _ _ _ _ _ (proj1 (step1 _ _ _ _ entry9) _) _ _); lra. Qed.
Definition qf (a b : R) : R := 33 / 10 * (a * a) + 41 / 12 * (a * b) + 11 / 12 * (b * b).
Lemma qf_lin a b : qf a b <= 1 / 250 -> -(304 / 1000) <= 33 / 10 * a + 5 / 2 * b <= 304 / 1000.
Proof.
  unfold qf. intros H. set (l := 33 / 10 * a + 5 / 2 * b).
  assert (E : l * l <= 23 * (1 / 250)).
  { apply Rle_trans with (23 * (33 / 10 * (a * a) + 41 / 12 * (a * b) + 11 / 12 * (b * b))); [|lra]. unfold l.
    pose proof (Rle_0_sqr ((6501 / 100) * a + (745 / 24) * b)) as Q1. pose proof (Rle_0_sqr b) as Q2. unfold Rsqr in Q1, Q2. lra. }
  split; apply Rnot_lt_le; intros C0; nra.
Qed.
Lemma qf_fst a b : qf a b <= 1 / 250 -> - (19 / 100) <= a <= 19 / 100.
Proof.
  unfold qf. intros H. assert (E : a * a <= 9 * (1 / 250)).
  { apply Rle_trans with (9 * (33 / 10 * (a * a) + 41 / 12 * (a * b) + 11 / 12 * (b * b))); [|lra]. pose proof (Rle_0_sqr ((287 / 10) * a + (123 / 8) * b)) as Q1. pose proof (Rle_0_sqr b) as Q2. unfold Rsqr in Q1, Q2. lra. }
  split; apply Rnot_lt_le; intros C0; nra.
Qed.
Lemma qf_map a b : qf (- (11 / 12) * (a + b)) (33 / 10 * a + 5 / 2 * b) = 11 / 15 * qf a b.
Proof. unfold qf. field. Qed.
Lemma qf_pos a b : 0 <= qf a b.
Proof. unfold qf. pose proof (Rle_0_sqr ((33 / 10) * a + (41 / 24) * b)) as Q1. pose proof (Rle_0_sqr b) as Q2. unfold Rsqr in Q1, Q2. lra. Qed.
Lemma qf_next a b a' b' : qf a b <= 1 / 250 -> a' = - (11 / 12) * (a + b) -> b' = 33 / 10 * a + 5 / 2 * b -> qf a' b' <= 1 / 250.
Proof. intros H -> ->. rewrite qf_map. pose proof (qf_pos a b). lra. Qed.
(** The three points of the cycle. *)
Definition near (j : nat) (px py u : R) : Prop := exists x y, at1 j x y u /\ qf (x - px) (y - py) <= 1 / 250.
Definition xA := 75187 / 145340.
Definition yA := - (489011 / 399685).
Definition xB := 52297 / 145340.
Definition yB := - (253063 / 799370).
Definition xC := - (47547 / 145340).
Definition yC := 175889 / 399685.
Lemma phaseA j : near j xA yA (- (109 / 220)) -> near (Datatypes.S j) xB yB (- (109 / 220)).
Proof.
  intros (x & y & H & Q). pose proof (qf_lin _ _ Q) as L. unfold xA, yA, xB, yB in *. eexists _, _. split; [apply (proj2 (step1 _ _ _ _ H)); lra|]. apply (qf_next _ _ _ _ Q); lra.
Qed.
Lemma phaseB j : near j xB yB (- (109 / 220)) -> near (Datatypes.S j) xC yC (109 / 220).
Proof.
  intros (x & y & H & Q). pose proof (qf_lin _ _ Q) as L. unfold xC, yC, xB, yB in *. eexists _, _. split; [apply (proj1 (step1 _ _ _ _ H)); lra|]. apply (qf_next _ _ _ _ Q); lra.
Qed.
Lemma phaseC j : near j xC yC (109 / 220) -> near (Datatypes.S j) xA yA (- (109 / 220)).
Proof.
  intros (x & y & H & Q). pose proof (qf_lin _ _ Q) as L. unfold xC, yC, xA, yA in *. eexists _, _. split; [apply (proj2 (step1 _ _ _ _ H)); lra|]. apply (qf_next _ _ _ _ Q); lra.
Qed.
Lemma in_cycle r : near (10 + 3 * r) xC yC (109 / 220).
Proof.
  induction r as [|r IH].
  - eexists _, _. split; [exact entry10|]. unfold qf, xC, yC. lra.
  - replace (10 + 3 * Datatypes.S r)%nat with (Datatypes.S (Datatypes.S (Datatypes.S (10 + 3 * r)))) by lia. apply phaseB, phaseA, phaseC. exact IH.
Qed.
(** With one sweep per iteration X does not converge: it keeps oscillating around the solution, which is the zero image. *)
Theorem C89_one_sweep_refuted : ~ exists l, Un_cv (fun j => sX (it1 j) O) l.
Proof.
  intros [l Hl]. destruct (Hl (1 / 10) ltac:(lra)) as [N HN].
  assert (B1 : forall r, sX (it1 (10 + 3 * r)) O <= -1 / 10).
  { intros r. destruct (in_cycle r) as (x & y & (E & _) & Q). rewrite E. apply qf_fst in Q. unfold xC in Q. lra. }
  assert (B2 : forall r, 3 / 10 <= sX (it1 (Datatypes.S (10 + 3 * r))) O).
  { intros r. destruct (phaseC _ (in_cycle r)) as (x & y & (E & _) & Q). rewrite E. apply qf_fst in Q. unfold xA in Q. lra. }
  pose proof (HN (10 + 3 * N)%nat ltac:(lia)) as H1. pose proof (HN (Datatypes.S (10 + 3 * N)) ltac:(lia)) as H2. unfold R_dist in H1, H2.
  apply Rabs_def2 in H1. apply Rabs_def2 in H2. specialize (B1 N). specialize (B2 N). lra.
Qed.
(** With the default of two sweeps it converges to that solution. *)
Example C89_instance : let it := fun r j => td2_iterate [2%nat] [O] 1 r 0 (109 / 20) 11 (9 / 5) sig2 (fun _ => 1) (fun _ => 1) j (mkState sig2 (fun _ => 0) (fun _ => 0) (fun _ => 0)) in
  argmin (fun _ => True) (tvl2_problem [2%nat] 1 1 (109 / 20) sig2 (fun _ => 1) (fun _ => 1)) (fun _ => 0) /\
  (forall i, (i < 2)%nat -> Un_cv (fun j => sX (it 2%nat j) i) 0) /\ (~ exists l, Un_cv (fun j => sX (it 1%nat j) O) l).
Proof.
  intros it. assert (Hv : valid_axes [2%nat] (seq 0 1)) by (intros ax [<-|[]]; cbn; lia).
  assert (M : argmin (fun _ => True) (tvl2_problem [2%nat] 1 1 (109 / 20) sig2 (fun _ => 1) (fun _ => 1)) (fun _ => 0)).
  { split; [exact I|]. intros x _.
    assert (V : forall z : nat -> R, tvl2_problem [2%nat] 1 1 (109 / 20) sig2 (fun _ => 1) (fun _ => 1) z = / 2 * ((z O - 2) * (z O - 2) + (z 1%nat + 2) * (z 1%nat + 2)) + 109 / 20 * Rabs (z 1%nat - z O)).
    { intros z. unfold tvl2_problem, tv_norm. lazy -[Rplus Rmult Rminus Ropp Rinv Rdiv IZR sqrt Rabs]. replace (0 + (0 + (z 1%nat - z O) * (z 1%nat - z O))) with (Rsqr (z 1%nat - z O)) by (unfold Rsqr; ring). rewrite sqrt_Rsqr_abs.
      replace (0 + (0 + 0 * 0)) with 0 by ring. rewrite sqrt_0. ring. }
    rewrite !V. replace (0 - 0) with 0 by ring. rewrite Rabs_R0. pose proof (Rle_abs (x 1%nat - x O)). pose proof (Rle_abs (- (x 1%nat - x O))) as A2. rewrite Rabs_Ropp in A2.
    pose proof (Rle_0_sqr (x O)) as Q1. pose proof (Rle_0_sqr (x 1%nat)) as Q2. unfold Rsqr in Q1, Q2. lra. }
  split; [exact M|]. split; [|exact C89_one_sweep_refuted].
  destruct (C89_limit_l2 [2%nat] 1 1 (109 / 20) 11 (9 / 5) 0 sig2 (fun _ => 1) (fun _ => 1) ltac:(cbn; lia) ltac:(lia) Hv ltac:(lra) ltac:(intros; lra) ltac:(lra) ltac:(lra) ltac:(lra) 1 ltac:(lia)
    (mkState sig2 (fun _ => 0) (fun _ => 0) (fun _ => 0)) ltac:(intros; lra)) as (p & Hp & CX & _).
  intros i Hi. specialize (CX i Hi). rewrite (C89_unique_l2 [2%nat] 1 1 (109 / 20) sig2 (fun _ => 1) (fun _ => 1) ltac:(cbn; lia) ltac:(lia) Hv ltac:(lra) ltac:(intros; lra) p (fun _ => 0) ltac:(intros; lra) Hp M i Hi) in CX. exact CX.
Qed.
(** A colour image of 2 by 3 pixels, both axes differenced jointly in three channels, for TVL1Denoise. *)
Example C89_instance_l1 (S : nat -> R) st : exists p, argmin (fun _ => True) (tvl1_problem [2%nat; 3%nat] 2 3 1 S (fun _ => 1) (fun _ => 1)) p /\
  forall i, (i < 18)%nat -> Un_cv (fun j => sX (td1_iterate [2%nat; 3%nat] [O; 1%nat] 3 2 0 1 (21 / 10) (9 / 5) S (fun _ => 1) (fun _ => 1) j st) i) (p i).
Proof.
  assert (Hv : valid_axes [2%nat; 3%nat] (seq 0 2)) by (intros ax [<-|[<-|[]]]; cbn; lia).
  destruct (C89_limit_l1 [2%nat; 3%nat] 2 3 1 (21 / 10) (9 / 5) 0 S (fun _ => 1) (fun _ => 1) ltac:(cbn; lia) ltac:(lia) Hv ltac:(lra) ltac:(intros; lra) ltac:(lra) ltac:(lra) ltac:(lra) 1 ltac:(lia) st ltac:(intros; lra)) as (p & Hp & CX & _).
  - apply C89_exists_l1; [cbn; lia|lia|exact Hv|lra|intros; lra|intros; lra].
  - exists p. split; [exact Hp|]. intros i Hi. apply CX. cbn. lia.
Qed.
Print Assumptions C89_exists_l2.
Print Assumptions C89_exists_l1.
Print Assumptions C89_unique_l2.
Print Assumptions C89_limit_l2.
Print Assumptions C89_limit_l1.
Print Assumptions C89_one_sweep_refuted.
Print Assumptions C89_instance.
Print Assumptions C89_instance_l1.
