(** Convolutional sparse coding with the total variation of the reconstruction: the operators and objectives in terms of the vectors of
    the iteration. *)
Require Import List Arith ZArith Reals Bool Lia Lra FunctionalExtensionality.
Require Import Verif.RVec Verif.Cplx Verif.FftModel Verif.FftProofs Verif.FftInv Verif.CscModel Verif.CscSpec Verif.CscProofs Verif.CscIterModel Verif.CscIterProofs.
Require Import Verif.AdmmSpec Verif.AdmmModel Verif.AdmmProofs Verif.AdmmProps Verif.StepsSpec Verif.StepsProofs Verif.ProxModel.
Require Import Verif.LimitProofs Verif.SplitConv Verif.TvdModel Verif.TvdFourier Verif.TvdProofs Verif.TvdSteps Verif.TvdObj Verif.CtvModel Verif.CtvSpec Verif.CtvFreq Verif.CtvObj.
Require Import Verif.RtvModel Verif.RtvSpec Verif.RtvProofs.
Import ListNotations.
Local Open Scope R_scope.
Local Notation vec := (nat -> R).

Section rtv.
Variables (s dsh : nat -> nat) (axes : list nat) (M Cd : nat) (D : nat -> nat -> index -> R) (S : nat -> index -> R) (G : nat -> index -> R) (wtv : nat -> R).
Variables (Cx KS : nat) (bases : nat -> index).
Hypothesis ND : NoDup axes.
Hypothesis Hne : axes <> [].
Hypothesis H2 : forall ax, In ax axes -> (2 <= s ax)%nat.
Hypothesis HG : gradient_filters axes = Some G.
Hypothesis HM : (0 < M)%nat.
Hypothesis HC : (0 < Cd)%nat.
Hypothesis HN : (0 < Cx * KS)%nat.
Notation K := (length axes).
Notation P := (size s axes).
Notation NS := (Cx * KS)%nat.
Notation n := (M * NS * P)%nat.
Notation o := (K * Cd * NS * P)%nat.
Notation cf := (cmap s axes Cx KS).
Let Hs := TvdProofs.Hs s axes H2.
Let HP := PP s axes H2.
Notation HSr := (HS s dsh axes M Cd D NS bases).
Notation sv := (svc s axes Cd S bases).
Notation ws x t c := (wrec s dsh axes M D Cx KS wtv x t c).

Definition KR (x : vec) : vec := fun r =>
  if Nat.ltb r o then let t := ((r / P) mod NS)%nat in diff s (r / P / NS / Cd) (ws x t ((r / P / NS) mod Cd)%nat) (place s axes (bases t) (r mod P))
  else if Nat.ltb r (o + n) then x (r - o)%nat else 0.
Lemma A_KR x : rtv_cnst_A s dsh axes M Cd D G wtv Cx KS bases x = KR x.
Proof.
  extensionality r. unfold rtv_cnst_A, KR. destruct (Nat.ltb_spec r o) as [L|_]; [|reflexivity]. unfold at_flat. cbv zeta.
  assert (Hk : (r mod P < P)%nat) by (apply Nat.mod_upper_bound; lia).
  assert (Hj : (r / P / NS / Cd < K)%nat) by (apply Nat.div_lt_upper_bound; [lia|]; apply Nat.div_lt_upper_bound; [lia|]; apply Nat.div_lt_upper_bound; nia).
  rewrite (A1_diff s dsh axes M D G wtv ND Hne H2 HG) by (try exact Hj; exact (proj1 (pl' s axes bases ND H2 ((r / P) mod NS) (r mod P) Hk))). reflexivity.
Qed.
Lemma KR_at x j c t k : (j < K)%nat -> (c < Cd)%nat -> (t < NS)%nat -> (k < P)%nat -> KR x (((j * Cd + c) * NS + t) * P + k)%nat = diff s j (ws x t c) (place s axes (bases t) k).
Proof.
  intros Hj Hc Ht Hk. unfold KR.
  assert (L : Nat.ltb (((j * Cd + c) * NS + t) * P + k) o = true).
  { apply Nat.ltb_lt. assert (A1 : (j * Cd + c < K * Cd)%nat) by nia. assert (A2 : ((j * Cd + c) * NS + t < K * Cd * NS)%nat) by nia. nia. }
  rewrite L. cbv zeta. rewrite (div_at P), (mod_at P) by exact Hk. rewrite (div_at NS), (mod_at NS) by exact Ht. rewrite (div_at Cd), (mod_at Cd) by exact Hc. reflexivity.
Qed.
Lemma KR_tail x i : (i < n)%nat -> KR x (o + i)%nat = x i.
Proof.
  intros Hi. unfold KR. assert (L1 : Nat.ltb (o + i) o = false) by (apply Nat.ltb_ge; lia). assert (L2 : Nat.ltb (o + i) (o + n) = true) by (apply Nat.ltb_lt; lia).
  rewrite L1, L2. f_equal. lia.
Qed.

(** ** Linear maps *)
Lemma ws_linear a x b y t c p : ws (fun i => a * x i + b * y i) t c p = a * ws x t c p + b * ws y t c p.
Proof.
  unfold wrec. rewrite <- !sumn_scal, <- sumn_plus. apply sumn_ext. intros m _. unfold conv.
  rewrite (f_equal (fun h => total s axes h p) (functional_extensionality (fun k => ext dsh axes (D c m) k * cf (fun i => a * x i + b * y i) t m (minus s axes p k))
     (fun k => a * (ext dsh axes (D c m) k * cf x t m (minus s axes p k)) + b * (ext dsh axes (D c m) k * cf y t m (minus s axes p k))) ltac:(intros k; unfold cmap; ring))).
  rewrite total_lin. ring.
Qed.
Lemma KR_linear : linear_map KR.
Proof.
  intros a x b y r. unfold KR. destruct (Nat.ltb r o); [|destruct (Nat.ltb r (o + n)); ring]. cbv zeta. unfold diff. rewrite !ws_linear. ring.
Qed.
Lemma ws_local x y t c p : (t < NS)%nat -> (forall i, (i < n)%nat -> x i = y i) -> on_slice s axes (bases t) p -> ws x t c p = ws y t c p.
Proof.
  intros Ht E Hp. unfold wrec. apply sumn_ext. intros m Hm. f_equal. unfold conv. f_equal. extensionality k. f_equal.
  apply (cf_local s axes M Cd NS bases H2 HM HC HN); try assumption. apply (minus_slice s axes (bases t) Hs). exact Hp.
Qed.
Lemma KR_local : local_map n KR.
Proof.
  intros x y E r. unfold KR. destruct (Nat.ltb_spec r o) as [L|L].
  - cbv zeta. assert (Ht : ((r / P) mod NS < NS)%nat) by (apply Nat.mod_upper_bound; lia). assert (Hk : (r mod P < P)%nat) by (apply Nat.mod_upper_bound; lia).
    pose proof (pl' s axes bases ND H2 ((r / P) mod NS) (r mod P) Hk) as Hp.
    assert (Hj : (r / P / NS / Cd < K)%nat) by (apply Nat.div_lt_upper_bound; [lia|]; apply Nat.div_lt_upper_bound; [lia|]; apply Nat.div_lt_upper_bound; nia).
    destruct (gf_some axes G HG ND _ Hj) as [I _]. unfold diff. rewrite !(ws_local x y) by (try assumption; apply (back_slice s axes _ Hs); assumption). reflexivity.
  - destruct (Nat.ltb_spec r (o + n)) as [L'|]; [apply E; lia|reflexivity].
Qed.
Lemma inj x : nrm2 n x <= 1 * (nrm2 (NS * Cd * P) (HSr x) + nrm2 (o + n) (KR x)).
Proof.
  rewrite (nrm2_head o n (KR x)), (nrm2_ext n (fun k => KR x (o + k)%nat) x) by (intros k Hk; apply KR_tail; exact Hk).
  pose proof (nrm2_nonneg (NS * Cd * P) (HSr x)). pose proof (nrm2_nonneg o (KR x)). lra.
Qed.

(** ** The x step *)
Definition cpl (X : nat -> index -> R) (W1 : nat -> nat -> index -> R) (W0 : nat -> index -> R) (base : index) : R :=
  sumn K (fun j => sumn Cd (fun c => sqn s axes (fun p => diff s j (wsum s dsh axes M D wtv X c) p - W1 j c p) base)) + sumn M (fun m => sqn s axes (fun p => X m p - W0 m p) base).
Lemma KR_coupling x (z : vec) : nrm2 (o + n) (fun r => KR x r - z r) =
  sumn NS (fun t => cpl (cf x t) (sep1 s axes Cd Cx KS z t) (sep0 s axes Cd Cx KS z t) (bases t)).
Proof.
  rewrite nrm2_head. unfold cpl. rewrite sumn_plus. f_equal.
  - unfold nrm2, dot. rewrite (sumn_flat P) by exact HP. rewrite (sumn_flat NS) by exact HN. rewrite (sumn_flat Cd) by exact HC.
    rewrite (sumn_ext K _ (fun j => sumn NS (fun t => sumn Cd (fun c => sumn P (fun k => (KR x (((j * Cd + c) * NS + t) * P + k)%nat - z (((j * Cd + c) * NS + t) * P + k)%nat) * (KR x (((j * Cd + c) * NS + t) * P + k)%nat - z (((j * Cd + c) * NS + t) * P + k)%nat)))))) by (intros j _; apply sumn_swap).
    rewrite sumn_swap. apply sumn_ext. intros t Ht. apply sumn_ext. intros j Hj. apply sumn_ext. intros c Hc. unfold sqn. rewrite <- (sum_place s axes Hs). apply sumn_ext. intros k Hk.
    rewrite KR_at by assumption. unfold sep1, slice. rewrite rank_place; [reflexivity|exact ND|exact Hs|exact Hk].
  - unfold nrm2, dot. rewrite (sumn_flat P) by exact HP. rewrite (sumn_flat NS) by exact HN. rewrite sumn_swap. apply sumn_ext. intros t Ht. apply sumn_ext. intros m Hm. unfold sqn. rewrite <- (sum_place s axes Hs). apply sumn_ext. intros k Hk.
    rewrite KR_tail by (assert (m * NS + t < M * NS)%nat by nia; nia). unfold sep0, cmap. rewrite rank_place; [|exact ND|exact Hs|exact Hk]. replace (o + (m * NS + t) * P + k)%nat with (o + ((m * NS + t) * P + k))%nat by lia. reflexivity.
Qed.
Lemma lsq_rec x : lsq (NS * Cd * P) HSr sv x = rec_fit s dsh axes M Cd D S Cx KS bases x.
Proof. rewrite (lsq_fit s dsh axes M Cd D S NS bases H2 HM HC HN). reflexivity. Qed.
Lemma cpl_slice X X' W1 W0 t : (forall m q, (m < M)%nat -> on_slice s axes (bases t) q -> X m q = X' m q) -> cpl X W1 W0 (bases t) = cpl X' W1 W0 (bases t).
Proof.
  intros E. unfold cpl. f_equal.
  - apply sumn_ext. intros j Hj. apply sumn_ext. intros c _. apply CscIterProofs.sqn_ext; [exact ND|]. intros p Hp. f_equal.
    assert (W : forall q, on_slice s axes (bases t) q -> wsum s dsh axes M D wtv X c q = wsum s dsh axes M D wtv X' c q).
    { intros q Hq. unfold wsum. apply sumn_ext. intros m Hm. f_equal. unfold conv. f_equal. extensionality k. f_equal. apply E; [exact Hm|]. apply (minus_slice s axes (bases t) Hs). exact Hq. }
    destruct (gf_some axes G HG ND _ Hj) as [I _]. unfold diff. rewrite !W by (try assumption; apply (back_slice s axes _ Hs); assumption). reflexivity.
  - apply sumn_ext. intros m Hm. apply CscIterProofs.sqn_ext; [exact ND|]. intros p Hp. rewrite (E m p Hm Hp). reflexivity.
Qed.
Lemma xstep_cf rho y u t m p : (t < NS)%nat -> (m < M)%nat -> on_slice s axes (bases t) p ->
  cf (rtv_xstep s dsh axes M Cd D S G wtv Cx KS bases rho y u) t m p =
  rtv_x s dsh axes M Cd D S G wtv rho (sep0 s axes Cd Cx KS y t) (sep0 s axes Cd Cx KS u t) (sep1 s axes Cd Cx KS y t) (sep1 s axes Cd Cx KS u t) m p.
Proof.
  intros Ht Hm Hp. unfold cmap, rtv_xstep, at_flat. pose proof (rank_lt s axes p (proj1 Hp)) as Hr. rewrite (div_at P), (mod_at P) by exact Hr. rewrite (div_at NS), (mod_at NS) by exact Ht.
  rewrite place_rank; [reflexivity|exact ND|exact Hp].
Qed.
Lemma xstep_min rho (y u x : vec) : 0 < rho -> let x' := rtv_xstep s dsh axes M Cd D S G wtv Cx KS bases rho y u in
  lsq (NS * Cd * P) HSr sv x' + rho / 2 * nrm2 (o + n) (fun r => KR x' r - (y r - u r)) <= lsq (NS * Cd * P) HSr sv x + rho / 2 * nrm2 (o + n) (fun r => KR x r - (y r - u r)).
Proof.
  intros Hr x'. rewrite !lsq_rec, !(KR_coupling _ (fun r => y r - u r)). unfold rec_fit. rewrite <- !sumn_scal, <- !sumn_plus. apply sumn_le. intros t Ht.
  set (X' := rtv_x s dsh axes M Cd D S G wtv rho (sep0 s axes Cd Cx KS y t) (sep0 s axes Cd Cx KS u t) (sep1 s axes Cd Cx KS y t) (sep1 s axes Cd Cx KS u t)).
  rewrite (datafit_slice s dsh axes M Cd D S bases ND H2 (cf x' t) X') by (intros m q Hm Hq; apply xstep_cf; assumption).
  rewrite (cpl_slice (cf x' t) X') by (intros m q Hm Hq; apply xstep_cf; assumption).
  pose proof (slice_min_rtv s dsh axes M Cd D S G wtv ND Hne H2 HG HC rho Hr (sep0 s axes Cd Cx KS y t) (sep0 s axes Cd Cx KS u t) (sep1 s axes Cd Cx KS y t) (sep1 s axes Cd Cx KS u t) (cf x t) (bases t)) as Q.
  cbv zeta in Q. exact Q.
Qed.

(** ** The regularisers *)
Notation R1 := (K * Cd * Cx)%nat.
Notation Q := (KS * P)%nat.
Lemma HQ : (R1 * Q = o)%nat. Proof. ring. Qed.
Variables (lmbda mu rho rlx : R) (wl1 : vec).
Hypothesis Hl : 0 <= lmbda.
Hypothesis Hmu : 0 <= mu.
Hypothesis Hr : 0 < rho.
Hypothesis Hwl : forall k, (k < n)%nat -> 0 <= wl1 k.
Notation one := (fun _ : nat => 1).
Notation wd := (fun k => lmbda * wl1 k).
Notation ggr := (gg s axes M NS R1 Q lmbda mu wl1).
Notation L := (Lgg s axes M NS Q lmbda mu wl1).
Lemma Hwd' : forall k, (k < n)%nat -> 0 <= wd k. Proof. intros k Hk. apply Rmult_le_pos; [exact Hl|apply Hwl; exact Hk]. Qed.
Lemma Hone' : forall q, (q < Q)%nat -> 0 <= one q. Proof. intros. lra. Qed.
Lemma ggr_lip a b : Rabs (ggr a - ggr b) <= L * nrm (o + n) (fun i => a i - b i).
Proof.
  rewrite <- HQ. unfold gg, Lgg. pose proof (tvg_lip R1 Q n mu one Hmu Hone' a b) as E1. pose proof (tail1_lip n wd Hwd' (R1 * Q) a b) as E2.
  replace (tvg R1 Q mu one a + tail1 (R1 * Q) n wd a - (tvg R1 Q mu one b + tail1 (R1 * Q) n wd b)) with ((tvg R1 Q mu one a - tvg R1 Q mu one b) + (tail1 (R1 * Q) n wd a - tail1 (R1 * Q) n wd b)) by ring.
  eapply Rle_trans; [apply Rabs_triang|]. rewrite Rmult_plus_distr_r. apply Rplus_le_compat; assumption.
Qed.
Lemma ggr_coercive : 0 < lmbda -> 0 < mu -> (forall k, (k < n)%nat -> 0 < wl1 k) -> exists a, 0 < a /\ forall y, a * sumn (o + n) (fun i => Rabs (y i)) - 0 <= ggr y.
Proof.
  intros Hl0 Hm0 Hw0. destruct (tvg_coercive R1 Q mu one Hm0) as (a & Ha & Ea); [intros; lra|].
  destruct (tail1_coercive (R1 * Q) n wd) as (b & Hb & Eb); [intros k Hk; apply Rmult_lt_0_compat; [exact Hl0|apply Hw0; exact Hk]|].
  exists (Rmin a b). split; [apply Rmin_glb_lt; assumption|]. intros y. rewrite Rminus_0_r, <- HQ, sumn_split, Rmult_plus_distr_l. unfold gg. apply Rplus_le_compat.
  - eapply Rle_trans; [|apply Ea]. apply Rmult_le_compat_r; [apply sumn_nonneg; intros; apply Rabs_pos|apply Rmin_l].
  - eapply Rle_trans; [|apply Eb]. apply Rmult_le_compat_r; [apply sumn_nonneg; intros; apply Rabs_pos|apply Rmin_r].
Qed.
Notation xs := (rtv_xstep s dsh axes M Cd D S G wtv Cx KS bases rho).
Lemma Xmin g y u : argmin (fun _ => True) (fun x => auglag (o + n) KR eq_B (fun _ => 0) rho (lsq (NS * Cd * P) HSr sv) g x y u) (xs y u).
Proof.
  split; [exact I|]. intros x _. unfold auglag. pose proof (xstep_min rho y u x Hr) as Q0. cbv zeta in Q0.
  assert (E : forall z, nrm2 (o + n) (fun i => KR z i + eq_B y i - 0 + u i) = nrm2 (o + n) (fun r => KR z r - (y r - u r))) by (intros z; apply nrm2_ext; intros i _; unfold eq_B; ring).
  rewrite !E. lra.
Qed.
Notation ysw Y := (rtv_ystep s axes Cd Cx KS true lmbda mu rho wl1 Y).
Lemma y_tvl1 Y ax u : ysw Y ax u = tvl1_ystep s axes (fun _ => 0) NS bases R1 Q mu rho one wd ax u.
Proof.
  extensionality i. unfold rtv_ystep, tvl1_ystep. rewrite HQ. destruct (Nat.ltb_spec i o) as [Lo|Lo]; [cbv zeta; unfold tvl2_ystep; rewrite Rmult_1_r; reflexivity|].
  assert (E1 : (fun k => ax (o + k)%nat + u (o + k)%nat) = (fun k => ax (o + k)%nat + u (o + k)%nat - at_flat s axes NS bases (fun _ _ => 0) k)) by (extensionality k; unfold at_flat; ring).
  assert (E2 : (fun k => lmbda / rho * wl1 k) = (fun k => 1 / rho * (lmbda * wl1 k))) by (extensionality k; field; lra).
  rewrite E1, E2. reflexivity.
Qed.
Lemma Ymin Y ax u : argmin (fun _ => True) (fun y => auglag (o + n) (fun _ => ax) eq_B (fun _ => 0) rho (fun _ => 0) ggr ax y u) (ysw Y ax u).
Proof.
  split; [exact I|]. intros y _. rewrite y_tvl1. unfold auglag.
  pose proof (ystep1_min s axes (fun _ => 0) NS bases R1 Q n mu rho one wd ax u (fun _ => 0) y Hmu Hr Hone' Hwd' (fun _ _ => eq_refl) (fun _ _ => eq_refl)) as E0. cbv zeta in E0.
  assert (E : forall z : vec, nrm2 (o + n) (fun i => ax i + eq_B z i - 0 + u i) = nrm2 (R1 * Q + n) (fun i => ax i - z i - 0 + u i)) by (intros z; rewrite HQ; apply nrm2_ext; intros i _; unfold eq_B; ring).
  rewrite !E. unfold gg. lra.
Qed.
Lemma tv_KR x : rec_tv s dsh axes M Cd D Cx KS bases wtv x = sumn Q (fun q => nrm R1 (col Q (KR x) q)).
Proof.
  rewrite (sumn_flat P KS) by exact HP. unfold rec_tv. apply sumn_ext. intros k Hk. apply sumn_ext. intros i Hi. unfold nrm. f_equal. unfold nrm2, dot.
  assert (HCx : (0 < Cx)%nat) by nia. rewrite (sumn_flat Cx (K * Cd)) by exact HCx. rewrite (sumn_flat Cd K) by exact HC. apply sumn_ext. intros j Hj. apply sumn_ext. intros c Hc. apply sumn_ext. intros ch Hch. unfold col.
  replace (((j * Cd + c) * Cx + ch) * (KS * P) + (k * P + i))%nat with (((j * Cd + c) * NS + (ch * KS + k)) * P + i)%nat by ring. rewrite KR_at by (assumption || nia). ring.
Qed.
Lemma prob x : split_obj (NS * Cd * P) HSr sv KR (fun _ => 0) ggr x = rec_problem s dsh axes M Cd D S Cx KS bases wtv wl1 lmbda mu x.
Proof.
  unfold split_obj, rec_problem. rewrite lsq_rec. rewrite Rplus_assoc. f_equal. unfold gg. rewrite Rplus_comm. f_equal.
  - unfold tail1, rec_l1. rewrite <- sumn_scal. apply sumn_ext. intros k Hk. rewrite HQ, KR_tail by exact Hk. rewrite Rminus_0_r. ring.
  - unfold tvg. f_equal. rewrite tv_KR. apply sumn_ext. intros q _. rewrite Rmult_1_l. apply nrm_ext. intros r _. unfold col. ring.
Qed.
Notation it w := (rtv_iterate s dsh axes M Cd D S G wtv Cx KS bases w lmbda mu rho rlx wl1).
Lemma it_true k st : it true k st = iterate KR eq_B (fun _ => 0) rlx xs (ysw (fun _ => 0)) k st.
Proof.
  induction k as [|k IH]; [reflexivity|]. cbn [rtv_iterate iterate]. rewrite IH. unfold rtv_iteration, iteration.
  replace (rtv_cnst_A s dsh axes M Cd D G wtv Cx KS bases) with KR by (extensionality x; symmetry; apply A_KR). reflexivity.
Qed.

(** ** Without the assignment *)
Notation ysn y1 := (fun ax u => rtv_ystep s axes Cd Cx KS false lmbda mu rho wl1 y1 ax u).
Lemma it_false_y k st i : (i < o)%nat -> sY (it false k st) i = sY st i.
Proof.
  intros Hi. induction k as [|k IH]; [reflexivity|]. cbn [rtv_iterate]. unfold rtv_iteration. cbn [sY]. unfold rtv_ystep at 1. apply Nat.ltb_lt in Hi. rewrite Hi. exact IH.
Qed.
Lemma it_false k st : it false k st = iterate KR eq_B (fun _ => 0) rlx xs (ysn (sY st)) k st.
Proof.
  induction k as [|k IH]; [reflexivity|]. pose proof (it_false_y k st) as E. cbn [rtv_iterate iterate]. rewrite IH in E |- *. unfold rtv_iteration, iteration.
  replace (rtv_cnst_A s dsh axes M Cd D G wtv Cx KS bases) with KR by (extensionality x; symmetry; apply A_KR).
  set (st' := iterate KR eq_B (fun _ => 0) rlx xs (ysn (sY st)) k st) in *. clearbody st'.
  assert (EY : forall ax u, rtv_ystep s axes Cd Cx KS false lmbda mu rho wl1 (sY st') ax u = rtv_ystep s axes Cd Cx KS false lmbda mu rho wl1 (sY st) ax u).
  { intros ax u. extensionality i. unfold rtv_ystep. destruct (Nat.ltb_spec i o) as [Hi|]; [apply E; exact Hi|reflexivity]. }
  cbv zeta. rewrite EY. reflexivity.
Qed.
Definition fixed (y1 y : vec) : Prop := forall i, (i < o)%nat -> y i = y1 i.
Definition gt (y : vec) : R := tail1 o n wd y.
Lemma gt_convex y1 : convex_on (fixed y1) gt.
Proof.
  intros x y t Hx Hy Ht. split; [intros i Hi; unfold seg; rewrite (Hx i Hi), (Hy i Hi); ring|]. destruct (tail1_convex n wd Hwd' o x y t I I Ht) as [_ E]. exact E.
Qed.
Lemma Ymin_fixed y1 ax u : argmin (fixed y1) (fun y => auglag (o + n) (fun _ => ax) eq_B (fun _ => 0) rho (fun _ => 0) gt ax y u) (ysn y1 ax u).
Proof.
  split. { intros i Hi. unfold rtv_ystep. apply Nat.ltb_lt in Hi. rewrite Hi. reflexivity. }
  intros y Hy. unfold auglag.
  assert (Hw0 : forall q, (q < o)%nat -> 0 <= one q) by (intros; lra).
  pose proof (ystep1_min s axes (fun _ => 0) NS bases 1 0 n 0 rho one wd (fun i => ax (o + i)%nat) (fun i => u (o + i)%nat) (fun _ => 0) (fun i => y (o + i)%nat) ltac:(lra) Hr ltac:(intros; lia) Hwd' (fun _ _ => eq_refl) (fun _ _ => eq_refl)) as E0. cbv zeta in E0.
  set (p := tvl1_ystep s axes (fun _ => 0) NS bases 1 0 0 rho one wd (fun i => ax (o + i)%nat) (fun i => u (o + i)%nat)) in E0. set (q := ysn y1 ax u).
  assert (Eq : forall k, q (o + k)%nat = p k).
  { intros k. unfold q, p, rtv_ystep, tvl1_ystep. assert (L1 : Nat.ltb (o + k) o = false) by (apply Nat.ltb_ge; lia). rewrite L1. cbn [Nat.mul Nat.ltb Nat.leb Nat.add]. rewrite Nat.sub_0_r.
    replace (o + k - o)%nat with k by lia. unfold prox_l1. unfold at_flat. rewrite Rminus_0_r. replace (1 / rho * (lmbda * wl1 k)) with (lmbda / rho * wl1 k) by (field; lra). reflexivity. }
  assert (Ep : forall i, (i < o)%nat -> q i = y i).
  { intros i Hi. unfold q, rtv_ystep. pose proof Hi as Hi'. apply Nat.ltb_lt in Hi'. rewrite Hi'. symmetry. apply Hy. exact Hi. }
  rewrite !(nrm2_head o n). rewrite (nrm2_ext o (fun i => ax i + eq_B q i - 0 + u i) (fun i => ax i + eq_B y i - 0 + u i)) by (intros i Hi; unfold eq_B; rewrite (Ep i Hi); reflexivity).
  unfold tvg, tail1 in E0. cbn [Nat.mul Nat.add sumn] in E0. unfold gt, tail1.
  rewrite (sumn_ext n (fun k => lmbda * wl1 k * Rabs (q (o + k)%nat)) (fun k => lmbda * wl1 k * Rabs (p k))) by (intros k _; rewrite Eq; reflexivity).
  rewrite (nrm2_ext n (fun k => ax (o + k)%nat + eq_B q (o + k)%nat - 0 + u (o + k)%nat) (fun i => ax (o + i)%nat - p i - 0 + u (o + i)%nat)) by (intros k _; unfold eq_B; rewrite Eq; ring).
  rewrite (nrm2_ext n (fun k => ax (o + k)%nat + eq_B y (o + k)%nat - 0 + u (o + k)%nat) (fun i => ax (o + i)%nat - y (o + i)%nat - 0 + u (o + i)%nat)) by (intros k _; unfold eq_B; ring).
  lra.
Qed.
Lemma gt_l1 x : gt (KR x) = rec_l1 s axes M Cx KS wl1 lmbda x.
Proof. unfold gt, tail1, rec_l1. rewrite <- sumn_scal. apply sumn_ext. intros k Hk. rewrite KR_tail by exact Hk. ring. Qed.
End rtv.
