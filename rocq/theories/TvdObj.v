(** The objectives of total variation deconvolution in terms of the vectors of the iteration, and the conditions of SplitConv. *)
Require Import List Arith ZArith Reals Bool Lia Lra FunctionalExtensionality.
Require Import Verif.RVec Verif.Cplx Verif.FftModel Verif.FftProofs Verif.CscModel Verif.CscSpec Verif.CscProofs Verif.CscIterModel Verif.CscIterProofs.
Require Import Verif.AdmmSpec Verif.AdmmModel Verif.AdmmProofs Verif.AdmmProps Verif.StepsSpec Verif.StepsProofs Verif.ProxModel.
Require Import Verif.LimitProofs Verif.SplitConv Verif.TvdModel Verif.TvdSpec Verif.TvdFourier Verif.TvdProofs Verif.TvdSteps.
Import ListNotations.
Local Open Scope R_scope.
Local Notation vec := (nat -> R).

Lemma place_in s axes : forall base base' k ax, In ax axes -> place s axes base k ax = place s axes base' k ax.
Proof.
  induction axes as [|a r IH]; intros base base' k ax H; [destruct H|]. simpl. destruct (in_dec Nat.eq_dec ax r) as [I|N]; [apply IH; exact I|].
  rewrite !place_other by exact N. destruct H as [<-|H]; [|contradiction]. rewrite !upd_same. reflexivity.
Qed.
Lemma argmin_ext (F F' : vec -> R) p : (forall x, F x = F' x) -> argmin (fun _ => True) F p -> argmin (fun _ => True) F' p.
Proof. intros E [_ M]. split; [exact I|]. intros x _. rewrite <- !E. apply M. exact I. Qed.

Section tvd.
Variables (s ash : nat -> nat) (axes : list nat) (A S : index -> R) (G : nat -> index -> R) (C B : nat) (bases : nat -> index).
Hypothesis ND : NoDup axes.
Hypothesis Hne : axes <> [].
Hypothesis H2 : forall ax, In ax axes -> (2 <= s ax)%nat.
Hypothesis HG : gradient_filters axes = Some G.
Hypothesis HC : (0 < C)%nat.
Hypothesis HB : (0 < B)%nat.
Notation K := (length axes).
Notation P := (size s axes).
Notation NS := (C * B)%nat.
Notation KA := (TvdProofs.KA s ash axes A G NS bases).
Notation HA := (TvdProofs.HA s ash axes A NS bases).
Notation sv := (TvdProofs.sv s axes S NS bases).
Lemma HN : (0 < NS)%nat. Proof. nia. Qed.
Let Hs' := Hs s axes H2.
Let HP := PP s axes H2.

Lemma diff_base j x t b b' k : (k < P)%nat -> In j axes -> diff s j (slice s axes x t) (place s axes b k) = diff s j (slice s axes x t) (place s axes b' k).
Proof.
  intros Hk Hj. unfold diff, slice. rewrite !rank_place by assumption. f_equal. f_equal. f_equal. apply rank_ext. intros ax Ha. unfold back, set_at.
  destruct (Nat.eqb ax j); rewrite (place_in s axes b b'); auto.
Qed.
Lemma KA_at Rn x j t k : (j < Rn)%nat -> (Rn <= K + 1)%nat -> (t < NS)%nat -> (k < P)%nat ->
  KA Rn x ((j * NS + t) * P + k)%nat = if Nat.ltb j K then diff s j (slice s axes x t) (place s axes (bases t) k) else conv s axes (padR ash axes A) (slice s axes x t) (place s axes (bases t) k).
Proof.
  intros Hj HR Ht Hk. unfold TvdProofs.KA.
  assert (L : Nat.ltb ((j * NS + t) * P + k) (Rn * NS * P) = true) by (apply Nat.ltb_lt; assert (j * NS + t < Rn * NS)%nat by nia; nia).
  rewrite L, (div_at P), (mod_at P) by exact Hk. rewrite (div_at NS), (mod_at NS) by exact Ht. destruct (Nat.ltb_spec j K) as [J|J].
  - apply Fil_grad; try assumption. apply pl_in; assumption.
  - assert (j = K) by lia. subst j. rewrite Fil_A. reflexivity.
Qed.
Lemma tv_cols Rn w x lam : (K <= Rn <= K + 1)%nat -> lam * tv s axes C B w x = tvg (K * C) (B * P) lam w (KA Rn x).
Proof.
  intros HR. unfold tvg, tv. f_equal. rewrite (sumn_flat P B) by exact HP. apply sumn_ext. intros b Hb. rewrite <- (sum_place s axes Hs'). apply sumn_ext. intros k Hk.
  rewrite rank_place by assumption. f_equal. unfold nrm. f_equal. unfold nrm2, dot. rewrite (sumn_flat C K) by exact HC. apply sumn_ext. intros j Hj. apply sumn_ext. intros c Hc. unfold col.
  replace ((j * C + c) * (B * P) + (b * P + k))%nat with ((j * NS + (c * B + b)) * P + k)%nat by ring.
  rewrite KA_at by (try assumption; try lia; nia). pose proof (gf_some axes G HG ND j Hj) as [I _]. pose proof Hj as Hj'. apply Nat.ltb_lt in Hj'. rewrite Hj'.
  change (image s axes x (c * B + b)) with (slice s axes x (c * B + b)). rewrite (diff_base j x _ (fun _ => O) (bases (c * B + b))) by assumption. ring.
Qed.
Lemma sizes : (K * NS * P = K * C * (B * P))%nat. Proof. ring. Qed.
Lemma sizes1 : ((K + 1) * NS * P = K * C * (B * P) + NS * P)%nat. Proof. ring. Qed.
Lemma prob2 lam w x : split_obj (NS * P) HA sv (KA K) (fun _ => 0) (tvg (K * C) (B * P) lam w) x = tvl2_problem s ash axes A S C B bases lam w x.
Proof.
  unfold split_obj, tvl2_problem. f_equal.
  - unfold lsq. rewrite (HA_nrm2 s ash axes A S NS bases H2 HN). reflexivity.
  - rewrite (tv_cols K) by lia. unfold tvg. f_equal. apply sumn_ext. intros q _. f_equal. apply nrm_ext. intros r _. unfold col. ring.
Qed.
Lemma c_head i : (i < K * C * (B * P))%nat -> tvl1_c s axes S NS bases i = 0.
Proof. intros Hi. unfold tvl1_c. assert (E : Nat.leb (K * NS * P) i = false) by (apply Nat.leb_gt; rewrite sizes; exact Hi). rewrite E. reflexivity. Qed.
Lemma c_tail k : (k < NS * P)%nat -> tvl1_c s axes S NS bases (K * C * (B * P) + k)%nat = sv k.
Proof.
  intros Hk. unfold tvl1_c. assert (E1 : Nat.leb (K * NS * P) (K * C * (B * P) + k) = true) by (apply Nat.leb_le; rewrite sizes; lia).
  assert (E2 : Nat.ltb (K * C * (B * P) + k) ((K + 1) * NS * P) = true) by (apply Nat.ltb_lt; rewrite sizes1; lia). rewrite E1, E2. cbn [andb].
  assert (T : (k / P < NS)%nat) by (apply Nat.div_lt_upper_bound; nia). assert (M : (k mod P < P)%nat) by (apply Nat.mod_upper_bound; lia).
  assert (X : (K * C * (B * P) + k = (K * NS + k / P) * P + k mod P)%nat) by (rewrite (Nat.div_mod k P) at 1 by lia; ring).
  unfold TvdProofs.sv, at_flat. rewrite X, (div_at P), (mod_at P) by exact M. rewrite (mod_at NS) by exact T. rewrite (Nat.mod_small (k / P)) by exact T. reflexivity.
Qed.
Lemma prob1 lam w wd x : split_obj 0 HA sv (KA (K + 1)) (tvl1_c s axes S NS bases) (fun y => tvg (K * C) (B * P) lam w y + tail1 (K * C * (B * P)) (NS * P) wd y) x = tvl1_problem s ash axes A S C B bases lam w wd x.
Proof.
  unfold split_obj, tvl1_problem. rewrite (tv_cols (K + 1)) by lia. unfold lsq, nrm2, dot. cbn [sumn]. rewrite Rmult_0_r, Rplus_0_l, Rplus_comm. f_equal.
  - unfold tail1. rewrite (sumn_flat P NS) by exact HP. apply sumn_ext. intros t Ht. rewrite <- (sum_place s axes Hs'). apply sumn_ext. intros k Hk.
    rewrite c_tail by nia. replace (K * C * (B * P) + (t * P + k))%nat with ((K * NS + t) * P + k)%nat by ring.
    rewrite KA_at by (try assumption; try lia; nia). rewrite Nat.ltb_irrefl. rewrite rank_place by assumption. f_equal. unfold misfit. f_equal. f_equal.
    unfold TvdProofs.sv, at_flat. rewrite (div_at P), (mod_at P) by exact Hk. rewrite Nat.mod_small by exact Ht. reflexivity.
  - unfold tvg. f_equal. apply sumn_ext. intros q Hq. f_equal. apply nrm_ext. intros r Hr. unfold col. rewrite c_head by nia. ring.
Qed.

(** ** The conditions *)
Hypothesis Hdc : forall t, (t < NS)%nat -> dc_gain s ash axes A bases t <> 0.
Variables (lam rho rlx : R) (w wd : vec).
Hypothesis Hl : 0 <= lam.
Hypothesis Hr : 0 < rho.
Hypothesis Hw : forall q, (q < B * P)%nat -> 0 <= w q.
Hypothesis Hwd : forall k, (k < NS * P)%nat -> 0 <= wd k.
Notation g2 := (tvg (K * C) (B * P) lam w).
Notation g1 := (fun y => tvg (K * C) (B * P) lam w y + tail1 (K * C * (B * P)) (NS * P) wd y).
Notation m2 := (K * NS * P)%nat.
Notation m1 := ((K + 1) * NS * P)%nat.
Lemma X2 y u : argmin (fun _ => True) (fun x => auglag m2 (KA K) eq_B (fun _ => 0) rho (lsq (NS * P) HA sv) g2 x y u) (tvl2_xstep s ash axes A S G NS bases rho y u).
Proof.
  split; [exact I|]. intros x _. unfold auglag.
  pose proof (xstep2_min s ash axes A S G NS bases ND Hne H2 HG HN Hdc rho y u x Hr) as M.
  assert (E : forall z, nrm2 m2 (fun i => KA K z i + eq_B y i - 0 + u i) = nrm2 m2 (fun r => KA K z r - (y r - u r))) by (intros z; apply nrm2_ext; intros i _; unfold eq_B; ring).
  rewrite !E. lra.
Qed.
Lemma Y2 ax u : argmin (fun _ => True) (fun y => auglag m2 (fun _ => ax) eq_B (fun _ => 0) rho (fun _ => 0) g2 ax y u) (tvl2_ystep (K * C) (B * P) lam rho w ax u).
Proof.
  split; [exact I|]. intros y _. unfold auglag. pose proof (ystep2_min (K * C) (B * P) lam rho w ax u y Hl Hr Hw) as M. cbv zeta in M.
  assert (E : forall z : vec, nrm2 m2 (fun i => ax i + eq_B z i - 0 + u i) = nrm2 (K * C * (B * P)) (fun i => ax i - z i + u i)) by (intros z; rewrite sizes; apply nrm2_ext; intros i _; unfold eq_B; ring).
  rewrite !E. lra.
Qed.
Lemma X1 y u : argmin (fun _ => True) (fun x => auglag m1 (KA (K + 1)) eq_B (tvl1_c s axes S NS bases) rho (lsq 0 HA sv) g1 x y u) (tvl1_xstep s ash axes A S G NS bases y u).
Proof.
  split; [exact I|]. intros x _. unfold auglag.
  pose proof (xstep1_min s ash axes A S G NS bases ND Hne H2 HG HN Hdc y u x) as M.
  assert (E : forall z, nrm2 m1 (fun i => KA (K + 1) z i + eq_B y i - tvl1_c s axes S NS bases i + u i) = nrm2 m1 (fun r => KA (K + 1) z r - (y r - u r + tvl1_c s axes S NS bases r))) by (intros z; apply nrm2_ext; intros i _; unfold eq_B; ring).
  rewrite !E. apply (Rmult_le_compat_l (rho / 2)) in M; [|lra]. unfold lsq, nrm2 at 1 3, dot. cbn [sumn]. unfold nrm2 in *. lra.
Qed.
Lemma Y1 ax u : argmin (fun _ => True) (fun y => auglag m1 (fun _ => ax) eq_B (tvl1_c s axes S NS bases) rho (fun _ => 0) g1 ax y u) (tvl1_ystep s axes S NS bases (K * C) (B * P) lam rho w wd ax u).
Proof.
  split; [exact I|]. intros y _. unfold auglag.
  pose proof (ystep1_min s axes S NS bases (K * C) (B * P) (NS * P) lam rho w wd ax u (tvl1_c s axes S NS bases) y Hl Hr Hw Hwd c_head c_tail) as M. cbv zeta in M.
  assert (E : forall z : vec, nrm2 m1 (fun i => ax i + eq_B z i - tvl1_c s axes S NS bases i + u i) = nrm2 (K * C * (B * P) + NS * P) (fun i => ax i - z i - tvl1_c s axes S NS bases i + u i)) by (intros z; rewrite sizes1; apply nrm2_ext; intros i _; unfold eq_B; ring).
  rewrite !E. lra.
Qed.
Lemma L2_nonneg : 0 <= lam * sumn (B * P) w. Proof. apply Rmult_le_pos; [exact Hl|apply sumn_nonneg; exact Hw]. Qed.
Lemma L1_nonneg : 0 <= lam * sumn (B * P) w + sumn (NS * P) wd. Proof. pose proof L2_nonneg. pose proof (sumn_nonneg _ _ Hwd). lra. Qed.
Lemma g2_lip a b : Rabs (g2 a - g2 b) <= lam * sumn (B * P) w * nrm m2 (fun i => a i - b i).
Proof. rewrite sizes. pose proof (tvg_lip (K * C) (B * P) 0 lam w Hl Hw a b) as E. rewrite Nat.add_0_r in E. exact E. Qed.
Lemma g1_lip a b : Rabs (g1 a - g1 b) <= (lam * sumn (B * P) w + sumn (NS * P) wd) * nrm m1 (fun i => a i - b i).
Proof.
  rewrite sizes1. pose proof (tvg_lip (K * C) (B * P) (NS * P) lam w Hl Hw a b) as E1. pose proof (tail1_lip (NS * P) wd Hwd (K * C * (B * P)) a b) as E2.
  replace (tvg (K * C) (B * P) lam w a + tail1 (K * C * (B * P)) (NS * P) wd a - (tvg (K * C) (B * P) lam w b + tail1 (K * C * (B * P)) (NS * P) wd b)) with
    ((tvg (K * C) (B * P) lam w a - tvg (K * C) (B * P) lam w b) + (tail1 (K * C * (B * P)) (NS * P) wd a - tail1 (K * C * (B * P)) (NS * P) wd b)) by ring.
  eapply Rle_trans; [apply Rabs_triang|]. lra.
Qed.
Lemma g1_convex : convex_on (fun _ => True) g1.
Proof.
  intros x y t _ _ Ht. split; [exact I|]. destruct (tvg_convex (K * C) (B * P) lam w Hl Hw x y t I I Ht) as [_ E1]. destruct (tail1_convex (NS * P) wd Hwd (K * C * (B * P)) x y t I I Ht) as [_ E2]. lra.
Qed.
Lemma g1_nonneg y : 0 <= g1 y.
Proof. pose proof (tvg_nonneg (K * C) (B * P) lam w Hl Hw y). pose proof (tail1_nonneg (NS * P) wd Hwd (K * C * (B * P)) y). lra. Qed.
Lemma inj2 : exists kap, 0 <= kap /\ forall x, nrm2 (NS * P) x <= kap * (nrm2 (NS * P) (HA x) + nrm2 m2 (KA K x)).
Proof.
  destruct (inj_all s ash axes A G NS bases ND Hne H2 HG HN Hdc) as (kap & Hk & E). exists kap. split; [exact Hk|]. intros x. specialize (E x). rewrite KA_split in E by (assumption || exact HN). exact E.
Qed.
Lemma inj1 : exists kap, 0 <= kap /\ forall x, nrm2 (NS * P) x <= kap * (nrm2 0 (HA x) + nrm2 m1 (KA (K + 1) x)).
Proof.
  destruct (inj_all s ash axes A G NS bases ND Hne H2 HG HN Hdc) as (kap & Hk & E). exists kap. split; [exact Hk|]. intros x. specialize (E x). unfold nrm2 at 2, dot. cbn [sumn]. rewrite Rplus_0_l. exact E.
Qed.
Lemma it2 k st : tvl2_iterate s ash axes A S G NS bases C B lam rho rlx w k st = iterate (KA K) eq_B (fun _ => 0) rlx (tvl2_xstep s ash axes A S G NS bases rho) (tvl2_ystep (K * C) (B * P) lam rho w) k st.
Proof.
  unfold tvl2_iterate. replace (tvl2_cnst_A s axes G NS bases) with (KA K); [reflexivity|]. extensionality x. symmetry. apply A_tvl2; try assumption. exact HN.
Qed.
Lemma it1 k st : tvl1_iterate s ash axes A S G NS bases C B lam rho rlx w wd k st = iterate (KA (K + 1)) eq_B (tvl1_c s axes S NS bases) rlx (tvl1_xstep s ash axes A S G NS bases) (tvl1_ystep s axes S NS bases (K * C) (B * P) lam rho w wd) k st.
Proof.
  unfold tvl1_iterate. replace (tvl1_cnst_A s ash axes A G NS bases) with (KA (K + 1)); [reflexivity|]. extensionality x. symmetry. apply A_tvl1; try assumption. exact HN.
Qed.
End tvd.
