(** Convolutional sparse coding with total variation terms: the operators and objectives in terms of the vectors of the iteration. *)
Require Import List Arith ZArith Reals Bool Lia Lra FunctionalExtensionality.
Require Import Verif.RVec Verif.Cplx Verif.FftModel Verif.FftProofs Verif.FftInv Verif.CscModel Verif.CscSpec Verif.CscProofs Verif.CscIterModel Verif.CscIterProofs.
Require Import Verif.AdmmSpec Verif.AdmmModel Verif.AdmmProofs Verif.AdmmProps Verif.StepsSpec Verif.StepsProofs Verif.ProxModel.
Require Import Verif.LimitProofs Verif.SplitConv Verif.TvdModel Verif.TvdFourier Verif.TvdProofs Verif.TvdSteps Verif.TvdObj Verif.CtvModel Verif.CtvSpec Verif.CtvFreq.
Import ListNotations.
Local Open Scope R_scope.
Local Notation vec := (nat -> R).

Section ctv.
Variables (s dsh : nat -> nat) (axes : list nat) (M Cd : nat) (D : nat -> nat -> index -> R) (S : nat -> index -> R) (G : nat -> index -> R) (wtv : nat -> R).
Variables (NS : nat) (bases : nat -> index).
Hypothesis ND : NoDup axes.
Hypothesis Hne : axes <> [].
Hypothesis H2 : forall ax, In ax axes -> (2 <= s ax)%nat.
Hypothesis HG : gradient_filters axes = Some G.
Hypothesis HM : (0 < M)%nat.
Hypothesis HC : (0 < Cd)%nat.
Hypothesis HN : (0 < NS)%nat.
Notation K := (length axes).
Notation P := (size s axes).
Notation n := (M * NS * P)%nat.
Notation cf := (coef s axes NS).
Let Hs := TvdProofs.Hs s axes H2.
Let HP := PP s axes H2.

Definition HS (x : vec) : vec := fun r => if Nat.ltb r (NS * Cd * P) then synth s dsh axes M D (cf x (r / P / Cd)) ((r / P) mod Cd) (place s axes (bases (r / P / Cd)) (r mod P)) else 0.
Definition svc : vec := fun r => S ((r / P) mod Cd) (place s axes (bases (r / P / Cd)) (r mod P)).
Definition KT (x : vec) : vec := fun r => if Nat.ltb r ((K + 1) * n) then
  let t := ((r / P) mod NS)%nat in let m := ((r / P / NS) mod M)%nat in let j := (r / P / NS / M)%nat in let p := place s axes (bases t) (r mod P) in
  if Nat.ltb j K then wtv m * diff s j (cf x t m) p else cf x t m p else 0.

Lemma pl' t k : (k < P)%nat -> on_slice s axes (bases t) (place s axes (bases t) k).
Proof. intros Hk. apply place_slice; [exact ND|exact Hs|exact Hk]. Qed.
Lemma conv_grad j x p : (j < K)%nat -> inr s axes p -> conv s axes (padR (fun _ => 2%nat) axes (G j)) x p = diff s j x p.
Proof. intros Hj Hp. destruct (gf_some axes G HG ND j Hj) as [I E]. rewrite E, conv_rsum. apply grad_conv; assumption. Qed.
Lemma A_KT x : ctv_cnst_A s axes M G wtv NS bases x = KT x.
Proof.
  extensionality r. unfold ctv_cnst_A, KT. destruct (Nat.ltb r ((K + 1) * n)); [|reflexivity]. unfold at_flat, ctv_A. cbv zeta.
  destruct (Nat.ltb_spec (r / P / NS / M) K) as [Hj|_]; [|reflexivity]. f_equal.
  assert (Hk : (r mod P < P)%nat) by (apply Nat.mod_upper_bound; lia). pose proof (pl' ((r / P) mod NS) (r mod P) Hk) as [I _].
  unfold Gf. rewrite (conv_fft s axes ND Hne Hs) by exact I. apply conv_grad; assumption.
Qed.
Lemma KT_at x j m t k : (j < K + 1)%nat -> (m < M)%nat -> (t < NS)%nat -> (k < P)%nat ->
  KT x (((j * M + m) * NS + t) * P + k)%nat = if Nat.ltb j K then wtv m * diff s j (cf x t m) (place s axes (bases t) k) else cf x t m (place s axes (bases t) k).
Proof.
  intros Hj Hm Ht Hk. unfold KT.
  assert (L : Nat.ltb (((j * M + m) * NS + t) * P + k) ((K + 1) * n) = true).
  { apply Nat.ltb_lt. assert (A1 : (j * M + m < (K + 1) * M)%nat) by nia. assert (A2 : ((j * M + m) * NS + t < (K + 1) * M * NS)%nat) by nia. assert (A3 : (((j * M + m) * NS + t) * P + k < (K + 1) * M * NS * P)%nat) by nia. nia. }
  rewrite L. cbv zeta. rewrite (div_at P), (mod_at P) by exact Hk. rewrite (div_at NS), (mod_at NS) by exact Ht. rewrite (div_at M), (mod_at M) by exact Hm. reflexivity.
Qed.
Lemma cf_place x t m k : (k < P)%nat -> cf x t m (place s axes (bases t) k) = x ((m * NS + t) * P + k)%nat.
Proof. intros Hk. unfold coef. rewrite rank_place; [reflexivity|exact ND|exact Hs|exact Hk]. Qed.
Lemma flat3 (f : vec) N1 : sumn (N1 * n) f = sumn N1 (fun j => sumn M (fun m => sumn NS (fun t => sumn P (fun k => f (((j * M + m) * NS + t) * P + k)%nat)))).
Proof.
  replace (N1 * n)%nat with (N1 * M * NS * P)%nat by ring. rewrite (sumn_flat P) by exact HP. rewrite (sumn_flat NS) by exact HN. rewrite (sumn_flat M) by exact HM. reflexivity.
Qed.
Lemma flat2 (f : vec) : sumn n f = sumn M (fun m => sumn NS (fun t => sumn P (fun k => f ((m * NS + t) * P + k)%nat))).
Proof. rewrite (sumn_flat P) by exact HP. rewrite (sumn_flat NS) by exact HN. reflexivity. Qed.
(** The coefficients are in the last component. *)
Lemma KT_tail x i : (i < n)%nat -> KT x (K * n + i)%nat = x i.
Proof.
  intros Hi. set (k := (i mod P)%nat). set (t := ((i / P) mod NS)%nat). set (m := (i / P / NS)%nat).
  assert (Hk : (k < P)%nat) by (apply Nat.mod_upper_bound; lia). assert (Ht : (t < NS)%nat) by (apply Nat.mod_upper_bound; lia).
  assert (Hm : (m < M)%nat) by (unfold m; apply Nat.div_lt_upper_bound; [lia|]; apply Nat.div_lt_upper_bound; nia).
  assert (E : i = ((m * NS + t) * P + k)%nat).
  { pose proof (Nat.div_mod i P ltac:(lia)) as E1. pose proof (Nat.div_mod (i / P) NS ltac:(lia)) as E2. fold m in E2. fold t in E2. fold k in E1. rewrite E2 in E1. nia. }
  rewrite E. replace (K * n + ((m * NS + t) * P + k))%nat with (((K * M + m) * NS + t) * P + k)%nat by ring.
  rewrite KT_at by (assumption || lia). rewrite Nat.ltb_irrefl. apply cf_place. exact Hk.
Qed.

(** ** Linear maps *)
Lemma cf_local x y t m p : (t < NS)%nat -> (m < M)%nat -> (forall i, (i < n)%nat -> x i = y i) -> on_slice s axes (bases t) p -> cf x t m p = cf y t m p.
Proof. intros Ht Hm E Hp. unfold coef. apply E. pose proof (rank_lt s axes p (proj1 Hp)). assert (m * NS + t < M * NS)%nat by nia. nia. Qed.
Lemma KT_linear : linear_map KT.
Proof.
  intros a x b y r. unfold KT. destruct (Nat.ltb r ((K + 1) * n)); [|ring]. cbv zeta. destruct (Nat.ltb (r / P / NS / M) K); unfold diff, coef; ring.
Qed.
Lemma back_on t j p : In j axes -> on_slice s axes (bases t) p -> on_slice s axes (bases t) (back s j p).
Proof. intros Hj Hp. apply (back_slice s axes (bases t) Hs); assumption. Qed.
Lemma KT_local : local_map n KT.
Proof.
  intros x y E r. unfold KT. destruct (Nat.ltb r ((K + 1) * n)); [|reflexivity]. cbv zeta.
  assert (Ht : ((r / P) mod NS < NS)%nat) by (apply Nat.mod_upper_bound; lia). assert (Hm : ((r / P / NS) mod M < M)%nat) by (apply Nat.mod_upper_bound; lia).
  assert (Hk : (r mod P < P)%nat) by (apply Nat.mod_upper_bound; lia). pose proof (pl' ((r / P) mod NS) (r mod P) Hk) as Hp.
  destruct (Nat.ltb_spec (r / P / NS / M) K) as [Hj|_].
  - destruct (gf_some axes G HG ND _ Hj) as [I _]. unfold diff. rewrite !(cf_local x y) by (try assumption; apply back_on; assumption). reflexivity.
  - apply cf_local; assumption.
Qed.
Lemma synth_slice X X' t c p : (forall m q, (m < M)%nat -> on_slice s axes (bases t) q -> X m q = X' m q) -> on_slice s axes (bases t) p -> synth s dsh axes M D X c p = synth s dsh axes M D X' c p.
Proof.
  intros E Hp. unfold synth. apply sumn_ext. intros m Hm. unfold conv. f_equal. extensionality k. f_equal. apply E; [exact Hm|]. apply (minus_slice s axes (bases t) Hs). exact Hp.
Qed.
Lemma HS_linear : linear_map HS.
Proof.
  intros a x b y r. unfold HS. destruct (Nat.ltb r (NS * Cd * P)); [|ring]. unfold synth. rewrite <- !sumn_scal, <- sumn_plus. apply sumn_ext. intros m _.
  unfold conv. rewrite <- total_lin. f_equal. extensionality k. unfold coef. ring.
Qed.
Lemma HS_local : local_map n HS.
Proof.
  intros x y E r. unfold HS. destruct (Nat.ltb_spec r (NS * Cd * P)) as [Hr|]; [|reflexivity].
  assert (Ht : (r / P / Cd < NS)%nat) by (apply Nat.div_lt_upper_bound; [lia|]; apply Nat.div_lt_upper_bound; nia).
  apply (synth_slice _ _ (r / P / Cd)); [|apply pl'; apply Nat.mod_upper_bound; lia]. intros m q Hm Hq. apply cf_local; assumption.
Qed.
Lemma inj x : nrm2 n x <= 1 * (nrm2 (NS * Cd * P) (HS x) + nrm2 ((K + 1) * n) (KT x)).
Proof.
  replace ((K + 1) * n)%nat with (K * n + n)%nat by ring. rewrite nrm2_head, (nrm2_ext n (fun k => KT x (K * n + k)%nat) x) by (intros k Hk; apply KT_tail; exact Hk).
  pose proof (nrm2_nonneg (NS * Cd * P) (HS x)). pose proof (nrm2_nonneg (K * n) (KT x)). lra.
Qed.

(** ** The terms of the problem *)
Lemma lsq_fit x : lsq (NS * Cd * P) HS svc x = fit s dsh axes M Cd D S NS bases x.
Proof.
  unfold lsq, fit, datafit. rewrite sumn_scal. f_equal. unfold nrm2, dot. rewrite (sumn_flat P) by exact HP. rewrite (sumn_flat Cd) by exact HC. apply sumn_ext. intros t Ht. apply sumn_ext. intros c Hc.
  unfold sqn. rewrite <- (sum_place s axes Hs). apply sumn_ext. intros k Hk. unfold HS, svc.
  assert (L : Nat.ltb ((t * Cd + c) * P + k) (NS * Cd * P) = true) by (apply Nat.ltb_lt; assert (t * Cd + c < NS * Cd)%nat by nia; nia).
  rewrite L, (div_at P), (mod_at P) by exact Hk. rewrite (div_at Cd), (mod_at Cd) by exact Hc. reflexivity.
Qed.
Lemma KT_coupling x (z : vec) : nrm2 ((K + 1) * n) (fun r => KT x r - z r) =
  sumn NS (fun t => coupling s axes M G wtv (cf x t) (fun j m => comp s axes M NS z t j m) (bases t)).
Proof.
  unfold nrm2, dot. rewrite flat3. rewrite (sumn_ext (K + 1) _ (fun j => sumn NS (fun t => sumn M (fun m => sumn P (fun k =>
     (KT x (((j * M + m) * NS + t) * P + k)%nat - z (((j * M + m) * NS + t) * P + k)%nat) * (KT x (((j * M + m) * NS + t) * P + k)%nat - z (((j * M + m) * NS + t) * P + k)%nat)))))) by (intros j _; apply sumn_swap).
  rewrite sumn_swap. apply sumn_ext. intros t Ht. rewrite sumn_swap. unfold coupling. apply sumn_ext. intros m Hm. rewrite Nat.add_1_r. cbn [sumn].
  assert (Ez : forall j k, (k < P)%nat -> comp s axes M NS z t j m (place s axes (bases t) k) = z (((j * M + m) * NS + t) * P + k)%nat) by (intros j k Hk; unfold comp, slice; rewrite rank_place; [reflexivity|exact ND|exact Hs|exact Hk]).
  f_equal.
  - apply sumn_ext. intros j Hj. unfold sqn. rewrite <- (sum_place s axes Hs). apply sumn_ext. intros k Hk. pose proof (pl' t k Hk) as [I _].
    rewrite KT_at by (assumption || lia). rewrite (Ez j k Hk), conv_grad by assumption. apply Nat.ltb_lt in Hj. rewrite Hj. reflexivity.
  - unfold sqn. rewrite <- (sum_place s axes Hs). apply sumn_ext. intros k Hk. rewrite KT_at by (assumption || lia). rewrite (Ez K k Hk), Nat.ltb_irrefl. reflexivity.
Qed.
Lemma datafit_slice X X' t : (forall m q, (m < M)%nat -> on_slice s axes (bases t) q -> X m q = X' m q) -> datafit s dsh axes M Cd D S X (bases t) = datafit s dsh axes M Cd D S X' (bases t).
Proof.
  intros E. unfold datafit. f_equal. apply sumn_ext. intros c _. unfold sqn. rewrite <- !(sum_place s axes Hs). apply sumn_ext. intros k Hk. rewrite (synth_slice X X' t) by (try exact E; apply pl'; exact Hk). reflexivity.
Qed.
Lemma coupling_slice X X' Z t : (forall m q, (m < M)%nat -> on_slice s axes (bases t) q -> X m q = X' m q) -> coupling s axes M G wtv X Z (bases t) = coupling s axes M G wtv X' Z (bases t).
Proof.
  intros E. unfold coupling. apply sumn_ext. intros m Hm. f_equal.
  - apply sumn_ext. intros j _. unfold sqn. rewrite <- !(sum_place s axes Hs). apply sumn_ext. intros k Hk.
    rewrite (TvdProofs.conv_slice s axes bases H2 _ t (X m) (X' m)); [reflexivity|intros q Hq; apply E; assumption|apply pl'; exact Hk].
  - unfold sqn. rewrite <- !(sum_place s axes Hs). apply sumn_ext. intros k Hk. rewrite (E m _ Hm (pl' t k Hk)). reflexivity.
Qed.
Lemma x_obj rho x (y u : vec) : lsq (NS * Cd * P) HS svc x + rho / 2 * nrm2 ((K + 1) * n) (fun r => KT x r - (y r - u r)) =
  sumn NS (fun t => datafit s dsh axes M Cd D S (cf x t) (bases t) + rho / 2 * coupling s axes M G wtv (cf x t) (fun j m p => comp s axes M NS y t j m p - comp s axes M NS u t j m p) (bases t)).
Proof. rewrite lsq_fit, (KT_coupling x (fun r => y r - u r)), <- sumn_scal. unfold fit. rewrite <- sumn_plus. reflexivity. Qed.
Lemma xstep_cf rho y u t m p : (t < NS)%nat -> (m < M)%nat -> on_slice s axes (bases t) p ->
  cf (ctv_xstep s dsh axes M Cd D S G wtv NS bases rho y u) t m p = ctv_x s dsh axes M Cd D S G wtv rho (comp s axes M NS y t) (comp s axes M NS u t) m p.
Proof.
  intros Ht Hm Hp. unfold coef, ctv_xstep, at_flat. pose proof (rank_lt s axes p (proj1 Hp)) as Hr. rewrite (div_at P), (mod_at P) by exact Hr. rewrite (div_at NS), (mod_at NS) by exact Ht.
  rewrite place_rank; [reflexivity|exact ND|exact Hp].
Qed.
Hypothesis Hw : Cd = 1%nat -> forall m, (m < M)%nat -> wtv m * wtv m = wtv O * wtv O.
Lemma xstep_min rho (y u x : vec) : 0 < rho -> let x' := ctv_xstep s dsh axes M Cd D S G wtv NS bases rho y u in
  lsq (NS * Cd * P) HS svc x' + rho / 2 * nrm2 ((K + 1) * n) (fun r => KT x' r - (y r - u r)) <= lsq (NS * Cd * P) HS svc x + rho / 2 * nrm2 ((K + 1) * n) (fun r => KT x r - (y r - u r)).
Proof.
  intros Hr x'. rewrite !x_obj. apply sumn_le. intros t Ht. set (Z := fun j m p => _ - _).
  rewrite (datafit_slice (cf x' t) (ctv_x s dsh axes M Cd D S G wtv rho (comp s axes M NS y t) (comp s axes M NS u t))) by (intros m q Hm Hq; apply xstep_cf; assumption).
  rewrite (coupling_slice (cf x' t) (ctv_x s dsh axes M Cd D S G wtv rho (comp s axes M NS y t) (comp s axes M NS u t))) by (intros m q Hm Hq; apply xstep_cf; assumption).
  apply slice_min; try assumption.
Qed.

(** ** The regularisers *)
Variables (R1 Q : nat).
Hypothesis HQ : (R1 * Q = K * n)%nat.
Variables (lmbda mu rho rlx : R) (wl1 : vec).
Hypothesis Hl : 0 <= lmbda.
Hypothesis Hmu : 0 <= mu.
Hypothesis Hr : 0 < rho.
Hypothesis Hwl : forall k, (k < n)%nat -> 0 <= wl1 k.
Notation one := (fun _ : nat => 1).
Notation wd := (fun k => lmbda * wl1 k).
Definition gg (y : vec) : R := tvg R1 Q mu one y + tail1 (R1 * Q) n wd y.
Lemma Hone : forall q, (q < Q)%nat -> 0 <= one q. Proof. intros. lra. Qed.
Lemma Hwd : forall k, (k < n)%nat -> 0 <= wd k. Proof. intros k Hk. apply Rmult_le_pos; [exact Hl|apply Hwl; exact Hk]. Qed.
Lemma mm : ((K + 1) * n = R1 * Q + n)%nat. Proof. rewrite HQ. ring. Qed.
Lemma gg_convex : convex_on (fun _ => True) gg.
Proof.
  intros x y t _ _ Ht. split; [exact I|]. unfold gg. destruct (tvg_convex R1 Q mu one Hmu Hone x y t I I Ht) as [_ E1]. destruct (tail1_convex n wd Hwd (R1 * Q) x y t I I Ht) as [_ E2]. lra.
Qed.
Lemma gg_nonneg y : 0 <= gg y.
Proof. unfold gg. pose proof (tvg_nonneg R1 Q mu one Hmu Hone y). pose proof (tail1_nonneg n wd Hwd (R1 * Q) y). lra. Qed.
Definition Lgg : R := mu * sumn Q one + sumn n wd.
Lemma Lgg_nn : 0 <= Lgg.
Proof. unfold Lgg. pose proof (sumn_nonneg _ _ Hwd). assert (0 <= mu * sumn Q one) by (apply Rmult_le_pos; [exact Hmu|apply sumn_nonneg; exact Hone]). lra. Qed.
Lemma gg_lip a b : Rabs (gg a - gg b) <= Lgg * nrm ((K + 1) * n) (fun i => a i - b i).
Proof.
  rewrite mm. unfold gg, Lgg. pose proof (tvg_lip R1 Q n mu one Hmu Hone a b) as E1. pose proof (tail1_lip n wd Hwd (R1 * Q) a b) as E2.
  replace (tvg R1 Q mu one a + tail1 (R1 * Q) n wd a - (tvg R1 Q mu one b + tail1 (R1 * Q) n wd b)) with ((tvg R1 Q mu one a - tvg R1 Q mu one b) + (tail1 (R1 * Q) n wd a - tail1 (R1 * Q) n wd b)) by ring.
  eapply Rle_trans; [apply Rabs_triang|]. rewrite Rmult_plus_distr_r. apply Rplus_le_compat; assumption.
Qed.
Lemma gg_coercive : 0 < lmbda -> 0 < mu -> (forall k, (k < n)%nat -> 0 < wl1 k) -> exists a, 0 < a /\ forall y, a * sumn ((K + 1) * n) (fun i => Rabs (y i)) - 0 <= gg y.
Proof.
  intros Hl0 Hm0 Hw0. destruct (tvg_coercive R1 Q mu one Hm0) as (a & Ha & Ea); [intros; lra|].
  destruct (tail1_coercive (R1 * Q) n wd) as (b & Hb & Eb); [intros k Hk; apply Rmult_lt_0_compat; [exact Hl0|apply Hw0; exact Hk]|].
  exists (Rmin a b). split; [apply Rmin_glb_lt; assumption|]. intros y. rewrite Rminus_0_r, mm, sumn_split, Rmult_plus_distr_l. unfold gg. apply Rplus_le_compat.
  - eapply Rle_trans; [|apply Ea]. apply Rmult_le_compat_r; [apply sumn_nonneg; intros; apply Rabs_pos|apply Rmin_l].
  - eapply Rle_trans; [|apply Eb]. apply Rmult_le_compat_r; [apply sumn_nonneg; intros; apply Rabs_pos|apply Rmin_r].
Qed.
Lemma Xmin y u : argmin (fun _ => True) (fun x => auglag ((K + 1) * n) KT eq_B (fun _ => 0) rho (lsq (NS * Cd * P) HS svc) gg x y u) (ctv_xstep s dsh axes M Cd D S G wtv NS bases rho y u).
Proof.
  split; [exact I|]. intros x _. unfold auglag. pose proof (xstep_min rho y u x Hr) as Q0. cbv zeta in Q0.
  assert (E : forall z, nrm2 ((K + 1) * n) (fun i => KT z i + eq_B y i - 0 + u i) = nrm2 ((K + 1) * n) (fun r => KT z r - (y r - u r))) by (intros z; apply nrm2_ext; intros i _; unfold eq_B; ring).
  rewrite !E. lra.
Qed.
Variable grad : vec -> vec -> vec.
Hypothesis Hgrad : forall ax u i, (i < K * n)%nat -> grad ax u i = tvl2_ystep R1 Q mu rho one ax u i.
Lemma y_tvl1 ax u : ctv_ystep s axes M NS grad lmbda rho wl1 ax u = tvl1_ystep s axes (fun _ => 0) NS bases R1 Q mu rho one wd ax u.
Proof.
  extensionality i. unfold ctv_ystep, tvl1_ystep. rewrite HQ. destruct (Nat.ltb_spec i (K * n)) as [L|L]; [apply Hgrad; exact L|].
  assert (E1 : (fun k => ax (K * n + k)%nat + u (K * n + k)%nat) = (fun k => ax (K * n + k)%nat + u (K * n + k)%nat - at_flat s axes NS bases (fun _ _ => 0) k)) by (extensionality k; unfold at_flat; ring).
  assert (E2 : (fun k => lmbda / rho * wl1 k) = (fun k => 1 / rho * (lmbda * wl1 k))) by (extensionality k; field; lra).
  rewrite E1, E2. reflexivity.
Qed.
Lemma Ymin ax u : argmin (fun _ => True) (fun y => auglag ((K + 1) * n) (fun _ => ax) eq_B (fun _ => 0) rho (fun _ => 0) gg ax y u) (ctv_ystep s axes M NS grad lmbda rho wl1 ax u).
Proof.
  split; [exact I|]. intros y _. rewrite y_tvl1. unfold auglag.
  pose proof (ystep1_min s axes (fun _ => 0) NS bases R1 Q n mu rho one wd ax u (fun _ => 0) y Hmu Hr Hone Hwd (fun _ _ => eq_refl) (fun _ _ => eq_refl)) as E0. cbv zeta in E0.
  assert (E : forall z : vec, nrm2 ((K + 1) * n) (fun i => ax i + eq_B z i - 0 + u i) = nrm2 (R1 * Q + n) (fun i => ax i - z i - 0 + u i)) by (intros z; rewrite mm; apply nrm2_ext; intros i _; unfold eq_B; ring).
  rewrite !E. unfold gg. lra.
Qed.
Variable tv : vec -> R.
Hypothesis Htv : forall x, tv x = sumn Q (fun q => nrm R1 (col Q (KT x) q)).
Lemma prob x : split_obj (NS * Cd * P) HS svc KT (fun _ => 0) gg x = ctv_problem s dsh axes M Cd D S NS bases wl1 lmbda mu tv x.
Proof.
  unfold split_obj, ctv_problem. rewrite lsq_fit. rewrite Rplus_assoc. f_equal. unfold gg. rewrite Rplus_comm. f_equal.
  - unfold tail1, sparsity. rewrite <- sumn_scal. apply sumn_ext. intros k Hk. rewrite HQ, KT_tail by exact Hk. rewrite Rminus_0_r. ring.
  - unfold tvg. f_equal. rewrite Htv. apply sumn_ext. intros q _. rewrite Rmult_1_l. apply nrm_ext. intros r _. unfold col. ring.
Qed.
End ctv.
