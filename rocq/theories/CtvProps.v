(** C76: convolutional sparse coding with total variation terms. *)
Require Import List Arith ZArith Reals Bool Lia Lra FunctionalExtensionality.
Require Import Verif.RVec Verif.Cplx Verif.FftModel Verif.FftProofs Verif.FftInv Verif.CscModel Verif.CscSpec Verif.CscProofs Verif.CscIterModel Verif.CscIterProofs.
Require Import Verif.AdmmSpec Verif.AdmmModel Verif.AdmmProofs Verif.AdmmProps Verif.StepsSpec Verif.StepsProofs Verif.ProxModel.
Require Import Verif.LimitProofs Verif.SplitConv Verif.TvdModel Verif.TvdFourier Verif.TvdProofs Verif.TvdSteps Verif.TvdObj Verif.CtvModel Verif.CtvSpec Verif.CtvFreq Verif.CtvObj.
Import ListNotations.
Local Open Scope R_scope.
Local Notation vec := (nat -> R).

Section c76.
Variables (s dsh : nat -> nat) (axes : list nat) (M Cd : nat) (D : nat -> nat -> index -> R) (S : nat -> index -> R) (G : nat -> index -> R) (wtv : nat -> R).
Variables (NS : nat) (bases : nat -> index).
Hypothesis ND : NoDup axes.
Hypothesis Hne : axes <> [].
Hypothesis H2 : forall ax, In ax axes -> (2 <= s ax)%nat.
Hypothesis HG : gradient_filters axes = Some G.
Hypothesis HM : (0 < M)%nat.
Hypothesis HC : (0 < Cd)%nat.
Hypothesis HN : (0 < NS)%nat.
Notation K := (length axes).
Notation P := (size s axes).
Notation n := (M * NS * P)%nat.
Notation A := (ctv_cnst_A s axes M G wtv NS bases).

(** The components of cnst_A are the weighted periodic differences and the coefficients. *)
Theorem C76_A x j m t p : (m < M)%nat -> (t < NS)%nat -> on_slice s axes (bases t) p ->
  ((j < K)%nat -> comp s axes M NS (A x) t j m p = wgrad s axes NS wtv x t m j p) /\ comp s axes M NS (A x) t K m p = coef s axes NS x t m p.
Proof.
  intros Hm Ht Hp. rewrite (A_KT s axes M Cd G wtv NS bases ND Hne H2 HG HM HC HN). pose proof (rank_lt s axes p (proj1 Hp)) as Hr. pose proof (place_rank s axes ND (bases t) p Hp) as E.
  split; [intros Hj|]; unfold comp, slice; (rewrite (KT_at s axes M Cd wtv NS bases H2 HM HC HN); [|assumption || lia..]); rewrite E.
  - apply Nat.ltb_lt in Hj. rewrite Hj. reflexivity.
  - rewrite Nat.ltb_irrefl. reflexivity.
Qed.

(** The same weight for all filters, unless the dictionary has several channels. *)
Hypothesis Hw : Cd = 1%nat -> forall m, (m < M)%nat -> wtv m = wtv O.
Lemma Hw2 : Cd = 1%nat -> forall m, (m < M)%nat -> wtv m * wtv m = wtv O * wtv O.
Proof. intros E m Hm. rewrite (Hw E m Hm). reflexivity. Qed.
Variables (lmbda mu rho rlx : R) (wl1 : vec).
Hypothesis Hr : 0 < rho.
(** The array Xf which is passed to cnst_A is the transform of X. *)
Theorem C76_Xf Y U m i : (m < M)%nat -> inr s axes i -> rfftn s axes (ctv_x s dsh axes M Cd D S G wtv rho Y U m) i = ctv_xf s dsh axes M Cd D S G wtv rho Y U m i.
Proof. apply ctv_inv; try assumption; [apply (TvdProofs.Hs s axes H2)|exact Hw2]. Qed.
(** The weights are non-negative. *)
Hypothesis Hl : 0 <= lmbda.
Hypothesis Hmu : 0 <= mu.
Hypothesis Hwl : forall k, (k < n)%nat -> 0 <= wl1 k.
Notation problem := (ctv_problem s dsh axes M Cd D S NS bases wl1 lmbda mu).
Notation VTV := (vector_tv s axes M NS bases wtv).
Notation NTV := (norm_tv s axes M NS bases wtv).
Notation Vit := (vector_iterate s dsh axes M Cd D S G wtv NS bases lmbda mu rho rlx wl1).
Notation Sit := (scalar_iterate s dsh axes M Cd D S G wtv NS bases lmbda mu rho rlx wl1).
Let HP := PP s axes H2.
Lemma vQ : (K * M * (NS * P) = K * n)%nat. Proof. ring. Qed.
Lemma sQ : (K * n * 1 = K * n)%nat. Proof. ring. Qed.
Lemma vgrad ax u i : (i < K * n)%nat -> vector_grad s axes M NS mu rho ax u i = tvl2_ystep (K * M) (NS * P) mu rho (fun _ => 1) ax u i.
Proof. intros _. unfold vector_grad, tvl2_ystep. rewrite Rmult_1_r. reflexivity. Qed.
Lemma sgrad ax u i : (i < K * n)%nat -> scalar_grad s axes M NS mu rho ax u i = tvl2_ystep (K * n) 1 mu rho (fun _ => 1) ax u i.
Proof.
  intros _. unfold scalar_grad, tvl2_ystep. rewrite Rmult_1_r, Nat.mod_1_r, Nat.div_1_r.
  replace (fun r : nat => ax (r * 1 + 0)%nat + u (r * 1 + 0)%nat) with (fun r : nat => ax r + u r); [reflexivity|]. extensionality r. rewrite Nat.mul_1_r, Nat.add_0_r. reflexivity.
Qed.
Lemma vtv x : VTV x = sumn (NS * P) (fun q => nrm (K * M) (col (NS * P) (KT s axes M wtv NS bases x) q)).
Proof.
  rewrite (sumn_flat P NS) by exact HP. unfold vector_tv. apply sumn_ext. intros t Ht. rewrite <- (sum_place s axes (TvdProofs.Hs s axes H2)). apply sumn_ext. intros k Hk.
  unfold nrm. f_equal. unfold nrm2, dot. rewrite (sumn_flat M K) by exact HM. apply sumn_ext. intros j Hj. apply sumn_ext. intros m Hm. unfold col.
  replace ((j * M + m) * (NS * P) + (t * P + k))%nat with (((j * M + m) * NS + t) * P + k)%nat by ring. rewrite (KT_at s axes M Cd wtv NS bases H2 HM HC HN) by (assumption || lia).
  apply Nat.ltb_lt in Hj. rewrite Hj. unfold wgrad. ring.
Qed.
Lemma ntv x : NTV x = sumn 1 (fun q => nrm (K * n) (col 1 (KT s axes M wtv NS bases x) q)).
Proof.
  cbn [sumn]. rewrite Rplus_0_l. unfold norm_tv, nrm. f_equal. unfold nrm2, dot, col.
  rewrite (sumn_ext (K * n) _ (fun i => KT s axes M wtv NS bases x i * KT s axes M wtv NS bases x i)) by (intros i _; rewrite Nat.mul_1_r, Nat.add_0_r; reflexivity).
  rewrite (flat3 s axes M NS H2 HM HN). symmetry.
  rewrite (sumn_ext K _ (fun j => sumn NS (fun t => sumn M (fun m => sumn P (fun k =>
     KT s axes M wtv NS bases x (((j * M + m) * NS + t) * P + k)%nat * KT s axes M wtv NS bases x (((j * M + m) * NS + t) * P + k)%nat))))) by (intros j _; apply sumn_swap).
  rewrite sumn_swap. apply sumn_ext. intros t Ht. rewrite sumn_swap. apply sumn_ext. intros m Hm. apply sumn_ext. intros j Hj. unfold sqn. rewrite <- (sum_place s axes (TvdProofs.Hs s axes H2)).
  apply sumn_ext. intros k Hk. rewrite (KT_at s axes M Cd wtv NS bases H2 HM HC HN) by (assumption || lia). apply Nat.ltb_lt in Hj. rewrite Hj. reflexivity.
Qed.

Section either.
Variables (R1 Q : nat) (HQ : (R1 * Q = K * n)%nat) (grad : vec -> vec -> vec) (tv : vec -> R).
Hypothesis Hgrad : forall ax u i, (i < K * n)%nat -> grad ax u i = tvl2_ystep R1 Q mu rho (fun _ => 1) ax u i.
Hypothesis Htv : forall x, tv x = sumn Q (fun q => nrm R1 (col Q (KT s axes M wtv NS bases x) q)).
Notation it := (iterate A eq_B (fun _ => 0) rlx (ctv_xstep s dsh axes M Cd D S G wtv NS bases rho) (ctv_ystep s axes M NS grad lmbda rho wl1)).
Lemma prob' x : split_obj (NS * Cd * P) (HS s dsh axes M Cd D NS bases) (svc s axes Cd S bases) (KT s axes M wtv NS bases) (fun _ => 0) (gg s axes M NS R1 Q lmbda mu wl1) x = problem tv x.
Proof. apply prob; assumption. Qed.
Lemma itK k st : it k st = iterate (KT s axes M wtv NS bases) eq_B (fun _ => 0) rlx (ctv_xstep s dsh axes M Cd D S G wtv NS bases rho) (ctv_ystep s axes M NS grad lmbda rho wl1) k st.
Proof. replace A with (KT s axes M wtv NS bases); [reflexivity|]. extensionality x. symmetry. apply (A_KT s axes M Cd G wtv NS bases ND Hne H2 HG HM HC HN). Qed.
Lemma stationary st : rlx <> 0 -> let st' := it 1 st in
  (forall i, (i < (K + 1) * n)%nat -> sY st' i = sY st i) -> (forall i, (i < (K + 1) * n)%nat -> sU st' i = sU st i) -> argmin (fun _ => True) (problem tv) (sX st').
Proof.
  intros Hx. rewrite itK. intros st' E1 E2.
  destruct (split_stationary _ _ _ _ _ _ _ _ rlx rho _ _ (HS_linear s dsh axes M Cd D NS bases) (KT_linear s axes M wtv NS bases)
    (gg_convex s axes M NS R1 Q lmbda mu wl1 Hl Hmu Hwl) (Lgg_nn s axes M NS Q lmbda mu wl1 Hl Hmu Hwl) (gg_lip s axes M NS R1 Q HQ lmbda mu wl1 Hl Hmu Hwl) Hr
    (Xmin s dsh axes M Cd D S G wtv NS bases ND Hne H2 HG HM HC HN Hw2 R1 Q lmbda mu rho wl1 Hr) (Ymin s axes M NS bases R1 Q HQ lmbda mu rho wl1 Hl Hmu Hr Hwl grad Hgrad) st Hx E1 E2) as [Q0 _].
  revert Q0. apply argmin_ext. apply prob'.
Qed.
Lemma limit st : 0 < rlx < 2 -> (exists p, argmin (fun _ => True) (problem tv) p) ->
  exists p, argmin (fun _ => True) (problem tv) p /\ (forall i, (i < n)%nat -> Un_cv (fun k => sX (it k st) i) (p i)) /\ (forall i, (i < n)%nat -> Un_cv (fun k => sY (it k st) (K * n + i)%nat) (p i)).
Proof.
  intros Hx [p0 Hp0].
  destruct (split_limit n _ _ _ _ _ _ _ _ rlx rho _ _ (HS_linear s dsh axes M Cd D NS bases) (HS_local s dsh axes M Cd D NS bases ND H2 HM HC HN)
    (KT_linear s axes M wtv NS bases) (fun x y E i _ => KT_local s axes M Cd G wtv NS bases ND H2 HG HM HC HN x y E i)
    (gg_convex s axes M NS R1 Q lmbda mu wl1 Hl Hmu Hwl) (gg_nonneg s axes M NS R1 Q lmbda mu wl1 Hl Hmu Hwl) (Lgg_nn s axes M NS Q lmbda mu wl1 Hl Hmu Hwl) (gg_lip s axes M NS R1 Q HQ lmbda mu wl1 Hl Hmu Hwl) Hr
    (Xmin s dsh axes M Cd D S G wtv NS bases ND Hne H2 HG HM HC HN Hw2 R1 Q lmbda mu rho wl1 Hr) (Ymin s axes M NS bases R1 Q HQ lmbda mu rho wl1 Hl Hmu Hr Hwl grad Hgrad)
    1 ltac:(lra) (inj s dsh axes M Cd D wtv NS bases ND H2 HM HC HN) st Hx) as (p & Q0 & Cx & Cy).
  - exists p0. revert Hp0. apply argmin_ext. intros x. symmetry. apply prob'.
  - exists p. split; [revert Q0; apply argmin_ext; apply prob'|]. split.
    + intros i Hi. specialize (Cx i Hi). revert Cx. apply AdmmConv.cv_ext. intros k. rewrite itK. reflexivity.
    + intros i Hi. specialize (Cy (K * n + i)%nat ltac:(lia)). rewrite Rminus_0_r, (KT_tail s axes M Cd wtv NS bases ND H2 HM HC HN) in Cy by exact Hi. revert Cy. apply AdmmConv.cv_ext. intros k. rewrite itK. reflexivity.
Qed.
Lemma exists_min : 0 < lmbda -> 0 < mu -> (forall k, (k < n)%nat -> 0 < wl1 k) -> exists p, argmin (fun _ => True) (problem tv) p.
Proof.
  intros Hl0 Hm0 Hw0. destruct (gg_coercive s axes M NS R1 Q HQ lmbda mu wl1 Hl0 Hm0 Hw0) as (a & Ha & Ea).
  destruct (split_exists n (NS * Cd * P) ((K + 1) * n) _ (svc s axes Cd S bases) _ (fun _ => 0) _ _ (HS_linear s dsh axes M Cd D NS bases) (HS_local s dsh axes M Cd D NS bases ND H2 HM HC HN)
    (KT_linear s axes M wtv NS bases) (fun x y E i _ => KT_local s axes M Cd G wtv NS bases ND H2 HG HM HC HN x y E i) (Lgg_nn s axes M NS Q lmbda mu wl1 Hl Hmu Hwl) (gg_lip s axes M NS R1 Q HQ lmbda mu wl1 Hl Hmu Hwl)
    1 ltac:(lra) (inj s dsh axes M Cd D wtv NS bases ND H2 HM HC HN) a 0 Ha Ea) as [p Q0].
  exists p. revert Q0. apply argmin_ext. apply prob'.
Qed.
End either.

(** ConvBPDNVectorTV solves the problem of its documentation. *)
Theorem C76_vector_stationary st : rlx <> 0 -> let st' := Vit 1 st in
  (forall i, (i < (K + 1) * n)%nat -> sY st' i = sY st i) -> (forall i, (i < (K + 1) * n)%nat -> sU st' i = sU st i) -> argmin (fun _ => True) (problem VTV) (sX st').
Proof. apply (stationary (K * M) (NS * P) vQ _ _ vgrad vtv). Qed.
Theorem C76_vector_limit st : 0 < rlx < 2 -> (exists p, argmin (fun _ => True) (problem VTV) p) ->
  exists p, argmin (fun _ => True) (problem VTV) p /\ (forall i, (i < n)%nat -> Un_cv (fun k => sX (Vit k st) i) (p i)) /\ (forall i, (i < n)%nat -> Un_cv (fun k => sY (Vit k st) (K * n + i)%nat) (p i)).
Proof. apply (limit (K * M) (NS * P) vQ _ _ vgrad vtv). Qed.
(** ConvBPDNScalarTV solves the problem with the norm of the whole array of differences. *)
Theorem C76_scalar_stationary st : rlx <> 0 -> let st' := Sit 1 st in
  (forall i, (i < (K + 1) * n)%nat -> sY st' i = sY st i) -> (forall i, (i < (K + 1) * n)%nat -> sU st' i = sU st i) -> argmin (fun _ => True) (problem NTV) (sX st').
Proof. apply (stationary (K * n) 1 sQ _ _ sgrad ntv). Qed.
Theorem C76_scalar_limit st : 0 < rlx < 2 -> (exists p, argmin (fun _ => True) (problem NTV) p) ->
  exists p, argmin (fun _ => True) (problem NTV) p /\ (forall i, (i < n)%nat -> Un_cv (fun k => sX (Sit k st) i) (p i)) /\ (forall i, (i < n)%nat -> Un_cv (fun k => sY (Sit k st) (K * n + i)%nat) (p i)).
Proof. apply (limit (K * n) 1 sQ _ _ sgrad ntv). Qed.
(** With positive weights there are minimisers. *)
Theorem C76_exists : 0 < lmbda -> 0 < mu -> (forall k, (k < n)%nat -> 0 < wl1 k) ->
  (exists p, argmin (fun _ => True) (problem VTV) p) /\ exists p, argmin (fun _ => True) (problem NTV) p.
Proof.
  intros H1 H3 H4. split; [apply (exists_min (K * M) (NS * P) vQ _ vtv)|apply (exists_min (K * n) 1 sQ _ ntv)]; assumption.
Qed.
End c76.
Print Assumptions C76_A.
Print Assumptions C76_Xf.
Print Assumptions C76_vector_stationary.
Print Assumptions C76_vector_limit.
Print Assumptions C76_scalar_stationary.
Print Assumptions C76_scalar_limit.
Print Assumptions C76_exists.

(** ConvBPDNScalarTV does not solve the problem of its documentation: a signal of length two, one filter equal to the unit impulse.
    Whatever the initial state and parameters, the limit is not a minimiser. *)
Definition ex_s : nat -> nat := fun _ => 2%nat.
Definition ex_d : nat -> nat := fun _ => 1%nat.
Definition ex_S : nat -> index -> R := fun _ p => if Nat.eqb (p O) 0 then 10 else 0.
Notation ex_problem tv := (ctv_problem ex_s ex_d [0%nat] 1 1 (fun _ _ _ => 1) ex_S 1 (fun _ _ => O) (fun _ => 1) 0 1 tv).
Lemma ex_fit x : fit ex_s ex_d [0%nat] 1 1 (fun _ _ _ => 1) ex_S 1 (fun _ _ => O) x = / 2 * ((x 0%nat - 10) * (x 0%nat - 10) + x 1%nat * x 1%nat).
Proof.
  unfold fit, datafit, sqn, synth, conv, ext, coef, minus, ex_s, ex_d, ex_S. cbn. unfold set_at. cbn. ring.
Qed.
Lemma ex_scalar x : scalar_tv ex_s [0%nat] 1 1 (fun _ _ => O) (fun _ => 1) x = 2 * Rabs (x 0%nat - x 1%nat).
Proof.
  unfold scalar_tv, wgrad, diff, coef, back, ex_s. cbn. unfold set_at. cbn.
  replace (0 + 1 * (x 0%nat - x 1%nat) * (1 * (x 0%nat - x 1%nat) * 1)) with (Rsqr (x 0%nat - x 1%nat)) by (unfold Rsqr; ring).
  replace (0 + 1 * (x 1%nat - x 0%nat) * (1 * (x 1%nat - x 0%nat) * 1)) with (Rsqr (x 0%nat - x 1%nat)) by (unfold Rsqr; ring). rewrite sqrt_Rsqr_abs. ring.
Qed.
Lemma ex_norm x : norm_tv ex_s [0%nat] 1 1 (fun _ _ => O) (fun _ => 1) x = sqrt 2 * Rabs (x 0%nat - x 1%nat).
Proof.
  unfold norm_tv, sqn, wgrad, diff, coef, back, ex_s. cbn. unfold set_at. cbn.
  match goal with |- sqrt ?a = _ => replace a with (2 * Rsqr (x 0%nat - x 1%nat)) by (unfold Rsqr; ring) end.
  rewrite sqrt_mult by (try lra; apply Rle_0_sqr). rewrite sqrt_Rsqr_abs. reflexivity.
Qed.
Lemma ex_problem_eq tv x : ex_problem tv x = / 2 * ((x 0%nat - 10) * (x 0%nat - 10) + x 1%nat * x 1%nat) + tv x.
Proof. unfold ctv_problem, sparsity. rewrite ex_fit. ring. Qed.
Lemma sqrt2_bounds : 1 < sqrt 2 < 3 / 2 /\ sqrt 2 * sqrt 2 = 2.
Proof.
  assert (E : sqrt 2 * sqrt 2 = 2) by (apply sqrt_def; lra). pose proof (sqrt_pos 2). split; [|exact E]. split; nra.
Qed.
Lemma ex_min : argmin (fun _ => True) (ex_problem (norm_tv ex_s [0%nat] 1 1 (fun _ _ => O) (fun _ => 1))) (fun i => if Nat.eqb i 0 then 10 - sqrt 2 else sqrt 2).
Proof.
  split; [exact I|]. intros x _. rewrite !ex_problem_eq, !ex_norm. cbn [Nat.eqb]. destruct sqrt2_bounds as [B E]. rewrite (Rabs_pos_eq (10 - sqrt 2 - sqrt 2)) by lra.
  pose proof (Rle_abs (x 0%nat - x 1%nat)) as A0. pose proof (Rmult_le_compat_l (sqrt 2) _ _ ltac:(lra) A0) as A1.
  pose proof (Rle_0_sqr (x 0%nat - 10 + sqrt 2)) as Q1. pose proof (Rle_0_sqr (x 1%nat - sqrt 2)) as Q2. unfold Rsqr in Q1, Q2. nra.
Qed.
Theorem C76_scalar_refuted G rho rlx st : gradient_filters [0%nat] = Some G -> 0 < rho -> 0 < rlx < 2 ->
  exists p, (forall i, (i < 2)%nat -> Un_cv (fun k => sX (scalar_iterate ex_s ex_d [0%nat] 1 1 (fun _ _ _ => 1) ex_S G (fun _ => 1) 1 (fun _ _ => O) 0 1 rho rlx (fun _ => 1) k st) i) (p i)) /\
    ~ argmin (fun _ => True) (ex_problem (scalar_tv ex_s [0%nat] 1 1 (fun _ _ => O) (fun _ => 1))) p.
Proof.
  intros HG Hr Hx.
  destruct (C76_scalar_limit ex_s ex_d [0%nat] 1 1 (fun _ _ _ => 1) ex_S G (fun _ => 1) 1 (fun _ _ => O) ltac:(repeat constructor; simpl; tauto) ltac:(discriminate) ltac:(intros; unfold ex_s; lia) HG
    ltac:(lia) ltac:(lia) ltac:(lia) ltac:(reflexivity) 0 1 rho rlx (fun _ => 1) Hr ltac:(lra) ltac:(lra) ltac:(intros; lra) st Hx (ex_intro _ _ ex_min)) as (p & Ap & Cx & _).
  exists p. split; [intros i Hi; apply Cx; exact Hi|]. intros [_ Bp]. destruct Ap as [_ Ap].
  set (a := p 0%nat). set (b := p 1%nat).
  (* the documented problem would give the difference 6, for which the other one decreases *)
  assert (E6 : a - b = 6).
  { specialize (Bp (fun i => if Nat.eqb i 0 then a - (a - b - 6) / 2 else b + (a - b - 6) / 2) I). rewrite !ex_problem_eq, !ex_scalar in Bp. cbn [Nat.eqb] in Bp. fold a b in Bp.
    replace (a - (a - b - 6) / 2 - (b + (a - b - 6) / 2)) with 6 in Bp by field. rewrite (Rabs_pos_eq 6) in Bp by lra. pose proof (Rle_abs (a - b)) as A0.
    set (e := a - b - 6) in *. assert (Z : e * e <= 0) by (replace a with (b + 6 + e) in * by (unfold e; ring); nra). assert (e = 0) by nra. unfold e in *. lra. }
  specialize (Ap (fun i => if Nat.eqb i 0 then a + / 2 else b - / 2) I). rewrite !ex_problem_eq, !ex_norm in Ap. cbn [Nat.eqb] in Ap. fold a b in Ap.
  replace (a + / 2 - (b - / 2)) with 7 in Ap by lra. rewrite E6 in Ap. rewrite !Rabs_pos_eq in Ap by lra. destruct sqrt2_bounds as [B _]. replace a with (b + 6) in Ap by lra. lra.
Qed.
Print Assumptions C76_scalar_refuted.

(** The reported l1 term with a weight for each filter is the weighted norm for a single filter only. *)
Theorem C76_reported_l1 M : (0 < M)%nat -> ((forall W a, reported_l1 M W a = sumn M (fun m => W m * a m)) <-> M = 1%nat).
Proof.
  intros HM. split.
  - intros H. destruct (Nat.eq_dec M 1) as [E|N]; [exact E|exfalso].
    specialize (H (fun m => if Nat.eqb m 0 then 1 else 0) (fun m => if Nat.eqb m 1 then 1 else 0)). unfold reported_l1 in H.
    rewrite (sumn_ext M _ (fun m => if Nat.eqb m 1 then 1 else 0)) in H.
    + rewrite (sumn_delta M 1 (fun _ => 1)) in H by lia. rewrite sumn_0 in H; [lra|]. intros m _. destruct m as [|[|m]]; cbn [Nat.eqb]; ring.
    + intros m _. rewrite sumn_scal_r. rewrite (sumn_delta M 0 (fun _ => 1)) by lia. ring.
  - intros -> W a. unfold reported_l1. cbn [sumn]. ring.
Qed.
Print Assumptions C76_reported_l1.

(** Two colour images of 3 by 4 pixels, a dictionary of two filters with three channels: all the hypotheses hold. *)
Example C76_instance S st : exists G, gradient_filters [0; 1]%nat = Some G /\
  let sh := fun ax => match ax with O => 3 | 1 => 4 | _ => 2 end%nat in let bs := fun t ax => if Nat.eqb ax 2 then t else O in
  exists p, argmin (fun _ => True) (ctv_problem sh (fun _ => 2%nat) [0; 1]%nat 2 3 (fun c m _ => INR (c + m)) S 2 bs (fun _ => 1) 1 1 (vector_tv sh [0; 1]%nat 2 2 bs (fun m => INR m))) p /\
    forall i, (i < 2 * 2 * 12)%nat -> Un_cv (fun k => sX (vector_iterate sh (fun _ => 2%nat) [0; 1]%nat 2 3 (fun c m _ => INR (c + m)) S G (fun m => INR m) 2 bs 1 1 2 1 (fun _ => 1) k st) i) (p i).
Proof.
  eexists. split; [reflexivity|]. intros sh bs.
  assert (H2 : forall ax, In ax [0; 1]%nat -> (2 <= sh ax)%nat) by (intros ax [<-|[<-|[]]]; unfold sh; lia).
  assert (ND : NoDup [0; 1]%nat) by (repeat constructor; simpl; intuition lia).
  destruct (C76_exists sh (fun _ => 2%nat) [0; 1]%nat 2 3 (fun c m _ => INR (c + m)) S _ (fun m => INR m) 2 bs ND H2 eq_refl ltac:(lia) ltac:(lia) ltac:(lia) ltac:(discriminate) 1 1 (fun _ => 1) ltac:(lra) ltac:(lra) ltac:(intros; lra)) as [X _]; try (intros; lra).
  destruct (C76_vector_limit sh (fun _ => 2%nat) [0; 1]%nat 2 3 (fun c m _ => INR (c + m)) S _ (fun m => INR m) 2 bs ND ltac:(discriminate) H2 eq_refl ltac:(lia) ltac:(lia) ltac:(lia) ltac:(discriminate)
    1 1 2 1 (fun _ => 1) ltac:(lra) ltac:(lra) ltac:(lra) ltac:(intros; lra) st ltac:(lra) X) as (p & A0 & Cx & _).
  exists p. split; [exact A0|]. exact Cx.
Qed.
