(** Total variation deconvolution: the operators and steps in the spatial domain. *)
Require Import List Arith ZArith Reals Bool Lia Lra FunctionalExtensionality.
Require Import Verif.RVec Verif.Cplx Verif.FftModel Verif.FftProofs Verif.FftInv Verif.CscModel Verif.CscSpec Verif.CscProofs Verif.CscIterModel Verif.CscIterProofs.
Require Import Verif.AdmmSpec Verif.AdmmModel Verif.AdmmProofs Verif.AdmmProps Verif.StepsSpec Verif.StepsProofs Verif.ProxModel Verif.ProxSpec Verif.ProxProofs Verif.ProxProps.
Require Import Verif.LimitProofs Verif.SplitConv Verif.TvdModel Verif.TvdSpec Verif.TvdFourier.
Import ListNotations.
Local Open Scope R_scope.
Local Notation vec := (nat -> R).

(** ** The filters *)
Lemma gf_some axes G : gradient_filters axes = Some G -> NoDup axes -> forall j, (j < length axes)%nat -> In j axes /\ G j = grad_filter axes j.
Proof.
  unfold gradient_filters. intros HG ND j Hj. destruct (forallb (fun k => Nat.ltb k (length axes)) axes) eqn:E; [|discriminate]. inversion HG. subst G.
  assert (I : In j axes).
  { assert (Q : incl (seq 0 (length axes)) axes).
    { apply NoDup_length_incl; [exact ND|rewrite seq_length; lia|]. intros a Ha. rewrite forallb_forall in E. apply E, Nat.ltb_lt in Ha. apply in_seq. lia. }
    apply Q. apply in_seq. lia. }
  split; [exact I|]. assert (M : mem j axes = true) by (apply existsb_exists; exists j; split; [exact I|apply Nat.eqb_refl]). rewrite M. reflexivity.
Qed.

Section tvd.
Variables (s ash : nat -> nat) (axes : list nat) (A S : index -> R) (G : nat -> index -> R) (NS : nat) (bases : nat -> index).
Hypothesis ND : NoDup axes.
Hypothesis Hne : axes <> [].
Hypothesis H2 : forall ax, In ax axes -> (2 <= s ax)%nat.
Hypothesis HG : gradient_filters axes = Some G.
Notation K := (length axes).
Notation P := (size s axes).
Lemma Hs : forall ax, In ax axes -> (0 < s ax)%nat. Proof. intros ax Ha. specialize (H2 ax Ha). lia. Qed.
Lemma PP : (0 < P)%nat. Proof. apply size_pos. exact Hs. Qed.

Definition Fil (j : nat) : index -> R := if Nat.ltb j K then padR (fun _ => 2%nat) axes (G j) else padR ash axes A.
Lemma Fil_grad j x p : (j < K)%nat -> inr s axes p -> conv s axes (Fil j) x p = diff s j x p.
Proof.
  intros Hj Hp. destruct (gf_some axes G HG ND j Hj) as [I E]. unfold Fil. apply Nat.ltb_lt in Hj. rewrite Hj, E, conv_rsum. apply grad_conv; assumption.
Qed.
Lemma Fil_A : Fil K = padR ash axes A. Proof. unfold Fil. rewrite Nat.ltb_irrefl. reflexivity. Qed.
Lemma Fil_hat j i : rfftn s axes (Fil j) i = GAf s ash axes A G j i.
Proof. unfold Fil, GAf. destruct (Nat.ltb j K); reflexivity. Qed.

(** The denominators. *)
Lemma den_pos om t i : (forall j, (j < K + 1)%nat -> 0 < om j) -> dc_gain s ash axes A bases t <> 0 ->
  inr s axes i -> (forall ax, ~ In ax axes -> i ax = bases t ax) -> 0 < den s axes (K + 1) Fil om i.
Proof.
  intros Hom Hdc Hi Ho. unfold den.
  assert (Nn : forall j, (j < K + 1)%nat -> 0 <= om j * cabs2 (rfftn s axes (Fil j) i)) by (intros j Hj; apply Rmult_le_pos; [left; apply Hom; exact Hj|apply cabs2_nonneg]).
  destruct (existsb (fun k => negb (Nat.eqb (i k) 0)) axes) eqn:E.
  - apply existsb_exists in E. destruct E as (k & Hk & Ek). apply negb_true_iff, Nat.eqb_neq in Ek.
    assert (Kk : (k < K)%nat).
    { unfold gradient_filters in HG. destruct (forallb (fun k => Nat.ltb k K) axes) eqn:F; [|discriminate]. rewrite forallb_forall in F. apply Nat.ltb_lt, F. exact Hk. }
    eapply Rlt_le_trans; [|apply (sumn_ge_term (K + 1) _ k Nn); lia]. apply Rmult_lt_0_compat; [apply Hom; lia|].
    destruct (gf_some axes G HG ND k Kk) as [_ Eg]. unfold Fil. apply Nat.ltb_lt in Kk. rewrite Kk, Eg. apply grad_hat_ne; try assumption; [exact Hs|]. specialize (Hi k Hk). lia.
  - assert (Z : forall ax, In ax axes -> i ax = O).
    { intros ax Ha. destruct (Nat.eq_dec (i ax) 0) as [e|ne]; [exact e|exfalso]. assert (existsb (fun k => negb (Nat.eqb (i k) 0)) axes = true); [|congruence].
      apply existsb_exists. exists ax. split; [exact Ha|]. apply negb_true_iff, Nat.eqb_neq. exact ne. }
    eapply Rlt_le_trans; [|apply (sumn_ge_term (K + 1) _ K Nn); lia]. apply Rmult_lt_0_compat; [apply Hom; lia|]. rewrite Fil_A.
    rewrite (rfft_dc s axes ND Hne Hs) by exact Z.
    assert (D : rsum s axes (padR ash axes A) i = dc_gain s ash axes A bases t).
    { unfold dc_gain. transitivity (rsum s axes (padR ash axes A) (bases t)); [apply rsum_base; exact Ho|symmetry; exact (total_rsum s axes (ext ash axes A) (bases t))]. }
    rewrite D. unfold cabs2, ofR, re, im. cbn [fst snd]. pose proof (Rsqr_pos_lt _ Hdc) as Q. unfold Rsqr in Q. lra.
Qed.
Lemma den_dc om t i : dc_gain s ash axes A bases t = 0 -> (forall ax, In ax axes -> i ax = O) -> (forall ax, ~ In ax axes -> i ax = bases t ax) -> den s axes (K + 1) Fil om i = 0.
Proof.
  intros Hdc Hz Ho. unfold den. apply sumn_0. intros j Hj. destruct (Nat.eq_dec j K) as [->|N].
  - rewrite Fil_A, (rfft_dc s axes ND Hne Hs) by exact Hz.
    assert (D : rsum s axes (padR ash axes A) i = dc_gain s ash axes A bases t).
    { unfold dc_gain. transitivity (rsum s axes (padR ash axes A) (bases t)); [apply rsum_base; exact Ho|symmetry; exact (total_rsum s axes (ext ash axes A) (bases t))]. }
    rewrite D, Hdc. unfold cabs2, ofR, re, im. cbn [fst snd]. ring.
  - assert (Kj : (j < K)%nat) by lia. destruct (gf_some axes G HG ND j Kj) as [I Eg]. unfold Fil. apply Nat.ltb_lt in Kj. rewrite Kj, Eg.
    rewrite grad_hat_dc; try assumption; [|exact Hs|apply Hz; exact I]. unfold cabs2, c0, re, im. cbn [fst snd]. ring.
Qed.

(** The x steps divide by these denominators. *)
Definition om2 (rho : R) (j : nat) : R := if Nat.ltb j K then rho else 1.
Lemma den_one j i : cmul (conj (GAf s ash axes A G j i)) (GAf s ash axes A G j i) = ofR (cabs2 (rfftn s axes (Fil j) i)).
Proof. rewrite Fil_hat. generalize (GAf s ash axes A G j i). intros [a b]. unfold cabs2, cmul, conj, ofR, re, im. cbn [fst snd]. f_equal; ring. Qed.
Lemma GHG_sum i : TvdModel.GHGf s axes G i = sumn K (fun j => cabs2 (rfftn s axes (Fil j) i)).
Proof.
  unfold TvdModel.GHGf. rewrite re_csumn. apply sumn_ext. intros j Hj. pose proof (den_one j i) as E. unfold GAf in E. apply Nat.ltb_lt in Hj. rewrite Hj in E.
  rewrite E. reflexivity.
Qed.
Lemma AHA_sum i : AHAf s ash axes A i = ofR (cabs2 (rfftn s axes (Fil K) i)).
Proof. pose proof (den_one K i) as E. unfold GAf in E. rewrite Nat.ltb_irrefl in E. exact E. Qed.
Lemma tvl2_den rho i : cadd (AHAf s ash axes A i) (ofR (rho * TvdModel.GHGf s axes G i)) = ofR (den s axes (K + 1) Fil (om2 rho) i).
Proof.
  unfold den. rewrite Nat.add_1_r. cbn [sumn]. rewrite AHA_sum, GHG_sum. unfold om2 at 2. rewrite Nat.ltb_irrefl.
  rewrite (sumn_ext K (fun q => om2 rho q * _) (fun q => rho * cabs2 (rfftn s axes (Fil q) i))).
  - rewrite sumn_scal. ceq; ring.
  - intros q Hq. unfold om2. apply Nat.ltb_lt in Hq. rewrite Hq. reflexivity.
Qed.
Definition tgt2 (Y U : nat -> index -> R) (j : nat) : index -> R := if Nat.ltb j K then fun p => Y j p - U j p else S.
Lemma tvl2_quot rho Y U i : tvl2_xf s ash axes A S G rho Y U i = cdiv (num s axes (K + 1) Fil (tgt2 Y U) (om2 rho) i) (ofR (den s axes (K + 1) Fil (om2 rho) i)).
Proof.
  unfold tvl2_xf. cbv zeta. rewrite tvl2_den. f_equal. unfold num. rewrite Nat.add_1_r, !csumn_S. unfold om2 at 2, tgt2 at 2. rewrite Nat.ltb_irrefl, Fil_hat. unfold GAf at 1. rewrite Nat.ltb_irrefl.
  rewrite (csumn_ext K (fun q => cmul (ofR (om2 rho q)) _) (fun q => cmul (ofR rho) (cmul (conj (Gf s axes G q i)) (rfftn s axes (fun p => Y q p - U q p) i)))).
  - rewrite csumn_scal. unfold AHSf, Sf. change (ofR 1) with c1. ring.
  - intros q Hq. unfold om2, tgt2. rewrite Fil_hat. unfold GAf. apply Nat.ltb_lt in Hq. rewrite Hq. reflexivity.
Qed.
Definition tgt1 (Y U : nat -> index -> R) (j : nat) : index -> R := if Nat.ltb j K then fun p => Y j p - U j p else fun p => Y j p - U j p - - S p.
Lemma tvl1_quot Y U i : tvl1_xf s ash axes A S G Y U i = cdiv (num s axes (K + 1) Fil (tgt1 Y U) (fun _ => 1) i) (ofR (den s axes (K + 1) Fil (fun _ => 1) i)).
Proof.
  unfold tvl1_xf. cbv zeta. f_equal.
  - unfold num. rewrite Nat.add_1_r, !csumn_S. unfold tgt1 at 2. rewrite Nat.ltb_irrefl, Fil_hat.
    assert (Es : rfftn s axes (fun p => Y K p - U K p - - S p) i = cadd (rfftn s axes (fun p => Y K p - U K p) i) (rfftn s axes S i)).
    { destruct (axes_snoc axes Hne) as (r & l & E). rewrite E. rewrite rfftn_sub.
      assert (En : rfftn s (r ++ [l]) (fun p => - S p) i = csub c0 (rfftn s (r ++ [l]) S i)).
      { rewrite !rfftn_fftn. rewrite <- (fftn_zero s (r ++ [l]) i), <- fftn_sub. apply (f_equal (fun g => fftn s (r ++ [l]) g i)). extensionality p. ceq; ring. }
      rewrite En. ring. }
    rewrite Es. unfold GAf at 2 3. rewrite Nat.ltb_irrefl.
    rewrite (csumn_ext K (fun q => cmul (ofR 1) _) (fun q => cmul (conj (GAf s ash axes A G q i)) (rfftn s axes (fun p => Y q p - U q p) i))).
    + unfold AHSf, Sf. change (ofR 1) with c1. ring.
    + intros q Hq. unfold tgt1. rewrite Fil_hat. apply Nat.ltb_lt in Hq. rewrite Hq. change (ofR 1) with c1. ring.
  - pose proof (tvl2_den 1 i) as E. rewrite Rmult_1_l in E. rewrite E. f_equal. unfold den. apply sumn_ext. intros q _. unfold om2. destruct (Nat.ltb q K); ring.
Qed.

(** ** The vectors *)
Hypothesis HN : (0 < NS)%nat.
Definition KA (Rn : nat) (x : vec) : vec := fun r => if Nat.ltb r (Rn * NS * P) then
  conv s axes (Fil (r / P / NS)) (slice s axes x ((r / P) mod NS)) (place s axes (bases ((r / P) mod NS)) (r mod P)) else 0.
Definition HA (x : vec) : vec := fun r => if Nat.ltb r (NS * P) then conv s axes (padR ash axes A) (slice s axes x (r / P)) (place s axes (bases (r / P)) (r mod P)) else 0.
Definition sv : vec := at_flat s axes NS bases (fun _ => S).
Lemma pl t k : (k < P)%nat -> on_slice s axes (bases t) (place s axes (bases t) k).
Proof. intros Hk. apply place_slice; [exact ND|exact Hs|exact Hk]. Qed.
Lemma pl_in t k : (k < P)%nat -> inr s axes (place s axes (bases t) k). Proof. intros Hk ax Ha. apply (pl t k Hk). exact Ha. Qed.
Lemma A_tvl2 x : tvl2_cnst_A s axes G NS bases x = KA K x.
Proof.
  extensionality r. unfold tvl2_cnst_A, KA. destruct (Nat.ltb_spec r (K * NS * P)) as [Hr|]; [|reflexivity]. pose proof PP.
  unfold at_flat, tvl2_A. assert (Q : (r / P / NS < K)%nat) by (apply Nat.div_lt_upper_bound; [lia|]; apply Nat.div_lt_upper_bound; nia).
  unfold Fil. apply Nat.ltb_lt in Q. rewrite Q. apply conv_fft; try assumption; [exact Hs|]. apply pl_in. apply Nat.mod_upper_bound. lia.
Qed.
Lemma A_tvl1 x : tvl1_cnst_A s ash axes A G NS bases x = KA (K + 1) x.
Proof.
  extensionality r. unfold tvl1_cnst_A, KA. destruct (Nat.ltb_spec r ((K + 1) * NS * P)) as [Hr|]; [|reflexivity]. pose proof PP.
  unfold at_flat, tvl1_A. rewrite <- (conv_fft s axes ND Hne Hs) by (apply pl_in; apply Nat.mod_upper_bound; lia).
  apply (f_equal (fun f => irfftn s axes f _)). extensionality i. rewrite Fil_hat. reflexivity.
Qed.
Lemma conv_lin F a u b v p : conv s axes F (fun q => a * u q + b * v q) p = a * conv s axes F u p + b * conv s axes F v p.
Proof. unfold conv. rewrite <- total_lin. f_equal. extensionality k. ring. Qed.
Lemma conv_slice F t u v p : (forall q, on_slice s axes (bases t) q -> u q = v q) -> on_slice s axes (bases t) p -> conv s axes F u p = conv s axes F v p.
Proof.
  intros E Hp. unfold conv. f_equal. extensionality k. f_equal. apply E. apply (minus_slice s axes (bases t) Hs). exact Hp.
Qed.
Lemma slice_local x y t p : (t < NS)%nat -> (forall i, (i < NS * P)%nat -> x i = y i) -> on_slice s axes (bases t) p -> slice s axes x t p = slice s axes y t p.
Proof. intros Ht E Hp. unfold slice. apply E. pose proof (rank_lt s axes p (proj1 Hp)). nia. Qed.
Lemma KA_linear Rn : linear_map (KA Rn).
Proof.
  intros a x b y r. unfold KA. destruct (Nat.ltb r (Rn * NS * P)); [|ring]. rewrite <- conv_lin. reflexivity.
Qed.
Lemma KA_local Rn : local_map (NS * P) (KA Rn).
Proof.
  intros x y E r. unfold KA. destruct (Nat.ltb r (Rn * NS * P)); [|reflexivity]. pose proof PP. assert (Q : ((r / P) mod NS < NS)%nat) by (apply Nat.mod_upper_bound; lia).
  apply (conv_slice _ ((r / P) mod NS)); [|apply pl; apply Nat.mod_upper_bound; lia]. intros q Hq. apply slice_local; assumption.
Qed.
Lemma HA_linear : linear_map HA.
Proof. intros a x b y r. unfold HA. destruct (Nat.ltb r (NS * P)); [|ring]. rewrite <- conv_lin. reflexivity. Qed.
Lemma HA_local : local_map (NS * P) HA.
Proof.
  intros x y E r. unfold HA. destruct (Nat.ltb_spec r (NS * P)) as [Hr|]; [|reflexivity]. pose proof PP. assert (Q : (r / P < NS)%nat) by (apply Nat.div_lt_upper_bound; nia).
  apply (conv_slice _ (r / P)); [|apply pl; apply Nat.mod_upper_bound; lia]. intros q Hq. apply slice_local; assumption.
Qed.

(** Sums over vectors as sums over slices. *)
Lemma at_slice x t k : (k < P)%nat -> slice s axes x t (place s axes (bases (t mod NS)) k) = x (t * P + k)%nat.
Proof. intros Hk. unfold slice. rewrite rank_place; [reflexivity|exact ND|exact Hs|exact Hk]. Qed.
Lemma KA_nrm2 Rn x (z : vec) : nrm2 (Rn * NS * P) (fun r => KA Rn x r - z r) =
  sumn NS (fun t => sumn Rn (fun j => sqn s axes (fun p => conv s axes (Fil j) (slice s axes x t) p - comps s axes NS z t j p) (bases t))).
Proof.
  pose proof PP as HP. unfold nrm2, dot. rewrite sumn_flat by exact HP. rewrite sumn_flat by exact HN. rewrite sumn_swap. apply sumn_ext. intros t Ht. apply sumn_ext. intros j Hj.
  unfold sqn. rewrite <- (sum_place s axes Hs). apply sumn_ext. intros k Hk. unfold KA.
  assert (L : Nat.ltb ((j * NS + t) * P + k) (Rn * NS * P) = true) by (apply Nat.ltb_lt; assert (j * NS + t < Rn * NS)%nat by nia; nia).
  rewrite L, (div_at P), (mod_at P) by exact Hk. rewrite (div_at NS), (mod_at NS) by exact Ht. unfold comps. pose proof (at_slice z (j * NS + t) k Hk) as E. rewrite mod_at in E by exact Ht. rewrite E. reflexivity.
Qed.
Lemma HA_nrm2 x : nrm2 (NS * P) (fun r => HA x r - sv r) = sumn NS (fun t => sqn s axes (fun p => conv s axes (padR ash axes A) (slice s axes x t) p - S p) (bases t)).
Proof.
  pose proof PP as HP. unfold nrm2, dot. rewrite sumn_flat by exact HP. apply sumn_ext. intros t Ht. unfold sqn. rewrite <- (sum_place s axes Hs). apply sumn_ext. intros k Hk. unfold HA, sv, at_flat.
  assert (L : Nat.ltb (t * P + k) (NS * P) = true) by (apply Nat.ltb_lt; nia).
  rewrite L, (div_at P), (mod_at P) by exact Hk. rewrite Nat.mod_small by exact Ht. reflexivity.
Qed.
Lemma KA_nrm2_0 Rn x : nrm2 (Rn * NS * P) (KA Rn x) = sumn NS (fun t => sumn Rn (fun j => sqn s axes (conv s axes (Fil j) (slice s axes x t)) (bases t))).
Proof.
  rewrite (nrm2_ext _ (KA Rn x) (fun r => KA Rn x r - (fun _ => 0) r)) by (intros; cbv beta; ring). rewrite KA_nrm2. apply sumn_ext. intros t _. apply sumn_ext. intros j _.
  unfold sqn. f_equal. extensionality p. unfold comps, slice. ring.
Qed.
Lemma HA_nrm2_0 x : nrm2 (NS * P) (HA x) = sumn NS (fun t => sqn s axes (conv s axes (Fil K) (slice s axes x t)) (bases t)).
Proof.
  pose proof PP as HP. unfold nrm2, dot. rewrite sumn_flat by exact HP. apply sumn_ext. intros t Ht. unfold sqn. rewrite <- (sum_place s axes Hs). apply sumn_ext. intros k Hk. unfold HA.
  assert (L : Nat.ltb (t * P + k) (NS * P) = true) by (apply Nat.ltb_lt; nia). rewrite Fil_A.
  rewrite L, (div_at P), (mod_at P) by exact Hk. reflexivity.
Qed.
Lemma x_nrm2 x : nrm2 (NS * P) x = sumn NS (fun t => sqn s axes (slice s axes x t) (bases t)).
Proof.
  pose proof PP as HP. unfold nrm2, dot. rewrite sumn_flat by exact HP. apply sumn_ext. intros t Ht. unfold sqn. rewrite <- (sum_place s axes Hs). apply sumn_ext. intros k Hk.
  pose proof (at_slice x t k Hk) as E. rewrite Nat.mod_small in E by exact Ht. rewrite E. reflexivity.
Qed.

(** ** The x steps are minimisers *)
Hypothesis Hdc : forall t, (t < NS)%nat -> dc_gain s ash axes A bases t <> 0.
Lemma fobjq_slice N F z om t u v : (forall q, on_slice s axes (bases t) q -> u q = v q) -> fobjq s axes N F z om u (bases t) = fobjq s axes N F z om v (bases t).
Proof.
  intros E. unfold fobjq. apply sumn_ext. intros q _. f_equal. unfold sqn. rewrite <- !(sum_place s axes Hs). apply sumn_ext. intros k Hk.
  rewrite (conv_slice (F q) t u v) by (try exact E; apply pl; exact Hk). reflexivity.
Qed.
Lemma flat_slice (f : nat -> index -> R) t p : (t < NS)%nat -> on_slice s axes (bases t) p -> slice s axes (at_flat s axes NS bases f) t p = f t p.
Proof.
  intros Ht Hp. unfold slice, at_flat. pose proof (rank_lt s axes p (proj1 Hp)) as Hr. rewrite (div_at P), (mod_at P) by exact Hr. rewrite Nat.mod_small by exact Ht. rewrite place_rank; [reflexivity|exact ND|exact Hp].
Qed.
Lemma obj2 rho x (y u : vec) : lsq (NS * P) HA sv x + rho / 2 * nrm2 (K * NS * P) (fun r => KA K x r - (y r - u r)) =
  / 2 * sumn NS (fun t => fobjq s axes (K + 1) Fil (tgt2 (comps s axes NS y t) (comps s axes NS u t)) (om2 rho) (slice s axes x t) (bases t)).
Proof.
  unfold lsq. rewrite HA_nrm2. rewrite (KA_nrm2 K x (fun r => y r - u r)). unfold Rdiv. rewrite (Rmult_comm rho), Rmult_assoc, <- Rmult_plus_distr_l. f_equal. rewrite <- sumn_scal, <- sumn_plus. apply sumn_ext. intros t _.
  unfold fobjq. rewrite Nat.add_1_r. cbn [sumn]. unfold om2 at 2, tgt2 at 2. rewrite Nat.ltb_irrefl, Fil_A. rewrite <- sumn_scal. rewrite Rplus_comm, Rmult_1_l. f_equal.
  apply sumn_ext. intros j Hj. unfold om2, tgt2. apply Nat.ltb_lt in Hj. rewrite Hj. reflexivity.
Qed.
Lemma xstep2_min rho (y u x : vec) : 0 < rho ->
  lsq (NS * P) HA sv (tvl2_xstep s ash axes A S G NS bases rho y u) + rho / 2 * nrm2 (K * NS * P) (fun r => KA K (tvl2_xstep s ash axes A S G NS bases rho y u) r - (y r - u r)) <=
  lsq (NS * P) HA sv x + rho / 2 * nrm2 (K * NS * P) (fun r => KA K x r - (y r - u r)).
Proof.
  intros Hr. rewrite !obj2. apply Rmult_le_compat_l; [lra|]. apply sumn_le. intros t Ht.
  rewrite (fobjq_slice _ _ _ _ t _ (tvl2_x s ash axes A S G rho (comps s axes NS y t) (comps s axes NS u t))) by (intros q Hq; apply flat_slice; assumption).
  assert (Po : forall j, (j < K + 1)%nat -> 0 < om2 rho j) by (intros j _; unfold om2; destruct (Nat.ltb j K); lra).
  apply (quot_min s axes ND Hne Hs); [intros j Hj; left; apply Po; exact Hj|intros i; apply tvl2_quot|].
  intros i Hi Ho. apply Rgt_not_eq. apply (den_pos _ t); try assumption. apply Hdc. exact Ht.
Qed.
Lemma c_comps t j p : (t < NS)%nat -> (j < K + 1)%nat -> on_slice s axes (bases t) p -> comps s axes NS (tvl1_c s axes S NS bases) t j p = if Nat.ltb j K then 0 else S p.
Proof.
  intros Ht Hj Hp. unfold comps, slice, tvl1_c. pose proof (rank_lt s axes p (proj1 Hp)) as Hr.
  destruct (Nat.ltb_spec j K) as [L|L].
  - assert (E : Nat.leb (K * NS * P) ((j * NS + t) * P + rank s axes p) = false) by (apply Nat.leb_gt; assert (j * NS + t < K * NS)%nat by nia; nia). rewrite E. reflexivity.
  - assert (j = K) by lia. subst j.
    assert (E1 : Nat.leb (K * NS * P) ((K * NS + t) * P + rank s axes p) = true) by (apply Nat.leb_le; nia).
    assert (E2 : Nat.ltb ((K * NS + t) * P + rank s axes p) ((K + 1) * NS * P) = true) by (apply Nat.ltb_lt; assert (K * NS + t < (K + 1) * NS)%nat by nia; nia).
    rewrite E1, E2. cbn [andb]. unfold at_flat. rewrite (mod_at P), (div_at P) by exact Hr. rewrite (mod_at NS) by exact Ht. rewrite place_rank; [reflexivity|exact ND|exact Hp].
Qed.
Lemma obj1 x (y u : vec) : nrm2 ((K + 1) * NS * P) (fun r => KA (K + 1) x r - (y r - u r + tvl1_c s axes S NS bases r)) =
  sumn NS (fun t => fobjq s axes (K + 1) Fil (tgt1 (comps s axes NS y t) (comps s axes NS u t)) (fun _ => 1) (slice s axes x t) (bases t)).
Proof.
  rewrite (KA_nrm2 (K + 1) x (fun r => y r - u r + tvl1_c s axes S NS bases r)). apply sumn_ext. intros t Ht. unfold fobjq. apply sumn_ext. intros j Hj. rewrite Rmult_1_l.
  unfold sqn. rewrite <- !(sum_place s axes Hs). apply sumn_ext. intros k Hk. pose proof (c_comps t j _ Ht Hj (pl t k Hk)) as E. unfold comps, slice in E.
  unfold comps at 1 2, slice at 2 4. rewrite E. unfold tgt1. destruct (Nat.ltb_spec j K) as [L|L].
  - unfold comps, slice. f_equal; ring.
  - unfold comps, slice. f_equal; ring.
Qed.
Lemma xstep1_min (y u x : vec) :
  nrm2 ((K + 1) * NS * P) (fun r => KA (K + 1) (tvl1_xstep s ash axes A S G NS bases y u) r - (y r - u r + tvl1_c s axes S NS bases r)) <=
  nrm2 ((K + 1) * NS * P) (fun r => KA (K + 1) x r - (y r - u r + tvl1_c s axes S NS bases r)).
Proof.
  rewrite !obj1. apply sumn_le. intros t Ht.
  rewrite (fobjq_slice _ _ _ _ t _ (tvl1_x s ash axes A S G (comps s axes NS y t) (comps s axes NS u t))) by (intros q Hq; apply flat_slice; assumption).
  apply (quot_min s axes ND Hne Hs); [intros; lra|intros i; apply tvl1_quot|].
  intros i Hi Ho. apply Rgt_not_eq. apply (den_pos _ t); try assumption; [intros; lra|]. apply Hdc. exact Ht.
Qed.

(** ** The operators determine the image *)
Lemma den_min : exists d, 0 < d /\ forall t i, (t < NS)%nat -> inr s axes i -> (forall ax, ~ In ax axes -> i ax = bases t ax) -> d <= den s axes (K + 1) Fil (fun _ => 1) i.
Proof.
  pose proof PP as HP. set (w := fun r => den s axes (K + 1) Fil (fun _ => 1) (place s axes (bases (r / P)) (r mod P))).
  destruct (min_weight (NS * P) w) as (d & Hd & B).
  - intros r Hr. unfold w. assert (Hk : (r mod P < P)%nat) by (apply Nat.mod_upper_bound; lia). pose proof (pl (r / P) (r mod P) Hk) as [Q1 Q2].
    apply (den_pos _ (r / P)); [intros; lra| |exact Q1|exact Q2]. apply Hdc. apply Nat.div_lt_upper_bound; nia.
  - exists d. split; [exact Hd|]. intros t i Ht Hi Ho. assert (Os : on_slice s axes (bases t) i) by (split; assumption).
    pose proof (rank_lt s axes i Hi) as Hr. specialize (B (t * P + rank s axes i)%nat ltac:(nia)). unfold w in B. rewrite div_at, mod_at in B by exact Hr.
    rewrite place_rank in B; [exact B|exact ND|exact Os].
Qed.
Lemma inj_all : exists kap, 0 <= kap /\ forall x, nrm2 (NS * P) x <= kap * nrm2 ((K + 1) * NS * P) (KA (K + 1) x).
Proof.
  destruct den_min as (d & Hd & B). exists (/ d). split; [left; apply Rinv_0_lt_compat; exact Hd|]. intros x. rewrite x_nrm2, KA_nrm2_0.
  apply (Rmult_le_reg_l d); [exact Hd|]. rewrite <- Rmult_assoc, Rinv_r, Rmult_1_l by lra. rewrite <- sumn_scal. apply sumn_le. intros t Ht.
  eapply Rle_trans; [apply (energy_bound s axes ND Hne Hs (K + 1) Fil (fun _ => 1) (bases t) d)|].
  - intros i Hi Ho. apply (B t); assumption.
  - apply Req_le. apply sumn_ext. intros j _. ring.
Qed.
Lemma KA_split x : nrm2 ((K + 1) * NS * P) (KA (K + 1) x) = nrm2 (NS * P) (HA x) + nrm2 (K * NS * P) (KA K x).
Proof.
  rewrite HA_nrm2_0, !KA_nrm2_0. rewrite <- sumn_plus. apply sumn_ext. intros t _. rewrite Nat.add_1_r. cbn [sumn]. ring.
Qed.
End tvd.
