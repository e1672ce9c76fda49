(** Convolutional sparse coding with the total variation of the reconstruction: views, and the x step in the frequency domain. *)
Require Import List Arith ZArith Reals Bool Lia Lra FunctionalExtensionality.
Require Import Verif.RVec Verif.Cplx Verif.FftModel Verif.FftProofs Verif.FftInv Verif.CscModel Verif.CscSpec Verif.CscProofs Verif.CscIterModel Verif.CscIterProofs.
Require Import Verif.AdmmSpec Verif.AdmmModel Verif.AdmmProofs Verif.AdmmProps Verif.StepsSpec Verif.StepsProofs Verif.ProxModel.
Require Import Verif.CcmProofs.
Require Import Verif.TvdModel Verif.TvdFourier Verif.TvdProofs Verif.CtvFreq Verif.CcmFit Verif.RtvModel Verif.RtvSpec.
Import ListNotations.
Local Open Scope R_scope.
Local Notation vec := (nat -> R).

(** ** The reshaped array *)
Section view.
Variables (N M dN Cd KS : nat).
Hypothesis (HM : (0 < M)%nat) (Hd : (0 < dN)%nat) (HC : (1 < Cd)%nat) (HK : (0 < KS)%nat) (HN : (0 < N)%nat).
Lemma addr_at n k j : (k < KS)%nat -> (j < dN * Cd)%nat -> sep1_addr M dN Cd KS ((n * KS + k) * (dN * Cd) + j) = (n * (KS * (M + dN * Cd)) + k * (M + dN * Cd) + j)%nat.
Proof.
  intros Hk Hj. unfold sep1_addr. assert (E : ((n * KS + k) * (dN * Cd) + j = n * (KS * (dN * Cd)) + (k * (dN * Cd) + j))%nat) by ring.
  rewrite E at 1. rewrite (div_at (KS * (dN * Cd))) by nia. rewrite (div_at (dN * Cd)), (mod_at (dN * Cd)) by exact Hj. rewrite (mod_at KS) by exact Hk. reflexivity.
Qed.
Lemma view_1 : KS = 1%nat -> reshape_view N M dN Cd KS.
Proof.
  intros E. exists (Z.of_nat (KS * (M + dN * Cd))), (Z.of_nat dN), 0%Z, 1%Z. intros n c k j Hn Hc Hk Hj. replace k with O by lia.
  replace (((n * Cd + c) * KS + 0) * dN + j)%nat with ((n * KS + 0) * (dN * Cd) + (c * dN + j))%nat by (rewrite E; ring). rewrite addr_at by nia. nia.
Qed.
Lemma view_C : KS = Cd -> reshape_view N M dN Cd KS.
Proof.
  intros E. exists (Z.of_nat (KS * (M + dN * Cd))), (Z.of_nat (M + dN * Cd)), (Z.of_nat dN), 1%Z. intros n c k j Hn Hc Hk Hj.
  replace (((n * Cd + c) * KS + k) * dN + j)%nat with ((n * KS + c) * (dN * Cd) + (k * dN + j))%nat by (subst KS; ring). rewrite addr_at by nia. nia.
Qed.
Lemma no_view : KS <> 1%nat -> KS <> Cd -> ~ reshape_view N M dN Cd KS.
Proof.
  intros H1 H2 (sn & sc & sk & sj & H).
  assert (A : forall n c k j, (n < N)%nat -> (c < Cd)%nat -> (k < KS)%nat -> (j < dN)%nat -> forall k' j', (k' < KS)%nat -> (j' < dN * Cd)%nat ->
    (((n * Cd + c) * KS + k) * dN + j = (n * KS + k') * (dN * Cd) + j')%nat -> (sn * Z.of_nat n + sc * Z.of_nat c + sk * Z.of_nat k + sj * Z.of_nat j)%Z = Z.of_nat (n * (KS * (M + dN * Cd)) + k' * (M + dN * Cd) + j')).
  { intros n c k j Hn Hc Hk Hj k' j' Hk' Hj' E. rewrite H by assumption. rewrite E, addr_at by assumption. reflexivity. }
  assert (Sk : sk = Z.of_nat dN).
  { pose proof (A O O 1%nat O HN ltac:(lia) ltac:(lia) ltac:(lia) O dN ltac:(lia) ltac:(nia) ltac:(ring)) as E. lia. }
  assert (F : forall c k, (c < Cd)%nat -> (k < KS)%nat -> (c * KS + k = Cd)%nat -> (sc * Z.of_nat c + sk * Z.of_nat k)%Z = Z.of_nat (M + dN * Cd)).
  { intros c k Hc Hk E. pose proof (A O c k O HN Hc Hk ltac:(lia) 1%nat O ltac:(lia) ltac:(nia) ltac:(nia)) as E1. lia. }
  destruct (Nat.lt_ge_cases Cd KS) as [L|L].
  - pose proof (F O Cd ltac:(lia) L ltac:(lia)) as E. nia.
  - assert (Sc : sc = Z.of_nat (KS * dN)).
    { pose proof (A O 1%nat O O HN ltac:(lia) ltac:(lia) ltac:(lia) O (KS * dN)%nat ltac:(lia) ltac:(nia) ltac:(ring)) as E. lia. }
    pose proof (Nat.div_mod Cd KS ltac:(lia)) as E. pose proof (Nat.mod_upper_bound Cd KS ltac:(lia)) as B.
    assert (Bc : (Cd / KS < Cd)%nat) by (apply Nat.div_lt; lia).
    pose proof (F (Cd / KS)%nat (Cd mod KS)%nat Bc B ltac:(lia)) as E1. rewrite Sc, Sk in E1.
    assert (E2 : (Cd / KS * (KS * dN) + Cd mod KS * dN = dN * Cd)%nat) by nia. nia.
Qed.
End view.

(** ** Sums *)
Lemma csumn_split a b f : csumn (a + b) f = cadd (csumn a f) (csumn b (fun i => f (a + i)%nat)).
Proof. unfold csumn, cadd. cbn [re im fst snd]. rewrite !sumn_split. reflexivity. Qed.
Lemma csumn_flat b a f : (0 < b)%nat -> csumn (a * b) f = csumn a (fun i => csumn b (fun j => f (i * b + j)%nat)).
Proof. intros Hb. unfold csumn. cbn [re im fst snd]. rewrite !(sumn_flat b) by exact Hb. reflexivity. Qed.
Lemma inside_inr s axes i : inside s axes i = true <-> inr s axes i.
Proof.
  unfold inside, inr. rewrite forallb_forall. split; intros H ax Ha; specialize (H ax Ha); [apply Nat.ltb_lt|apply Nat.ltb_lt]; exact H.
Qed.

(** ** The x step when the system is known at the frequencies of the transform *)
Section inrange.
Variables (s dsh : nat -> nat) (axes : list nat) (M Cd : nat) (D : nat -> nat -> index -> R) (S : nat -> index -> R).
Hypothesis ND : NoDup axes.
Hypothesis Hne : axes <> [].
Hypothesis Hs : forall ax, In ax axes -> (0 < s ax)%nat.
Hypothesis HC : (0 < Cd)%nat.
Variables (rho : R) (Z : nat -> index -> R) (xf : nat -> index -> C).
Hypothesis Hr : 0 < rho.
Hypothesis Hx : forall i m, inr s axes i -> (m < M)%nat -> sys M Cd (fun c k => Df s dsh axes D c k i) (fun _ => rho) (fun k => xf k i) m
      = rhs Cd (fun c k => Df s dsh axes D c k i) rho (fun c => CscModel.Sf s axes S c i) (fun k => rfftn s axes (Z k) i) m.
Let rh (i : index) : nat -> C := rhs Cd (fun c k => Df s dsh axes D c k i) rho (fun c => CscModel.Sf s axes S c i) (fun k => rfftn s axes (Z k) i).
Let xf' (m : nat) (i : index) : C := if inside s axes i then xf m i else mdbi_ism M Cd (fun c k => Df s dsh axes D c k i) (fun _ => rho) (rh i) m.
Lemma xf_all i m : (m < M)%nat -> sys M Cd (fun c k => Df s dsh axes D c k i) (fun _ => rho) (fun k => xf' k i) m = rh i m.
Proof.
  intros Hm. unfold xf'. destruct (inside s axes i) eqn:E; [apply Hx; [apply inside_inr; exact E|exact Hm]|]. apply ism_sys; [|exact HC|exact Hm]. intros k _. exact Hr.
Qed.
Lemma xf_same m p : inr s axes p -> irfftn s axes (xf' m) p = irfftn s axes (xf m) p.
Proof.
  intros Hp. apply irfftn_slice; [exact ND|exact Hne|split; [exact Hp|reflexivity]|]. intros q [Hq _]. unfold xf'. apply inside_inr in Hq. rewrite Hq. reflexivity.
Qed.
Lemma strong_min_in X base : datafit s dsh axes M Cd D S (fun m => irfftn s axes (xf m)) base + near s axes M rho Z (fun m => irfftn s axes (xf m)) base <=
  datafit s dsh axes M Cd D S X base + near s axes M rho Z X base.
Proof.
  pose proof (strong_min0 s dsh axes M Cd D S rho Z xf' X base ND Hne Hs HC Hr xf_all) as Q.
  rewrite (CscIterProofs.datafit_ext s dsh axes M Cd D S base ND Hs (fun m => irfftn s axes (xf m)) (fun m => irfftn s axes (xf' m))).
  2:{ intros m p Hm Hp. symmetry. apply xf_same. exact (proj1 Hp). }
  rewrite (CscIterProofs.near_ext s axes M base ND rho Z (fun m => irfftn s axes (xf m)) (fun m => irfftn s axes (xf' m))).
  2:{ intros m p Hm Hp. symmetry. apply xf_same. exact (proj1 Hp). }
  assert (0 <= near s axes M rho (fun m => irfftn s axes (xf' m)) X base).
  { unfold near. apply Rmult_le_pos; [lra|]. apply sumn_nonneg. intros m _. unfold sqn. apply CcmProofs.total_nonneg. intros p. apply Rle_0_sqr. }
  lra.
Qed.
Lemma xf_inv m i : (m < M)%nat -> inr s axes i -> rfftn s axes (irfftn s axes (xf m)) i = xf m i.
Proof.
  intros Hm Hi. transitivity (rfftn s axes (irfftn s axes (xf' m)) i).
  { apply rfftn_slice; [exact Hne|]. intros p [Hp _]. symmetry. apply xf_same. exact Hp. }
  rewrite (gen_inv s dsh axes M Cd D S ND Hne Hs (fun _ _ => 0) rho (fun k i => rfftn s axes (Z k) i) xf').
  - unfold xf'. apply inside_inr in Hi. rewrite Hi. reflexivity.
  - intros. lra.
  - exact Hr.
  - reflexivity.
  - intros k j _ Hj. apply (hat_neg s axes ND Hne Hs). exact Hj.
  - intros j k Hk. pose proof (xf_all j k Hk) as Q. unfold rh in Q. rewrite <- Q. unfold sys. rewrite Rplus_0_l. reflexivity.
  - exact Hm.
  - exact Hi.
Qed.
End inrange.

(** ** The rows of the system are the filters and their weighted differences *)
Section rows.
Variables (s dsh : nat -> nat) (axes : list nat) (M Cd : nat) (D : nat -> nat -> index -> R) (S : nat -> index -> R) (G : nat -> index -> R) (wtv : nat -> R).
Hypothesis ND : NoDup axes.
Hypothesis Hne : axes <> [].
Hypothesis H2 : forall ax, In ax axes -> (2 <= s ax)%nat.
Hypothesis HG : gradient_filters axes = Some G.
Hypothesis HC : (0 < Cd)%nat.
Notation K := (length axes).
Let Hs := TvdProofs.Hs s axes H2.
Definition wsum (X : nat -> index -> R) (c : nat) : index -> R := fun p => sumn M (fun m => wtv m * conv s axes (ext dsh axes (D c m)) (X m) p).

Lemma eq_of_hat f g p : inr s axes p -> (forall i, inr s axes i -> rfftn s axes f i = rfftn s axes g i) -> f p = g p.
Proof.
  intros Hp E. rewrite <- (inv_rfft s axes f p ND Hne Hp), <- (inv_rfft s axes g p ND Hne Hp). apply irfftn_slice; [exact ND|exact Hne|split; [exact Hp|reflexivity]|].
  intros q [Hq _]. apply E. exact Hq.
Qed.
Lemma diff_conv j x p : (j < K)%nat -> inr s axes p -> conv s axes (padR (fun _ => 2%nat) axes (G j)) x p = diff s j x p.
Proof. intros Hj Hp. destruct (gf_some axes G HG ND j Hj) as [I E]. rewrite E, conv_rsum. apply grad_conv; assumption. Qed.
Lemma diff_hat j x i : (j < K)%nat -> inr s axes i -> rfftn s axes (diff s j x) i = cmul (Gf s axes G j i) (rfftn s axes x i).
Proof.
  intros Hj Hi. unfold Gf. rewrite <- (conv_hat s axes ND Hne Hs) by exact Hi. apply rfftn_slice; [exact Hne|]. intros p [Hp _]. symmetry. apply diff_conv; assumption.
Qed.
Lemma ext_hat u i : rfftn s axes (ext s axes u) i = rfftn s axes u i.
Proof. apply rfftn_slice; [exact Hne|]. intros p [Hp _]. unfold ext. apply inside_inr in Hp. unfold inside in Hp. rewrite Hp. reflexivity. Qed.
Lemma sumn_hat N (f : nat -> index -> R) i : rfftn s axes (fun p => sumn N (fun j => f j p)) i = csumn N (fun j => rfftn s axes (f j) i).
Proof. destruct (axes_snoc axes Hne) as (r & l & E). rewrite E. apply rfftn_sumn. Qed.
Lemma wsum_hat X c i : inr s axes i -> rfftn s axes (wsum X c) i = csumn M (fun m => cmul (cmul (ofR (wtv m)) (Df s dsh axes D c m i)) (rfftn s axes (X m) i)).
Proof.
  intros Hi. unfold wsum. rewrite (sumn_hat M (fun m p => wtv m * conv s axes (ext dsh axes (D c m)) (X m) p)). apply csumn_ext. intros m _.
  rewrite (hat_scal s axes Hne), (conv_hat s axes ND Hne Hs) by exact Hi. unfold Df. change (ext dsh axes (D c m)) with (padR dsh axes (D c m)). ring.
Qed.
(** cnst_A1 is the gradient of the weighted reconstruction. *)
Lemma A1_diff X j c p : (j < K)%nat -> inr s axes p -> rtv_A1 s dsh axes M D G wtv X j c p = diff s j (wsum X c) p.
Proof.
  intros Hj Hp. rewrite <- (inv_rfft s axes (diff s j (wsum X c)) p ND Hne Hp). apply irfftn_slice; [exact ND|exact Hne|split; [exact Hp|reflexivity]|].
  intros i [Hi _]. rewrite diff_hat, wsum_hat by assumption. rewrite <- csumn_scal. apply csumn_ext. intros m _. unfold GDf. ring.
Qed.

Variable rho : R.
Hypothesis Hr : 0 < rho.
Definition Dr (b m : nat) : index -> R := if Nat.ltb b Cd then ext dsh axes (D b m)
  else fun p => sqrt rho * (wtv m * diff s ((b - Cd) / Cd) (ext dsh axes (D ((b - Cd) mod Cd) m)) p).
Definition Sr (Z1 : nat -> nat -> index -> R) (b : nat) : index -> R := if Nat.ltb b Cd then S b
  else fun p => sqrt rho * Z1 ((b - Cd) / Cd)%nat ((b - Cd) mod Cd)%nat p.
Lemma Dr_hat b m i : (b < Cd + K * Cd)%nat -> inr s axes i -> Df s s axes Dr b m i = DfGDf s dsh axes Cd D G wtv rho b m i.
Proof.
  intros Hb Hi. unfold Df. change (padR s axes (Dr b m)) with (ext s axes (Dr b m)). rewrite ext_hat. unfold Dr, DfGDf. destruct (Nat.ltb_spec b Cd) as [L|L]; [reflexivity|].
  assert (Hj : ((b - Cd) / Cd < K)%nat) by (apply Nat.div_lt_upper_bound; nia).
  rewrite (hat_scal s axes Hne), (hat_scal s axes Hne), diff_hat by assumption. unfold GDf, Df. change (ext dsh axes (D ((b - Cd) mod Cd)%nat m)) with (padR dsh axes (D ((b - Cd) mod Cd)%nat m)). f_equal. ring.
Qed.
Lemma rows_sum (f : nat -> C) : csumn (Cd + K * Cd) f = cadd (csumn Cd f) (csumn K (fun j => csumn Cd (fun c => f (Cd + (j * Cd + c))%nat))).
Proof. rewrite csumn_split, (csumn_flat Cd K) by exact HC. reflexivity. Qed.
Lemma idx j c : (c < Cd)%nat -> Nat.ltb (Cd + (j * Cd + c)) Cd = false /\ ((Cd + (j * Cd + c) - Cd) / Cd = j)%nat /\ ((Cd + (j * Cd + c) - Cd) mod Cd = c)%nat.
Proof.
  intros Hc. split; [apply Nat.ltb_ge; lia|]. replace (Cd + (j * Cd + c) - Cd)%nat with (j * Cd + c)%nat by lia. split; [apply div_at|apply mod_at]; exact Hc.
Qed.
Variables (Y0 U0 : nat -> index -> R) (Y1 U1 : nat -> nat -> index -> R).
Notation Z0 := (fun k p => Y0 k p - U0 k p).
Notation Z1 := (fun j c p => Y1 j c p - U1 j c p).
Lemma rtv_sys i m : inr s axes i -> (m < M)%nat ->
  sys M (Cd + K * Cd) (fun c k => Df s s axes Dr c k i) (fun _ => rho) (fun k => rtv_xf s dsh axes M Cd D S G wtv rho Y0 U0 Y1 U1 k i) m =
  rhs (Cd + K * Cd) (fun c k => Df s s axes Dr c k i) rho (fun c => CscModel.Sf s axes (Sr Z1) c i) (fun k => rfftn s axes (Z0 k) i) m.
Proof.
  intros Hi Hm. unfold rtv_xf. cbv zeta.
  rewrite (sys_ext M (Cd + K * Cd) _ (fun c k => DfGDf s dsh axes Cd D G wtv rho c k i)) by (intros c Hc; extensionality k; apply Dr_hat; assumption).
  rewrite ism_sys; [|intros; exact Hr|lia|exact Hm]. unfold rhs.
  rewrite (csumn_ext (Cd + K * Cd) _ (fun b => cmul (conj (DfGDf s dsh axes Cd D G wtv rho b m i)) (CscModel.Sf s axes (Sr Z1) b i))) by (intros b Hb; rewrite Dr_hat by assumption; reflexivity).
  rewrite rows_sum. unfold DSf.
  rewrite (csumn_ext Cd (fun b => cmul (conj (DfGDf s dsh axes Cd D G wtv rho b m i)) (CscModel.Sf s axes (Sr Z1) b i)) (fun c => cmul (conj (Df s dsh axes D c m i)) (CscModel.Sf s axes S c i))).
  2:{ intros c Hc. unfold DfGDf, CscModel.Sf, Sr. apply Nat.ltb_lt in Hc. rewrite Hc. reflexivity. }
  rewrite (csumn_swap K Cd). 
  rewrite (csumn_ext Cd (fun c => csumn K (fun j => cmul (conj (DfGDf s dsh axes Cd D G wtv rho (Cd + (j * Cd + c)) m i)) (CscModel.Sf s axes (Sr Z1) (Cd + (j * Cd + c)) i)))
     (fun c => cmul (ofR rho) (csumn K (fun j => cmul (conj (GDf s dsh axes D G wtv j c m i)) (rfftn s axes (fun p => Y1 j c p - U1 j c p) i))))).
  2:{ intros c Hc. rewrite <- csumn_scal. apply csumn_ext. intros j Hj. destruct (idx j c Hc) as (E1 & E2 & E3). unfold DfGDf, CscModel.Sf, Sr. rewrite E1, E2, E3, (hat_scal s axes Hne).
      rewrite conj_mul, conj_ofR. replace (ofR rho) with (cmul (ofR (sqrt rho)) (ofR (sqrt rho))); [ring|]. rewrite <- (sqrt_sqrt rho) at 3 by lra. unfold cmul, ofR, re, im; cbn [fst snd]; f_equal; ring. }
  ring.
Qed.
Lemma rtv_inv m i : (m < M)%nat -> inr s axes i -> rfftn s axes (rtv_x s dsh axes M Cd D S G wtv rho Y0 U0 Y1 U1 m) i = rtv_xf s dsh axes M Cd D S G wtv rho Y0 U0 Y1 U1 m i.
Proof.
  intros Hm Hi. unfold rtv_x. apply (xf_inv s s axes M (Cd + K * Cd) Dr (Sr Z1) ND Hne Hs ltac:(lia) rho Z0 (fun k => rtv_xf s dsh axes M Cd D S G wtv rho Y0 U0 Y1 U1 k) Hr); try assumption.
  intros j k Hj Hk. apply rtv_sys; assumption.
Qed.
(** The objective of the x step on a slice. *)
Lemma synth_lo X b p : (b < Cd)%nat -> inr s axes p -> synth s s axes M Dr X b p = synth s dsh axes M D X b p.
Proof.
  intros Hb Hp. unfold synth. apply sumn_ext. intros m _. unfold conv. apply CscIterProofs.total_ext; [exact ND|]. intros k [Hk _]. f_equal. unfold Dr. apply Nat.ltb_lt in Hb. rewrite Hb.
  unfold ext at 1. apply inside_inr in Hk. unfold inside in Hk. rewrite Hk. reflexivity.
Qed.
Lemma synth_hi X j c p : (j < K)%nat -> (c < Cd)%nat -> inr s axes p -> synth s s axes M Dr X (Cd + (j * Cd + c)) p = sqrt rho * diff s j (wsum X c) p.
Proof.
  intros Hj Hc Hp. apply (eq_of_hat (synth s s axes M Dr X (Cd + (j * Cd + c))) (fun p => sqrt rho * diff s j (wsum X c) p)); [exact Hp|]. intros i Hi.
  unfold synth. rewrite (sumn_hat M (fun m p => conv s axes (ext s axes (Dr (Cd + (j * Cd + c)) m)) (X m) p)), (hat_scal s axes Hne), diff_hat, wsum_hat by assumption.
  rewrite <- !csumn_scal. apply csumn_ext. intros m _. rewrite (conv_hat s axes ND Hne Hs) by exact Hi.
  change (rfftn s axes (ext s axes (Dr (Cd + (j * Cd + c)) m)) i) with (Df s s axes Dr (Cd + (j * Cd + c)) m i). rewrite Dr_hat by (try exact Hi; nia).
  destruct (idx j c Hc) as (E1 & E2 & E3). unfold DfGDf. rewrite E1, E2, E3. unfold GDf. ring.
Qed.
Lemma rows_fit X W base : datafit s s axes M (Cd + K * Cd) Dr (Sr W) X base =
  datafit s dsh axes M Cd D S X base + rho / 2 * sumn K (fun j => sumn Cd (fun c => sqn s axes (fun p => diff s j (wsum X c) p - W j c p) base)).
Proof.
  unfold datafit. rewrite sumn_split, (sumn_flat Cd K) by exact HC. rewrite Rmult_plus_distr_l. f_equal.
  - f_equal. apply sumn_ext. intros c Hc. apply CscIterProofs.sqn_ext; [exact ND|]. intros p [Hp _]. rewrite synth_lo by assumption. unfold Sr. apply Nat.ltb_lt in Hc. rewrite Hc. reflexivity.
  - unfold Rdiv. rewrite (Rmult_comm rho), Rmult_assoc. f_equal. rewrite <- sumn_scal. apply sumn_ext. intros j Hj. rewrite <- sumn_scal. apply sumn_ext. intros c Hc.
    destruct (idx j c Hc) as (E1 & E2 & E3).
    transitivity (sqn s axes (fun p => sqrt rho * (diff s j (wsum X c) p - W j c p)) base).
    + apply CscIterProofs.sqn_ext; [exact ND|]. intros p [Hp _]. rewrite synth_hi by assumption. unfold Sr. rewrite E1, E2, E3. ring.
    + unfold sqn. rewrite <- (Rplus_0_r (rho * total _ _ _ _)), <- (Rmult_0_l (total s axes (fun p => 0) base)), <- total_lin. f_equal. extensionality p. rewrite <- (sqrt_sqrt rho) at 3 by lra. ring.
Qed.
Lemma slice_min_rtv X base : let x := rtv_x s dsh axes M Cd D S G wtv rho Y0 U0 Y1 U1 in
  let obj V := datafit s dsh axes M Cd D S V base + rho / 2 * (sumn K (fun j => sumn Cd (fun c => sqn s axes (fun p => diff s j (wsum V c) p - Z1 j c p) base)) + sumn M (fun m => sqn s axes (fun p => V m p - Z0 m p) base)) in
  obj x <= obj X.
Proof.
  intros x obj. pose proof (strong_min_in s s axes M (Cd + K * Cd) Dr (Sr Z1) ND Hne Hs ltac:(lia) rho Z0 (fun k => rtv_xf s dsh axes M Cd D S G wtv rho Y0 U0 Y1 U1 k) Hr
     ltac:(intros i m Hi Hm; apply rtv_sys; assumption) X base) as Q. rewrite !rows_fit in Q. unfold near in Q. unfold obj. rewrite !Rmult_plus_distr_l, <- !Rplus_assoc. exact Q.
Qed.
End rows.
