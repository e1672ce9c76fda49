(** Fourier analysis for total variation deconvolution: the gradient filters, and quadratic problems solved frequency by frequency. *)
Require Import List Arith ZArith Reals Bool Lia Lra FunctionalExtensionality.
Require Import Verif.RVec Verif.Cplx Verif.FftModel Verif.FftProofs Verif.FftInv Verif.CscModel Verif.CscSpec Verif.CscProofs Verif.CscIterModel Verif.CscIterProofs.
Import ListNotations.
Local Open Scope R_scope.

(** ** Transforms of impulses, and the sample at frequency zero *)
Lemma fftn_zero s axes : forall idx, fftn s axes (fun _ => c0) idx = c0.
Proof.
  induction axes as [|a r IH]; intros idx; [reflexivity|]. change (fftn s (a :: r) (fun _ => c0) idx) with (dft (s a) (fun j => fftn s r (fun _ => c0) (upd idx a j)) (idx a)).
  unfold dft. apply csumn_0. intros j _. rewrite IH. ring.
Qed.
Lemma fftn_delta s axes t : NoDup axes -> (forall ax, In ax axes -> (t ax < s ax)%nat) -> forall idx,
  fftn s axes (fun m => if forallb (fun ax => Nat.eqb (m ax) (t ax)) axes then c1 else c0) idx
  = fold_right (fun ax z => cmul z (ru (s ax) (- (Z.of_nat (t ax) * Z.of_nat (idx ax))))) c1 axes.
Proof.
  induction axes as [|a r IH]; intros ND Ht idx; [reflexivity|]. inversion ND as [|? ? N1 N2]; subst.
  set (x := fun m : index => if forallb (fun ax => Nat.eqb (m ax) (t ax)) (a :: r) then c1 else c0).
  change (fftn s (a :: r) x idx) with (dft (s a) (fun j => fftn s r x (upd idx a j)) (idx a)). unfold dft.
  cbn [fold_right]. set (V := fold_right (fun ax z => cmul z (ru (s ax) (- (Z.of_nat (t ax) * Z.of_nat (idx ax))))) c1 r).
  rewrite (csumn_ext (s a) _ (fun j => if Nat.eqb j (t a) then cmul V (ru (s a) (- (Z.of_nat j * Z.of_nat (idx a)))) else c0)).
  - rewrite csumn_delta by (apply Ht; left; reflexivity). reflexivity.
  - intros j Hj. destruct (Nat.eqb_spec j (t a)) as [E|E].
    + f_equal. transitivity (fftn s r (fun m => if forallb (fun ax => Nat.eqb (m ax) (t ax)) r then c1 else c0) (upd idx a j)).
      * apply fftn_ext_in. intros m Hm Ho. unfold x. cbn [forallb]. rewrite (Ho a N1), upd_same, E, Nat.eqb_refl. reflexivity.
      * rewrite IH by (try assumption; intros; apply Ht; right; assumption). unfold V.
        assert (Q : forall L, (forall ax, In ax L -> In ax r) -> fold_right (fun ax z => cmul z (ru (s ax) (- (Z.of_nat (t ax) * Z.of_nat (upd idx a j ax))))) c1 L =
          fold_right (fun ax z => cmul z (ru (s ax) (- (Z.of_nat (t ax) * Z.of_nat (idx ax))))) c1 L).
        { induction L as [|b L IHL]; intros HL; [reflexivity|]. cbn [fold_right]. rewrite IHL by (intros; apply HL; right; assumption).
          rewrite upd_other by (intros ->; apply N1, HL; left; reflexivity). reflexivity. }
        apply Q. auto.
    + replace (fftn s r x (upd idx a j)) with c0; [ring|]. symmetry. transitivity (fftn s r (fun _ => c0) (upd idx a j)); [|apply fftn_zero].
      apply fftn_ext_in. intros m Hm Ho. unfold x. cbn [forallb]. rewrite (Ho a N1), upd_same. apply Nat.eqb_neq in E. rewrite E. reflexivity.
Qed.
Lemma fftn_dc s axes x : NoDup axes -> forall idx, (forall ax, In ax axes -> idx ax = O) -> fftn s axes (fun i => ofR (x i)) idx = ofR (rsum s axes x idx).
Proof.
  induction axes as [|a r IH]; intros ND idx Hz; [reflexivity|]. inversion ND as [|? ? N1 N2]; subst.
  change (fftn s (a :: r) (fun i => ofR (x i)) idx) with (dft (s a) (fun j => fftn s r (fun i => ofR (x i)) (upd idx a j)) (idx a)). unfold dft.
  rewrite (Hz a (or_introl eq_refl)). cbn [rsum]. rewrite <- csumn_ofR. apply csumn_ext. intros j _. rewrite Z.mul_0_r. cbn [Z.opp]. rewrite ru_0, IH; [ring|exact N2|].
  intros ax Hax. rewrite upd_other by (intros ->; contradiction). apply Hz. right. exact Hax.
Qed.

Section fourier.
Variables (s : nat -> nat) (axes : list nat).
Hypothesis ND : NoDup axes.
Hypothesis Hne : axes <> [].
Hypothesis Hs : forall ax, In ax axes -> (0 < s ax)%nat.
Lemma axes_snoc : exists r l, axes = r ++ [l].
Proof. exists (removelast axes), (last axes O). apply app_removelast_last. exact Hne. Qed.

Lemma rfft_dc x idx : (forall ax, In ax axes -> idx ax = O) -> rfftn s axes x idx = ofR (rsum s axes x idx).
Proof. intros Hz. pose proof ND as ND'. destruct axes_snoc as (r & l & E). rewrite E in *. rewrite rfftn_fftn. apply fftn_dc; assumption. Qed.
Lemma grad_hat k i : In k axes -> (forall ax, In ax axes -> (2 <= s ax)%nat) ->
  rfftn s axes (padR (fun _ => 2%nat) axes (grad_filter axes k)) i = csub c1 (ru (s k) (- Z.of_nat (i k))).
Proof.
  intros Hk H2. pose proof ND as ND'. destruct axes_snoc as (r & l & E).
  assert (Q : rfftn s axes (padR (fun _ => 2%nat) axes (grad_filter axes k)) i =
    csub (fftn s axes (fun m => if forallb (fun ax => Nat.eqb (m ax) ((fun _ => O) ax)) axes then c1 else c0) i)
         (fftn s axes (fun m => if forallb (fun ax => Nat.eqb (m ax) (unit_at k ax)) axes then c1 else c0) i)).
  { rewrite <- fftn_sub. transitivity (fftn s axes (fun m => ofR (padR (fun _ => 2%nat) axes (grad_filter axes k) m)) i); [rewrite E; rewrite rfftn_fftn; reflexivity|].
    apply (f_equal (fun g => fftn s axes g i)). extensionality m. rewrite grad_filter_delta by exact Hk. cbv beta.
    destruct (forallb (fun ax => Nat.eqb (m ax) 0) axes); destruct (forallb (fun ax => Nat.eqb (m ax) (unit_at k ax)) axes); ceq; ring. }
  rewrite Q. rewrite !fftn_delta; [|exact ND|intros ax Ha; unfold unit_at; destruct (Nat.eqb ax k); specialize (H2 ax Ha); lia|exact ND|exact Hs].
  f_equal.
  - clear. induction axes as [|a L IH]; [reflexivity|]. cbn [fold_right]. rewrite IH. cbn [Z.of_nat Z.mul Z.opp]. rewrite ru_0. ring.
  - assert (R : forall L, NoDup L -> fold_right (fun ax z => cmul z (ru (s ax) (- (Z.of_nat (unit_at k ax) * Z.of_nat (i ax))))) c1 L = if mem k L then ru (s k) (- Z.of_nat (i k)) else c1).
    { induction L as [|a L IH]; intros NL; [reflexivity|]. inversion NL as [|? ? M1 M2]; subst. cbn [fold_right]. rewrite IH by exact M2. unfold mem. cbn [existsb].
      change (existsb (Nat.eqb k) L) with (mem k L). unfold unit_at. rewrite (Nat.eqb_sym a k). destruct (Nat.eqb_spec k a) as [->|Na]; cbn [orb].
      - rewrite (mem_not a L M1). rewrite Z.mul_1_l. ring.
      - cbn [Z.of_nat Z.mul Z.opp]. rewrite ru_0. ring. }
    rewrite R by exact ND. unfold mem. destruct (existsb (Nat.eqb k) axes) eqn:Ek; [reflexivity|]. exfalso.
    assert (existsb (Nat.eqb k) axes = true) by (apply existsb_exists; exists k; split; [exact Hk|apply Nat.eqb_refl]). congruence.
Qed.
Lemma grad_hat_ne k i : In k axes -> (forall ax, In ax axes -> (2 <= s ax)%nat) -> (0 < i k < s k)%nat ->
  0 < cabs2 (rfftn s axes (padR (fun _ => 2%nat) axes (grad_filter axes k)) i).
Proof.
  intros Hk H2 Hi. rewrite grad_hat by assumption. destruct (Rle_lt_or_eq_dec _ _ (cabs2_nonneg (csub c1 (ru (s k) (- Z.of_nat (i k)))))) as [L|E]; [exact L|exfalso].
  assert (Z : csub c1 (ru (s k) (- Z.of_nat (i k))) = c0).
  { unfold cabs2 in E. set (z := csub c1 (ru (s k) (- Z.of_nat (i k)))) in *. pose proof (Rle_0_sqr (re z)). pose proof (Rle_0_sqr (im z)). unfold Rsqr in *.
    assert (re z * re z = 0) by nra. assert (im z * im z = 0) by nra. destruct z as [a b]. cbn [re im fst snd] in *. unfold c0. f_equal; nra. }
  apply (ru_ne1 (s k) (Z.of_nat (s k) - Z.of_nat (i k))); [lia|].
  replace (Z.of_nat (s k) - Z.of_nat (i k))%Z with (Z.of_nat (s k) + - Z.of_nat (i k))%Z by lia. rewrite ru_add, ru_n by lia.
  transitivity (csub c1 (csub c1 (ru (s k) (- Z.of_nat (i k))))); [ring|]. rewrite Z. ring.
Qed.
Lemma grad_hat_dc k i : In k axes -> (forall ax, In ax axes -> (2 <= s ax)%nat) -> i k = O -> rfftn s axes (padR (fun _ => 2%nat) axes (grad_filter axes k)) i = c0.
Proof. intros Hk H2 E. rewrite grad_hat by assumption. rewrite E. cbn [Z.of_nat Z.opp]. rewrite ru_0. ring. Qed.

(** Filtering in the frequency domain is circular convolution. *)
Lemma conv_hat u x i : inr s axes i -> rfftn s axes (conv s axes u x) i = cmul (rfftn s axes u i) (rfftn s axes x i).
Proof.
  intros Hi. pose proof ND as ND'. destruct axes_snoc as (r & l & E). rewrite E in *. rewrite <- rfftn_conv by assumption.
  apply (f_equal (fun g => rfftn s (r ++ [l]) g i)). extensionality p. apply conv_rsum.
Qed.
Lemma conv_fft u x p : inr s axes p -> irfftn s axes (fun i => cmul (rfftn s axes u i) (rfftn s axes x i)) p = conv s axes u x p.
Proof.
  intros Hp. pose proof ND as ND'. pose proof Hs as Hs'. destruct axes_snoc as (r & l & E). rewrite E in *.
  rewrite conv_thm_real by assumption. symmetry. apply conv_rsum.
Qed.

(** ** The minimiser of sum_q om_q || F_q * x - z_q ||^2 *)
Variables (N : nat) (F z : nat -> index -> R) (om : nat -> R).
Hypothesis Hom : forall q, (q < N)%nat -> 0 <= om q.
Definition den (i : index) : R := sumn N (fun q => om q * cabs2 (rfftn s axes (F q) i)).
Definition num (i : index) : C := csumn N (fun q => cmul (ofR (om q)) (cmul (conj (rfftn s axes (F q) i)) (rfftn s axes (z q) i))).
Definition fobjq (x : index -> R) (base : index) : R := sumn N (fun q => om q * sqn s axes (fun p => conv s axes (F q) x p - z q p) base).
Lemma parseval_slice x base : prodn s axes * sqn s axes x base = rsum s axes (fun i => cabs2 (rfftn s axes x i)) base.
Proof. pose proof ND as ND'. pose proof Hs as Hs'. destruct axes_snoc as (r & l & E). rewrite E in *. rewrite parseval_real by assumption. rewrite sqn_rsum. reflexivity. Qed.
Lemma fobjq_f x base : prodn s axes * fobjq x base = rsum s axes (fun i => sumn N (fun q => om q * cabs2 (csub (cmul (rfftn s axes (F q) i) (rfftn s axes x i)) (rfftn s axes (z q) i)))) base.
Proof.
  unfold fobjq. rewrite <- sumn_scal, rsum_sumn. apply sumn_ext. intros q _. rewrite rsum_scal.
  transitivity (om q * (prodn s axes * sqn s axes (fun p => conv s axes (F q) x p - z q p) base)); [ring|]. f_equal. rewrite parseval_slice.
  apply rsum_ext_in. intros i Hi _. f_equal. rewrite <- (conv_hat (F q) x i Hi). destruct axes_snoc as (r & l & E). rewrite E. apply rfftn_sub.
Qed.
Lemma freq_split i (y x : C) : den i <> 0 -> cmul (ofR (den i)) y = num i ->
  sumn N (fun q => om q * cabs2 (csub (cmul (rfftn s axes (F q) i) x) (rfftn s axes (z q) i))) =
  sumn N (fun q => om q * cabs2 (csub (cmul (rfftn s axes (F q) i) y) (rfftn s axes (z q) i))) + den i * cabs2 (csub x y).
Proof.
  intros _ Hy. set (f := fun q => rfftn s axes (F q) i). set (v := fun q => rfftn s axes (z q) i). set (e := csub x y).
  rewrite (sumn_ext N _ (fun q => om q * cabs2 (csub (cmul (f q) y) (v q)) + (om q * (2 * cdot (csub (cmul (f q) y) (v q)) (cmul (f q) e)) + om q * cabs2 (f q) * cabs2 e))).
  - rewrite !sumn_plus. rewrite sumn_scal_r.
    enough (Q : sumn N (fun q => om q * (2 * cdot (csub (cmul (f q) y) (v q)) (cmul (f q) e))) = 0) by (rewrite Q; unfold den, f, v, e; ring).
    transitivity (2 * re (cmul (conj (csub (cmul (ofR (den i)) y) (num i))) e)).
    + unfold den, num. rewrite <- csumn_ofR, <- csumn_scal_r, <- csumn_sub, csumn_conj, <- csumn_scal_r, re_csumn, <- sumn_scal. apply sumn_ext. intros q _.
      change (rfftn s axes (F q) i) with (f q). change (rfftn s axes (z q) i) with (v q). unfold cdot. generalize (f q) (v q) e y. intros [f1 f2] [v1 v2] [e1 e2] [y1 y2]. unfold cabs2, cmul, csub, cadd, copp, conj, ofR, re, im. cbn [fst snd]. ring.
    + rewrite Hy. replace (csub (num i) (num i)) with c0 by ring. replace (cmul (conj c0) e) with c0 by (ceq; ring). cbn [c0 re fst]. ring.
  - intros q _. change (rfftn s axes (F q) i) with (f q). change (rfftn s axes (z q) i) with (v q). unfold cdot, e. generalize (f q) (v q) x y. intros [f1 f2] [v1 v2] [x1 x2] [y1 y2]. unfold cabs2, cmul, csub, cadd, copp, conj, re, im. cbn [fst snd]. ring.
Qed.
Lemma quot_hermitian (xf : index -> C) : (forall i, xf i = cdiv (num i) (ofR (den i))) -> hermitian_nd s axes xf.
Proof.
  intros Hx i Hi. rewrite !Hx. pose proof ND as ND'. destruct axes_snoc as (r & l & E).
  assert (Hh : forall x, rfftn s axes x (neg s axes i) = conj (rfftn s axes x i)) by (intros x; rewrite E in *; apply rfftn_hermitian; assumption).
  assert (Ed : den (neg s axes i) = den i) by (unfold den; apply sumn_ext; intros q _; rewrite Hh, cabs2_conj; reflexivity).
  assert (En : num (neg s axes i) = conj (num i)).
  { unfold num. rewrite csumn_conj. apply csumn_ext. intros q _. rewrite !Hh, !conj_mul, conj_ofR. reflexivity. }
  rewrite Ed, En. unfold cdiv, cinv. rewrite conj_mul. f_equal. ceq; ring.
Qed.
Lemma rsum_le f g base : (forall i, inr s axes i -> (forall ax, ~ In ax axes -> i ax = base ax) -> f i <= g i) -> rsum s axes f base <= rsum s axes g base.
Proof.
  intros H. rewrite <- !total_rsum. rewrite <- !(sum_place s axes Hs). apply sumn_le. intros k Hk. pose proof (place_slice s axes ND Hs base k Hk) as [H1 H2].
  apply H; [intros ax Ha|intros ax Ha]; [apply H1|apply H2]; exact Ha.
Qed.
Lemma quot_split (xf : index -> C) base x : (forall i, xf i = cdiv (num i) (ofR (den i))) ->
  (forall i, inr s axes i -> (forall ax, ~ In ax axes -> i ax = base ax) -> den i <> 0) ->
  prodn s axes * fobjq x base = prodn s axes * fobjq (irfftn s axes xf) base + rsum s axes (fun i => den i * cabs2 (csub (rfftn s axes x i) (xf i))) base.
Proof.
  intros Hx Hd. rewrite !fobjq_f, <- rsum_plus. apply rsum_ext_in. intros i Hi Ho.
  assert (Ex : rfftn s axes (irfftn s axes xf) i = xf i).
  { pose proof (quot_hermitian xf Hx) as Hh. pose proof ND as ND'. pose proof Hs as Hs'. destruct axes_snoc as (r & l & E). rewrite E in *. apply rfftn_irfftn; assumption. }
  rewrite Ex. apply freq_split; [apply Hd; assumption|]. rewrite Hx. apply cdiv_mul. apply ofR_ne. apply Hd; assumption.
Qed.
Lemma quot_min (xf : index -> C) base x : (forall i, xf i = cdiv (num i) (ofR (den i))) ->
  (forall i, inr s axes i -> (forall ax, ~ In ax axes -> i ax = base ax) -> den i <> 0) -> fobjq (irfftn s axes xf) base <= fobjq x base.
Proof.
  intros Hx Hd. apply (Rmult_le_reg_l (prodn s axes)); [apply prodn_pos; exact Hs|]. rewrite (quot_split xf base x Hx Hd).
  assert (0 <= rsum s axes (fun i => den i * cabs2 (csub (rfftn s axes x i) (xf i))) base); [|lra].
  rewrite <- total_rsum. rewrite <- (sum_place s axes Hs). apply sumn_nonneg. intros k Hk. apply Rmult_le_pos; [|apply cabs2_nonneg].
  unfold den. apply sumn_nonneg. intros q Hq. apply Rmult_le_pos; [apply Hom; exact Hq|apply cabs2_nonneg].
Qed.
(** Without data the objective bounds the energy from below. *)
Lemma energy_bound base d x : (forall i, inr s axes i -> (forall ax, ~ In ax axes -> i ax = base ax) -> d <= den i) ->
  d * sqn s axes x base <= sumn N (fun q => om q * sqn s axes (conv s axes (F q) x) base).
Proof.
  intros Hd. apply (Rmult_le_reg_l (prodn s axes)); [apply prodn_pos; exact Hs|].
  apply Rle_trans with (rsum s axes (fun i => d * cabs2 (rfftn s axes x i)) base); [rewrite rsum_scal, <- parseval_slice; apply Req_le; ring|].
  apply Rle_trans with (rsum s axes (fun i => den i * cabs2 (rfftn s axes x i)) base).
  - apply rsum_le. intros i Hi Ho. apply Rmult_le_compat_r; [apply cabs2_nonneg|apply Hd; assumption].
  - apply Req_le. rewrite <- sumn_scal.
    rewrite (sumn_ext N (fun q => prodn s axes * _) (fun q => rsum s axes (fun i => om q * cabs2 (rfftn s axes (conv s axes (F q) x) i)) base)) by (intros q _; rewrite rsum_scal, <- parseval_slice; ring).
    rewrite <- rsum_sumn. apply rsum_ext_in. intros i Hi _. unfold den. rewrite <- sumn_scal_r. apply sumn_ext. intros q _. rewrite conv_hat by exact Hi. rewrite cabs2_mul. ring.
Qed.
End fourier.
