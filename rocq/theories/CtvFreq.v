(** The x step of convolutional sparse coding with total variation terms: the normal equations frequency by frequency. *)
Require Import List Arith ZArith Reals Bool Lia Lra FunctionalExtensionality.
Require Import Verif.RVec Verif.Cplx Verif.FftModel Verif.FftProofs Verif.FftInv Verif.CscModel Verif.CscSpec Verif.CscProofs Verif.CscIterModel Verif.CscIterProofs.
Require Import Verif.TvdModel Verif.TvdFourier Verif.TvdProofs Verif.CtvModel.
Import ListNotations.
Local Open Scope R_scope.

Lemma fftn_scal s axes (a : C) f : forall idx, fftn s axes (fun i => cmul a (f i)) idx = cmul a (fftn s axes f idx).
Proof.
  induction axes as [|ax r IH]; intros idx; [reflexivity|].
  change (fftn s (ax :: r) (fun i => cmul a (f i)) idx) with (dft (s ax) (fun j => fftn s r (fun i => cmul a (f i)) (upd idx ax j)) (idx ax)).
  change (fftn s (ax :: r) f idx) with (dft (s ax) (fun j => fftn s r f (upd idx ax j)) (idx ax)). unfold dft.
  rewrite <- csumn_scal. apply csumn_ext. intros j _. rewrite IH. ring.
Qed.
Lemma dbi_arr_uniform M ah d b rho m : (forall k, (k < M)%nat -> d k = rho) -> (m < M)%nat -> dbi_arr M ah d b m = dbi_sm M ah rho b m.
Proof.
  intros E Hm. unfold dbi_arr, dbi_sm. rewrite (E m Hm). f_equal. f_equal. f_equal. unfold inner at 1 3. apply csumn_ext. intros k Hk. rewrite (E k Hk). reflexivity.
Qed.

(** One frequency and one coefficient map: the terms which couple x to the copies, as one quadratic term. *)
Lemma couple K (w : R) (g z : nat -> C) (x : C) :
  let z' := cadd (z K) (cmul (ofR w) (csumn K (fun j => cmul (conj (g j)) (z j)))) in
  sumn K (fun j => cabs2 (csub (cmul (ofR w) (cmul (g j) x)) (z j))) + cabs2 (csub x (z K)) =
  w * w * sumn K (fun j => cabs2 (g j)) * cabs2 x + cabs2 (csub x z') + (sumn K (fun j => cabs2 (z j)) + cabs2 (z K) - cabs2 z').
Proof.
  intros z'.
  assert (E1 : sumn K (fun j => cabs2 (csub (cmul (ofR w) (cmul (g j) x)) (z j))) =
    w * w * sumn K (fun j => cabs2 (g j)) * cabs2 x + -2 * w * cdot x (csumn K (fun j => cmul (conj (g j)) (z j))) + sumn K (fun j => cabs2 (z j))).
  { unfold cdot. rewrite <- csumn_scal, re_csumn, <- !sumn_scal, <- sumn_scal_r, <- !sumn_plus. apply sumn_ext. intros j _.
    generalize (g j) (z j) x. intros [a1 a2] [b1 b2] [x1 x2]. unfold cabs2, cmul, csub, cadd, copp, conj, ofR, re, im. cbn [fst snd]. ring. }
  rewrite E1. unfold z'. generalize (csumn K (fun j => cmul (conj (g j)) (z j))) (z K) (sumn K (fun j => cabs2 (g j))) (sumn K (fun j => cabs2 (z j))). intros [c1 c2] [b1 b2] G0 Z0. destruct x as [x1 x2].
  unfold cdot, cabs2, cmul, csub, cadd, copp, conj, ofR, re, im. cbn [fst snd]. ring.
Qed.

Section gen.
Variables (s dsh : nat -> nat) (axes : list nat) (M Cd : nat) (D : nat -> nat -> index -> R) (S : nat -> index -> R).
Hypothesis ND : NoDup axes.
Hypothesis Hne : axes <> [].
Hypothesis Hs : forall ax, In ax axes -> (0 < s ax)%nat.
Lemma hat_sub f g i : rfftn s axes (fun p => f p - g p) i = csub (rfftn s axes f i) (rfftn s axes g i).
Proof. destruct (axes_snoc axes Hne) as (r & l & E). rewrite E. apply rfftn_sub. Qed.
Lemma hat_scal a f i : rfftn s axes (fun p => a * f p) i = cmul (ofR a) (rfftn s axes f i).
Proof.
  destruct (axes_snoc axes Hne) as (r & l & E). rewrite E, !rfftn_fftn, <- fftn_scal. apply (f_equal (fun g => fftn s (r ++ [l]) g i)). extensionality p. ceq; ring.
Qed.
Lemma hat_neg x i : inr s axes i -> rfftn s axes x (neg s axes i) = conj (rfftn s axes x i).
Proof. intros Hi. pose proof ND as ND'. destruct (axes_snoc axes Hne) as (r & l & E). rewrite E in *. apply rfftn_hermitian; assumption. Qed.
Lemma hat_inv h i : hermitian_nd s axes h -> inr s axes i -> rfftn s axes (irfftn s axes h) i = h i.
Proof. intros Hh Hi. pose proof ND as ND'. pose proof Hs as Hs'. destruct (axes_snoc axes Hne) as (r & l & E). rewrite E in *. apply rfftn_irfftn; assumption. Qed.
Lemma datafit_f X base : prodn s axes * datafit s dsh axes M Cd D S X base =
  rsum s axes (fun i => / 2 * sumn Cd (fun c => cabs2 (csub (app M (fun c k => Df s dsh axes D c k i) (fun k => rfftn s axes (X k) i) c) (CscModel.Sf s axes S c i)))) base.
Proof.
  unfold datafit. rewrite rsum_scal, rsum_sumn.
  rewrite (sumn_ext Cd (fun j => rsum s axes _ base) (fun c => prodn s axes * sqn s axes (fun p => synth s dsh axes M D X c p - S c p) base)).
  - rewrite sumn_scal. ring.
  - intros c _. rewrite (parseval_slice s axes ND Hne Hs). apply rsum_ext_in. intros i Hi _. f_equal. rewrite hat_sub. f_equal.
    pose proof ND as ND'. pose proof Hs as Hs'. destruct (axes_snoc axes Hne) as (r & l & E). rewrite E in *. symmetry. apply synth_f; assumption.
Qed.

(** Any even diagonal and symmetric right hand side. *)
Variables (e : index -> nat -> R) (rho : R) (z : nat -> index -> C) (xf : nat -> index -> C).
Hypothesis He : forall i m, (m < M)%nat -> 0 <= e i m.
Hypothesis Hr : 0 < rho.
Hypothesis Hev : forall i m, inr s axes i -> (m < M)%nat -> e (neg s axes i) m = e i m.
Hypothesis Hz : forall m i, (m < M)%nat -> inr s axes i -> z m (neg s axes i) = conj (z m i).
Hypothesis Hx : forall i m, (m < M)%nat -> sys M Cd (fun c k => Df s dsh axes D c k i) (fun k => e i k + rho) (fun k => xf k i) m
      = rhs Cd (fun c k => Df s dsh axes D c k i) rho (fun c => CscModel.Sf s axes S c i) (fun k => z k i) m.
Lemma gen_hermitian m : (m < M)%nat -> hermitian_nd s axes (xf m).
Proof.
  intros Hm i Hi.
  apply (sys_unique M Cd (fun c k => Df s dsh axes D c k (neg s axes i)) (e (neg s axes i)) rho (fun c => CscModel.Sf s axes S c (neg s axes i)) (fun k => z k (neg s axes i))
    (fun k => xf k (neg s axes i)) (fun k => conj (xf k i))); [intros; apply He; assumption|exact Hr|intros k Hk; apply Hx; exact Hk| |exact Hm].
  intros k Hk. pose proof (Hx i k Hk) as Q. apply (f_equal conj) in Q.
  assert (EA : forall c k, Df s dsh axes D c k (neg s axes i) = conj (Df s dsh axes D c k i)) by (intros; apply hat_neg; exact Hi).
  transitivity (conj (sys M Cd (fun c k => Df s dsh axes D c k i) (fun k => e i k + rho) (fun k => xf k i) k)).
  - unfold sys. rewrite conj_add, csumn_conj, conj_mul, conj_ofR, Hev by assumption. f_equal. apply csumn_ext. intros c _.
    rewrite EA, conj_mul. f_equal. unfold app. rewrite csumn_conj. apply csumn_ext. intros j _. rewrite EA, conj_mul. reflexivity.
  - rewrite Q. unfold rhs. rewrite conj_add, csumn_conj, conj_mul, conj_ofR. rewrite (Hz k i Hk Hi). f_equal. apply csumn_ext. intros c _.
    rewrite EA, conj_mul. f_equal. unfold CscModel.Sf. rewrite hat_neg by exact Hi. reflexivity.
Qed.
Lemma gen_inv m i : (m < M)%nat -> inr s axes i -> rfftn s axes (irfftn s axes (xf m)) i = xf m i.
Proof. intros Hm Hi. apply hat_inv; [apply gen_hermitian; exact Hm|exact Hi]. Qed.
Lemma gen_min i (x : cvec) : inr s axes i ->
  fobj M Cd (fun c k => Df s dsh axes D c k i) (e i) rho (fun c => CscModel.Sf s axes S c i) (fun k => z k i) (fun k => rfftn s axes (irfftn s axes (xf k)) i) <=
  fobj M Cd (fun c k => Df s dsh axes D c k i) (e i) rho (fun c => CscModel.Sf s axes S c i) (fun k => z k i) x.
Proof.
  intros Hi. rewrite (fobj_split M Cd (fun c k => Df s dsh axes D c k i) (e i) rho (fun c => CscModel.Sf s axes S c i) (fun k => z k i) x (fun k => rfftn s axes (irfftn s axes (xf k)) i)).
  - cbv beta zeta. set (h := fun m => csub (x m) (rfftn s axes (irfftn s axes (xf m)) i)).
    assert (A1 : 0 <= sumn Cd (fun c => cabs2 (app M (fun c k => Df s dsh axes D c k i) h c))) by (apply sumn_nonneg; intros; apply cabs2_nonneg).
    assert (A2 : 0 <= sumn M (fun m => (e i m + rho) * cabs2 (h m))) by (apply sumn_nonneg; intros m Hm; apply Rmult_le_pos; [pose proof (He i m Hm); lra|apply cabs2_nonneg]).
    unfold h in *. cbv beta in *. lra.
  - intros m Hm. rewrite <- (Hx i m Hm). unfold sys. rewrite (gen_inv m i Hm Hi). f_equal. apply csumn_ext. intros c _. f_equal. apply csumn_ext. intros k Hk. rewrite (gen_inv k i Hk Hi). reflexivity.
Qed.
End gen.

(** ** The x step *)
Section xstep.
Variables (s dsh : nat -> nat) (axes : list nat) (M Cd : nat) (D : nat -> nat -> index -> R) (S : nat -> index -> R) (G : nat -> index -> R) (wtv : nat -> R).
Hypothesis ND : NoDup axes.
Hypothesis Hne : axes <> [].
Hypothesis Hs : forall ax, In ax axes -> (0 < s ax)%nat.
Hypothesis HC : (0 < Cd)%nat.
(** The solver for a single channel needs the same weight for all filters. *)
Hypothesis Hw : Cd = 1%nat -> forall m, (m < M)%nat -> wtv m * wtv m = wtv O * wtv O.
Variable rho : R.
Hypothesis Hr : 0 < rho.
Notation K := (length axes).
Notation Gp := (fun j => padR (fun _ => 2%nat) axes (G j)).
Definition ee (i : index) (m : nat) : R := rho * (wtv m * wtv m * TvdModel.GHGf s axes G i).
Definition zz (Y U : nat -> nat -> index -> R) (m : nat) (i : index) : C :=
  cadd (rfftn s axes (fun p => Y K m p - U K m p) i) (cmul (ofR (wtv m)) (csumn K (fun j => cmul (conj (Gf s axes G j i)) (rfftn s axes (fun p => Y j m p - U j m p) i)))).
Lemma GHG_abs i : TvdModel.GHGf s axes G i = sumn K (fun j => cabs2 (Gf s axes G j i)).
Proof.
  unfold TvdModel.GHGf. rewrite re_csumn. apply sumn_ext. intros j _. generalize (Gf s axes G j i). intros [a b]. unfold cabs2, cmul, conj, re, im. cbn [fst snd]. ring.
Qed.
Lemma GHG_nn i : 0 <= TvdModel.GHGf s axes G i.
Proof. rewrite GHG_abs. apply sumn_nonneg. intros. apply cabs2_nonneg. Qed.
Lemma ee_nn i m : 0 <= ee i m.
Proof. unfold ee. apply Rmult_le_pos; [lra|]. apply Rmult_le_pos; [|apply GHG_nn]. pose proof (Rle_0_sqr (wtv m)) as Q. exact Q. Qed.
Lemma ee_even i m : inr s axes i -> ee (neg s axes i) m = ee i m.
Proof. intros Hi. unfold ee. rewrite !GHG_abs. do 2 f_equal. apply sumn_ext. intros j _. unfold Gf. rewrite (hat_neg s axes ND Hne Hs) by exact Hi. apply cabs2_conj. Qed.
Lemma zz_herm Y U m i : inr s axes i -> zz Y U m (neg s axes i) = conj (zz Y U m i).
Proof.
  intros Hi. unfold zz, Gf. rewrite conj_add, conj_mul, conj_ofR, csumn_conj, (hat_neg s axes ND Hne Hs) by exact Hi. do 2 f_equal. apply csumn_ext. intros j _.
  rewrite !(hat_neg s axes ND Hne Hs), conj_mul by exact Hi. reflexivity.
Qed.
Lemma ctv_sys Y U i m : (m < M)%nat -> sys M Cd (fun c k => Df s dsh axes D c k i) (fun k => ee i k + rho) (fun k => ctv_xf s dsh axes M Cd D S G wtv rho Y U k i) m
  = rhs Cd (fun c k => Df s dsh axes D c k i) rho (fun c => CscModel.Sf s axes S c i) (fun k => zz Y U k i) m.
Proof.
  intros Hm. assert (Hd : forall k, (k < M)%nat -> 0 < ee i k + rho) by (intros k _; pose proof (ee_nn i k); lra).
  unfold ctv_xf. cbv zeta. change (tvdiag s axes G wtv rho i) with (fun k => ee i k + rho).
  set (b := fun k => cadd (DSf s dsh axes Cd D S k i) _). transitivity (b m); [|reflexivity].
  destruct (Nat.eqb_spec Cd 1) as [E1|N].
  - subst Cd. rewrite (sys_ext M 1 _ (fun _ k => Df s dsh axes D 0 k i)) by (intros c Hc; replace c with O by lia; reflexivity).
    assert (U0 : forall k, (k < M)%nat -> (fun k => ee i k + rho) k = ee i 0 + rho) by (intros k Hk; cbv beta; unfold ee; rewrite (Hw eq_refl k Hk); reflexivity).
    rewrite <- (dbi_sys M _ Hd (fun k => Df s dsh axes D 0 k i) (ee i 0 + rho) b m U0 Hm).
    unfold sys. rewrite (dbi_arr_uniform M _ _ b _ m U0 Hm). f_equal. apply csumn_ext. intros c _. f_equal. apply csumn_ext. intros k Hk. rewrite (dbi_arr_uniform M _ _ b _ k U0 Hk). reflexivity.
  - apply (ism_sys M _ Hd); assumption.
Qed.
(** The array Xf is the transform of X. *)
Lemma ctv_inv Y U m i : (m < M)%nat -> inr s axes i -> rfftn s axes (ctv_x s dsh axes M Cd D S G wtv rho Y U m) i = ctv_xf s dsh axes M Cd D S G wtv rho Y U m i.
Proof.
  intros Hm Hi. unfold ctv_x.
  apply (gen_inv s dsh axes M Cd D S ND Hne Hs ee rho (zz Y U) (fun m => ctv_xf s dsh axes M Cd D S G wtv rho Y U m)); try assumption.
  - intros; apply ee_nn.
  - intros; apply ee_even; assumption.
  - intros; apply zz_herm; assumption.
  - intros; apply ctv_sys; assumption.
Qed.
(** The objective of the x step on a slice. *)
Definition coupling (X : nat -> index -> R) (Z : nat -> nat -> index -> R) (base : index) : R :=
  sumn M (fun m => sumn K (fun j => sqn s axes (fun p => wtv m * conv s axes (Gp j) (X m) p - Z j m p) base) + sqn s axes (fun p => X m p - Z K m p) base).
Lemma coupling_f X Z base : prodn s axes * coupling X Z base =
  rsum s axes (fun i => sumn M (fun m => sumn K (fun j => cabs2 (csub (cmul (ofR (wtv m)) (cmul (Gf s axes G j i) (rfftn s axes (X m) i))) (rfftn s axes (Z j m) i))) + cabs2 (csub (rfftn s axes (X m) i) (rfftn s axes (Z K m) i)))) base.
Proof.
  unfold coupling. rewrite rsum_sumn, <- sumn_scal. apply sumn_ext. intros m _. rewrite rsum_plus, rsum_sumn, Rmult_plus_distr_l, <- sumn_scal. f_equal.
  - apply sumn_ext. intros j _. rewrite (parseval_slice s axes ND Hne Hs). apply rsum_ext_in. intros i Hi _. f_equal. rewrite (hat_sub s axes Hne), (hat_scal s axes Hne), (conv_hat s axes ND Hne Hs) by exact Hi. reflexivity.
  - rewrite (parseval_slice s axes ND Hne Hs). apply rsum_ext. intros i. f_equal. apply (hat_sub s axes Hne).
Qed.
Lemma slice_obj Y U X base : prodn s axes * (datafit s dsh axes M Cd D S X base + rho / 2 * coupling X (fun j m p => Y j m p - U j m p) base) =
  rsum s axes (fun i => fobj M Cd (fun c k => Df s dsh axes D c k i) (ee i) rho (fun c => CscModel.Sf s axes S c i) (fun k => zz Y U k i) (fun k => rfftn s axes (X k) i) +
    rho / 2 * sumn M (fun m => sumn K (fun j => cabs2 (rfftn s axes (fun p => Y j m p - U j m p) i)) + cabs2 (rfftn s axes (fun p => Y K m p - U K m p) i) - cabs2 (zz Y U m i))) base.
Proof.
  rewrite Rmult_plus_distr_l, (datafit_f s dsh axes M Cd D S ND Hne Hs).
  replace (prodn s axes * (rho / 2 * coupling X (fun j m p => Y j m p - U j m p) base)) with (rho / 2 * (prodn s axes * coupling X (fun j m p => Y j m p - U j m p) base)) by ring.
  rewrite coupling_f, <- rsum_scal, <- rsum_plus. apply rsum_ext. intros i. unfold fobj. rewrite !Rplus_assoc. f_equal.
  rewrite (sumn_ext M (fun m => sumn K _ + cabs2 (csub (rfftn s axes (X m) i) _)) (fun m => wtv m * wtv m * TvdModel.GHGf s axes G i * cabs2 (rfftn s axes (X m) i) + cabs2 (csub (rfftn s axes (X m) i) (zz Y U m i)) +
    (sumn K (fun j => cabs2 (rfftn s axes (fun p => Y j m p - U j m p) i)) + cabs2 (rfftn s axes (fun p => Y K m p - U K m p) i) - cabs2 (zz Y U m i)))).
  - rewrite !sumn_plus. unfold ee. rewrite (sumn_ext M (fun m => rho * _ * _) (fun m => rho * (wtv m * wtv m * TvdModel.GHGf s axes G i * cabs2 (rfftn s axes (X m) i)))) by (intros; ring).
    rewrite sumn_scal. unfold Rdiv. ring.
  - intros m _. rewrite GHG_abs. apply (couple K (wtv m) (fun j => Gf s axes G j i) (fun j => rfftn s axes (fun p => Y j m p - U j m p) i) (rfftn s axes (X m) i)).
Qed.
Lemma slice_min Y U X base : let x := ctv_x s dsh axes M Cd D S G wtv rho Y U in let Z := fun j m p => Y j m p - U j m p in
  datafit s dsh axes M Cd D S x base + rho / 2 * coupling x Z base <= datafit s dsh axes M Cd D S X base + rho / 2 * coupling X Z base.
Proof.
  intros x Z. apply (Rmult_le_reg_l (prodn s axes)); [apply prodn_pos; exact Hs|]. unfold Z. rewrite !slice_obj. apply rsum_le; [exact ND|exact Hs|]. intros i Hi _. apply Rplus_le_compat_r.
  apply (gen_min s dsh axes M Cd D S ND Hne Hs ee rho (zz Y U) (fun m => ctv_xf s dsh axes M Cd D S G wtv rho Y U m)); try assumption.
  - intros; apply ee_nn.
  - intros; apply ee_even; assumption.
  - intros; apply zz_herm; assumption.
  - intros; apply ctv_sys; assumption.
Qed.
End xstep.
