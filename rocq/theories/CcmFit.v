(** Lemmas for C80: the fit as a quadratic function of the dictionary, its minimisers with a proximity term, and its gradient. *)
Require Import List Arith Reals Bool Lia Lra FunctionalExtensionality.
Require Import Verif.RVec Verif.Cplx Verif.FftModel Verif.FftProofs Verif.FftInv Verif.FftProps Verif.CscModel Verif.CscSpec Verif.CscProofs Verif.CscProps Verif.CscIterModel Verif.CscIterProofs Verif.CtvFreq.
Require Import Verif.PcnModel Verif.PcnSpec Verif.PcnProofs Verif.CcmModel Verif.CcmSpec Verif.CcmProofs.
Require Verif.CnvrepModel.
Import ListNotations.
Local Open Scope R_scope.

Lemma strong_min0 s dsh axes M Cd D S rho Z (xf : nat -> index -> C) X base : NoDup axes -> axes <> [] -> (forall ax, In ax axes -> (0 < s ax)%nat) -> (0 < Cd)%nat -> 0 < rho ->
  (forall i m, (m < M)%nat -> sys M Cd (fun c k => Df s dsh axes D c k i) (fun _ => rho) (fun k => xf k i) m
      = rhs Cd (fun c k => Df s dsh axes D c k i) rho (fun c => CscModel.Sf s axes S c i) (fun k => rfftn s axes (Z k) i) m) ->
  datafit s dsh axes M Cd D S (fun m => irfftn s axes (xf m)) base + near s axes M rho Z (fun m => irfftn s axes (xf m)) base + near s axes M rho (fun m => irfftn s axes (xf m)) X base <=
  datafit s dsh axes M Cd D S X base + near s axes M rho Z X base.
Proof.
  intros ND Hne Hs HC Hr Hx. destruct (exists_last Hne) as (r & l & E). rewrite E in *.
  pose proof (strong_min s dsh r l M Cd D S QNone ND Hs Logic.I rho Z xf X base Hr) as G. cbv beta zeta in G. cbn [qterm] in G.
  rewrite !Rplus_0_r in G. apply G. intros i m Hm. rewrite <- (Hx i m Hm). unfold sys. f_equal. cbn [ediag]. rewrite Rplus_0_l. reflexivity.
Qed.
Lemma inv_rfft s axes x p : NoDup axes -> axes <> [] -> inr s axes p -> irfftn s axes (rfftn s axes x) p = x p.
Proof.
  intros ND Hne Hp. destruct (exists_last Hne) as (r & l & E). rewrite E in *. apply C28_inverse_real; assumption.
Qed.
Lemma rfftn_lin s axes a f b g i : axes <> [] -> rfftn s axes (fun p => a * f p + b * g p) i = cadd (cmul (ofR a) (rfftn s axes f i)) (cmul (ofR b) (rfftn s axes g i)).
Proof.
  intros Hne. destruct (exists_last Hne) as (r & l & E). rewrite E.
  transitivity (rfftn s (r ++ [l]) (fun p => sumn 2 (fun j => if Nat.eqb j 0 then a * f p else b * g p)) i).
  - apply (f_equal (fun h => rfftn s (r ++ [l]) h i)). extensionality p. cbn [sumn Nat.eqb]. ring.
  - rewrite (rfftn_sumn s r l 2 (fun j p => if Nat.eqb j 0 then a * f p else b * g p)). rewrite !csumn_S, csumn_O. cbn [Nat.eqb]. rewrite !rfftn_fftn.
    rewrite <- (fftn_scal s (r ++ [l]) (ofR a)), <- (fftn_scal s (r ++ [l]) (ofR b)).
    rewrite (f_equal (fun h => fftn s (r ++ [l]) h i) (functional_extensionality (fun p => cmul (ofR a) (ofR (f p))) (fun p => ofR (a * f p)) ltac:(intros; unfold cmul, ofR, re, im; cbn [fst snd]; f_equal; ring))).
    rewrite (f_equal (fun h => fftn s (r ++ [l]) h i) (functional_extensionality (fun p => cmul (ofR b) (ofR (g p))) (fun p => ofR (b * g p)) ltac:(intros; unfold cmul, ofR, re, im; cbn [fst snd]; f_equal; ring))).
    ring.
Qed.
Lemma total_ge s axes f : (forall p, 0 <= f p) -> forall b p, on_slice s axes b p -> f p <= total s axes f b.
Proof.
  intros Hf. induction axes as [|a r IH]; intros b p [H1 H2]; simpl.
  - replace b with p; [apply Rle_refl|]. extensionality a. apply H2. intros [].
  - apply Rle_trans with (total s r f (set_at b a (p a))).
    + apply IH. split; [intros ax Ha; apply H1; right; exact Ha|]. intros ax Ha. unfold set_at. destruct (Nat.eqb_spec ax a) as [->|N]; [reflexivity|]. apply H2. intros [->|Hi]; [apply N; reflexivity|exact (Ha Hi)].
    + apply (sumn_ge_term (s a) (fun j => total s r f (set_at b a j))); [intros; apply total_nonneg; exact Hf|]. apply H1. left. reflexivity.
Qed.

Section fits.
Variables (nv : nat -> nat) (dN Cd M : nat).
Notation axes := (seq 0 dN).
Notation at_cm := (at_cm dN).
Notation filt := (filt dN).
Notation fdot := (fdot nv dN Cd).
Notation same := (same_dict nv dN Cd M).
Notation entry := (entry nv dN Cd M).
Notation ons c m := (on_slice nv axes (at_cm c m)).
Hypothesis HN : (0 < dN)%nat.
Hypothesis Hs : forall a, (a < dN)%nat -> (0 < nv a)%nat.
Variables (K : nat) (zc : nat -> nat -> index -> R) (sg : nat -> index -> R).
Hypothesis HK : (0 < K)%nat.
Definition gfit (d : index -> R) : R := sumn Cd (fun c => datafit nv nv axes M K zc sg (filt d) (at_cm c 0)).
Notation Zq := (fun k m => Df nv nv axes zc k m).
Notation Sq := (fun k => CscModel.Sf nv axes sg k).

Lemma ax_ne : axes <> []. Proof. destruct dN; [lia|discriminate]. Qed.
Lemma ax_pos : forall a, In a axes -> (0 < nv a)%nat. Proof. intros a Ha. apply in_seq in Ha. apply Hs. lia. Qed.
Definition mv (m : nat) (p : index) : index := set_at (set_at p (dN + 1) O) (dN + 2) m.
Lemma filt_mv d m p : filt d m p = d (mv m p). Proof. reflexivity. Qed.
Lemma mv_set a j p m : In a axes -> mv m (set_at p a j) = set_at (mv m p) a j.
Proof. intros Ha. apply in_seq in Ha. unfold mv. rewrite (set_comm p a (dN + 1)), (set_comm _ a (dN + 2)) by lia. reflexivity. Qed.
Lemma mv_base c m : mv m (at_cm c 0) = at_cm c m.
Proof. extensionality a. unfold mv, set_at, CcmSpec.at_cm. destruct (Nat.eqb_spec a (dN + 2)); [destruct (Nat.eqb_spec a dN); [lia|reflexivity]|]. destruct (Nat.eqb_spec a (dN + 1)); [destruct (Nat.eqb_spec a dN); [lia|reflexivity]|]. reflexivity. Qed.
Lemma mv_slice c m p : ons c 0 p -> ons c m (mv m p).
Proof.
  intros [H1 H2]. split; intros a Ha; pose proof Ha as Ha'; rewrite in_seq in Ha; unfold mv, set_at.
  - destruct (Nat.eqb_spec a (dN + 2)); [lia|]. destruct (Nat.eqb_spec a (dN + 1)); [lia|]. apply H1. exact Ha'.
  - unfold CcmSpec.at_cm. destruct (Nat.eqb_spec a (dN + 2)); [destruct (Nat.eqb_spec a dN); [lia|reflexivity]|].
    destruct (Nat.eqb_spec a (dN + 1)); [destruct (Nat.eqb_spec a dN); [lia|reflexivity]|]. rewrite H2 by exact Ha'. unfold CcmSpec.at_cm.
    destruct (Nat.eqb_spec a dN); [reflexivity|]. destruct (Nat.eqb_spec a (dN + 2)); [lia|reflexivity].
Qed.
Lemma off_mv c m p : ons c 0 p -> offKM dN (mv m p) = p.
Proof.
  intros [H1 H2]. extensionality a. unfold offKM, mv, upd, set_at. destruct (Nat.eqb_spec a (dN + 2)) as [E|E]; [|destruct (Nat.eqb_spec a (dN + 1)) as [E'|E'];[|reflexivity]].
  - symmetry. rewrite E. rewrite H2 by (rewrite in_seq; lia). unfold CcmSpec.at_cm. destruct (Nat.eqb_spec (dN + 2) dN); [lia|]. rewrite Nat.eqb_refl. reflexivity.
  - symmetry. rewrite E'. rewrite H2 by (rewrite in_seq; lia). unfold CcmSpec.at_cm. destruct (Nat.eqb_spec (dN + 1) dN); [lia|]. destruct (Nat.eqb_spec (dN + 1) (dN + 2)); [lia|reflexivity].
Qed.
(** Every entry is the image of a position of the channel slice. *)
Lemma entry_mv p : entry p -> exists c m q, (c < Cd)%nat /\ (m < M)%nat /\ ons c 0 q /\ p = mv m q.
Proof.
  intros Hp. apply entry_slice in Hp. destruct Hp as (c & m & Hc & Hm & H1 & H2). exists c, m, (set_at p (dN + 2) O). repeat split; try assumption.
  - intros a Ha. unfold set_at. pose proof Ha as Ha'. apply in_seq in Ha'. destruct (Nat.eqb_spec a (dN + 2)); [lia|apply H1; exact Ha].
  - intros a Ha. unfold set_at. destruct (Nat.eqb_spec a (dN + 2)) as [->|N].
    + unfold CcmSpec.at_cm. destruct (Nat.eqb_spec (dN + 2) dN); [lia|]. rewrite Nat.eqb_refl. reflexivity.
    + rewrite H2 by exact Ha. unfold CcmSpec.at_cm. destruct (Nat.eqb_spec a dN); [reflexivity|]. destruct (Nat.eqb_spec a (dN + 2)); [lia|reflexivity].
  - extensionality a. unfold mv, set_at. destruct (Nat.eqb_spec a (dN + 2)) as [->|N].
    + rewrite H2 by (rewrite in_seq; lia). unfold CcmSpec.at_cm. destruct (Nat.eqb_spec (dN + 2) dN); [lia|]. rewrite Nat.eqb_refl. reflexivity.
    + destruct (Nat.eqb_spec a (dN + 1)) as [->|N1]; [|reflexivity]. rewrite H2 by (rewrite in_seq; lia). unfold CcmSpec.at_cm. destruct (Nat.eqb_spec (dN + 1) dN); [lia|]. destruct (Nat.eqb_spec (dN + 1) (dN + 2)); [lia|reflexivity].
Qed.
Lemma filt_same d d' c : (c < Cd)%nat -> same d d' -> forall m p, (m < M)%nat -> ons c 0 p -> filt d m p = filt d' m p.
Proof. intros Hc E m p Hm Hp. rewrite !filt_mv. apply E. apply (slice_entry nv dN Cd M c m); [exact Hc|exact Hm|]. apply mv_slice. exact Hp. Qed.
Lemma gfit_ext d d' : same d d' -> gfit d = gfit d'.
Proof.
  intros E. apply sumn_ext. intros c Hc. apply datafit_ext; [apply ND0|exact ax_pos|]. intros m p Hm Hp. apply (filt_same d d' c); assumption.
Qed.
Definition sqd (x y : index -> R) : R := sumn M (fun m => fdot (fun p => x p - y p) (fun p => x p - y p) m).
Lemma near_sum rho V X : sumn Cd (fun c => near nv axes M rho (filt V) (filt X) (at_cm c 0)) = rho / 2 * sqd X V.
Proof.
  unfold near, sqd. rewrite sumn_scal. f_equal. rewrite sumn_swap. apply sumn_ext. intros m _. apply sumn_ext. intros c _.
  unfold sqn. rewrite <- (mv_base c m). apply (total_move nv axes (mv m) (fun p => (X p - V p) * (X p - V p))).
  intros a j p Ha. apply mv_set. exact Ha.
Qed.
Definition of_spec (xf : nat -> index -> C) : index -> R := fun p => irfftn nv axes (xf (p (dN + 2)%nat)) (offKM dN p).
Lemma mv_m m p : mv m p (dN + 2)%nat = m. Proof. unfold mv, set_at. rewrite Nat.eqb_refl. reflexivity. Qed.
Lemma filt_spec xf c m p : ons c 0 p -> filt (of_spec xf) m p = irfftn nv axes (xf m) p.
Proof. intros Hp. rewrite filt_mv. unfold of_spec. rewrite mv_m, (off_mv c) by exact Hp. reflexivity. Qed.

(** A spectrum which solves the normal equations gives the strong minimiser. *)
Definition solves_eq (rho : R) (V : index -> R) (xf : nat -> index -> C) : Prop :=
  forall i m, (m < M)%nat -> sys M K (fun c k => Zq c k i) (fun _ => rho) (fun k => xf k i) m = rhs K (fun c k => Zq c k i) rho (fun c => Sq c i) (fun k => rfftn nv axes (filt V k) i) m.
Lemma fit_strong rho V xf X : 0 < rho -> solves_eq rho V xf ->
  gfit (of_spec xf) + rho / 2 * sqd (of_spec xf) V + rho / 2 * sqd X (of_spec xf) <= gfit X + rho / 2 * sqd X V.
Proof.
  intros Hr Hx. rewrite <- !near_sum. unfold gfit. rewrite <- !sumn_plus. apply sumn_le. intros c Hc.
  pose proof (strong_min0 nv nv axes M K zc sg rho (filt V) xf (filt X) (at_cm c 0) (ND0 dN) ax_ne ax_pos HK Hr Hx) as G.
  assert (E : forall m p, (m < M)%nat -> ons c 0 p -> filt (of_spec xf) m p = irfftn nv axes (xf m) p) by (intros m p _ Hp; apply (filt_spec xf c); exact Hp).
  rewrite (datafit_ext nv nv axes M K zc sg (at_cm c 0) (ND0 dN) ax_pos (filt (of_spec xf)) (fun m => irfftn nv axes (xf m)) E).
  rewrite (near_ext nv axes M (at_cm c 0) (ND0 dN) rho (filt V) (filt (of_spec xf)) (fun m => irfftn nv axes (xf m)) E).
  assert (E2 : near nv axes M rho (filt (of_spec xf)) (filt X) (at_cm c 0) = near nv axes M rho (fun m => irfftn nv axes (xf m)) (filt X) (at_cm c 0)).
  { unfold near. f_equal. apply sumn_ext. intros m Hm. unfold sqn. apply total_ext; [apply ND0|]. intros p Hp. rewrite (E m p Hm Hp). reflexivity. }
  rewrite E2. exact G.
Qed.
Definition sdot (x y : index -> R) : R := sumn M (fun m => fdot x y m).
Lemma sdot_lin_l a x b y z : sdot (fun p => a * x p + b * y p) z = a * sdot x z + b * sdot y z.
Proof. unfold sdot. rewrite <- !sumn_scal, <- sumn_plus. apply sumn_ext. intros. apply fdot_lin_l. Qed.
Lemma sdot_lin_r a x b y z : sdot z (fun p => a * x p + b * y p) = a * sdot z x + b * sdot z y.
Proof. unfold sdot. rewrite <- !sumn_scal, <- sumn_plus. apply sumn_ext. intros. apply fdot_lin_r. Qed.
Lemma sdot_sym x y : sdot x y = sdot y x. Proof. apply sumn_ext. intros. apply fdot_sym. Qed.
Lemma sdot_nonneg x : 0 <= sdot x x. Proof. apply sumn_nonneg. intros. apply fdot_nonneg. Qed.
Lemma sdot_ext x x' y y' : same x x' -> same y y' -> sdot x y = sdot x' y'.
Proof. intros. apply sumn_ext. intros m Hm. apply fdot_ext with (M := M); assumption. Qed.
Lemma sub_lin (x y : index -> R) : (fun p => x p - y p) = (fun p => 1 * x p + -1 * y p). Proof. extensionality p. ring. Qed.
Lemma sdot_sub_r z x y : sdot z (fun p => x p - y p) = sdot z x - sdot z y. Proof. rewrite sub_lin, sdot_lin_r. ring. Qed.
Lemma sdot_sub_l z x y : sdot (fun p => x p - y p) z = sdot x z - sdot y z. Proof. rewrite sub_lin, sdot_lin_l. ring. Qed.
Lemma sqd_sdot x y : sqd x y = sdot x x - 2 * sdot x y + sdot y y.
Proof. change (sqd x y) with (sdot (fun p => x p - y p) (fun p => x p - y p)). rewrite sdot_sub_l, !sdot_sub_r, (sdot_sym y x). ring. Qed.
Lemma sdot_zero x : sdot x x = 0 -> same x (fun _ => 0).
Proof.
  intros H p Hp. apply entry_slice in Hp. destruct Hp as (c & m & Hc & Hm & Hp).
  refine (fdot_zero nv dN Cd M x m Hm _ c p Hc Hp).
  apply (sumn_nonneg_0 M (fun m => fdot x x m)); [intros; apply fdot_nonneg|exact H|exact Hm].
Qed.
(** The solver's output is the previous dictionary exactly when the dual variable is a multiple of the gradient. *)
Lemma fixed_iff rho Y U xf : 0 < rho -> solves_eq rho (fun p => Y p - U p) xf ->
  (same (of_spec xf) Y <-> forall X, gfit Y - rho * sdot U (fun p => X p - Y p) <= gfit X).
Proof.
  intros Hr Hx. split.
  - intros E X. pose proof (fit_strong rho _ xf X Hr Hx) as G. rewrite (gfit_ext _ _ E), !sqd_sdot in G.
    rewrite !sdot_sub_l, !sdot_sub_r in G. rewrite sdot_sub_r.
    assert (Rf : forall f : index -> R, same f f) by (intros f p _; reflexivity).
    rewrite (sdot_ext (of_spec xf) Y (of_spec xf) Y E E), !(sdot_ext (of_spec xf) Y _ _ E (Rf _)), !(sdot_ext X X (of_spec xf) Y (Rf X) E) in G.
    rewrite (sdot_sym U Y), (sdot_sym U X). nra.
  - intros H. pose proof (fit_strong rho _ xf Y Hr Hx) as G. pose proof (H (of_spec xf)) as Hx1. rewrite !sqd_sdot in G. rewrite sdot_sub_r in Hx1.
    rewrite !sdot_sub_l, !sdot_sub_r in G. set (x := of_spec xf) in *. rewrite (sdot_sym U Y) in *. rewrite (sdot_sym U x), ?(sdot_sym x Y) in *.
    assert (Z : sdot (fun p => x p - Y p) (fun p => x p - Y p) = 0).
    { pose proof (sdot_nonneg (fun p => x p - Y p)) as N. rewrite sdot_sub_l, !sdot_sub_r, ?(sdot_sym x Y) in *. apply Rle_antisym; [|exact N].
      apply (Rmult_le_reg_l rho); [exact Hr|]. nra. }
    intros p Hp. pose proof (sdot_zero _ Z p Hp) as E. cbv beta in E. lra.
Qed.

(** The gradient. *)
Definition gq (Y : index -> R) (m : nat) (i : index) : C :=
  csumn K (fun k => cmul (conj (Zq k m i)) (csub (csumn M (fun j => cmul (Zq k j i) (rfftn nv axes (filt Y j) i))) (Sq k i))).
Definition gs (Y : index -> R) : index -> R := of_spec (gq Y).
Lemma rf_herm x i : inr nv axes i -> rfftn nv axes x (neg nv axes i) = conj (rfftn nv axes x i).
Proof.
  intros Hi. destruct (exists_last ax_ne) as (r & l & E). pose proof (ND0 dN) as N. rewrite E in *. apply rfftn_hermitian; assumption.
Qed.
Lemma gq_herm Y m : hermitian_nd nv axes (gq Y m).
Proof.
  intros i Hi. unfold gq. rewrite csumn_conj. apply csumn_ext. intros k _. unfold Df. rewrite !conj_mul, (rf_herm _ i Hi). f_equal.
  unfold CscModel.Sf. rewrite (rf_herm _ i Hi).
  assert (E : csumn M (fun j => cmul (rfftn nv axes (padR nv axes (zc k j)) (neg nv axes i)) (rfftn nv axes (filt Y j) (neg nv axes i))) = conj (csumn M (fun j => cmul (rfftn nv axes (padR nv axes (zc k j)) i) (rfftn nv axes (filt Y j) i)))).
  { rewrite csumn_conj. apply csumn_ext. intros j _. rewrite !(rf_herm _ i Hi), conj_mul. reflexivity. }
  rewrite E. set (a := csumn M _). set (b := rfftn nv axes (sg k) i). unfold csub, conj, cadd, copp, re, im. cbn [fst snd]. f_equal; ring.
Qed.
Lemma spec_back h c m i : hermitian_nd nv axes (h m) -> ons c 0 i -> rfftn nv axes (filt (of_spec h) m) i = h m i.
Proof.
  intros Hh Hi. rewrite (rfftn_slice nv axes _ (irfftn nv axes (h m)) i ax_ne).
  - destruct (exists_last ax_ne) as (r & l & E). pose proof (ND0 dN) as N. pose proof ax_pos as P. destruct Hi as [H1 _]. rewrite E in *. apply rfftn_irfftn; assumption.
  - intros p [H1 H2]. apply (filt_spec h c). destruct Hi as [H3 H4]. split; [exact H1|]. intros a Ha. rewrite H2 by exact Ha. apply H4. exact Ha.
Qed.
Lemma slice_trans c q i : ons c 0 q -> on_slice nv axes q i -> ons c 0 i.
Proof. intros [H1 H2] [H3 H4]. split; [exact H3|]. intros a Ha. rewrite H4 by exact Ha. apply H2. exact Ha. Qed.
Lemma self_slice c q : ons c 0 q -> on_slice nv axes q q.
Proof. intros [H1 _]. split; [exact H1|reflexivity]. Qed.
(** Recovering an array from a spectrum which agrees with its own. *)
Lemma same_spec h Y : (forall c m i, (m < M)%nat -> (c < Cd)%nat -> ons c 0 i -> h m i = rfftn nv axes (filt Y m) i) -> same (of_spec h) Y.
Proof.
  intros H p Hp. destruct (entry_mv p Hp) as (c & m & q & Hc & Hm & Hq & ->). rewrite <- !filt_mv, (filt_spec h c) by exact Hq.
  rewrite (irfftn_slice nv axes (h m) (rfftn nv axes (filt Y m)) q (ND0 dN) ax_ne (self_slice c q Hq)).
  - apply inv_rfft; [apply ND0|apply ax_ne|exact (proj1 Hq)].
  - intros i Hi. apply (H c); [exact Hm|exact Hc|]. apply (slice_trans c q); assumption.
Qed.
Definition isol (rho : R) (V : index -> R) (m : nat) (i : index) : C :=
  mdbi_ism M K (fun k m => Zq k m i) (fun _ => rho) (rhs K (fun c k => Zq c k i) rho (fun c => Sq c i) (fun k => rfftn nv axes (filt V k) i)) m.
Lemma isol_solves rho V : 0 < rho -> solves_eq rho V (isol rho V).
Proof. intros Hr i m Hm. apply (ism_sys M (fun _ => rho) (fun _ _ => Hr) K (fun k m => Zq k m i)); assumption. Qed.
Lemma gfit_grad Y X : gfit Y + sdot (gs Y) (fun p => X p - Y p) <= gfit X.
Proof.
  set (U := fun p => - gs Y p). pose proof (isol_solves 1 (fun p => Y p - U p) Rlt_0_1) as Hx.
  assert (E : same (of_spec (isol 1 (fun p => Y p - U p))) Y).
  { apply same_spec. intros c m i Hm Hc Hi.
    apply (sys_unique M K (fun c k => Zq c k i) (fun _ => 0) 1 (fun c => Sq c i) (fun k => rfftn nv axes (filt (fun p => Y p - U p) k) i)
      (fun k => isol 1 (fun p => Y p - U p) k i) (fun k => rfftn nv axes (filt Y k) i)); [intros; lra|lra| | |exact Hm].
    - intros k Hk. etransitivity; [|exact (Hx i k Hk)]. unfold sys. rewrite Rplus_0_l. reflexivity.
    - intros k Hk. unfold sys, rhs. rewrite Rplus_0_l.
      assert (EV : rfftn nv axes (filt (fun p => Y p - U p) k) i = cadd (rfftn nv axes (filt Y k) i) (gq Y k i)).
      { transitivity (rfftn nv axes (fun p => 1 * filt Y k p + 1 * filt (gs Y) k p) i).
        - apply (f_equal (fun h => rfftn nv axes h i)). extensionality p. unfold U. rewrite !filt_mv. ring.
        - rewrite rfftn_lin by apply ax_ne. unfold gs. rewrite (spec_back (gq Y) c k i (gq_herm Y k) Hi). change (ofR 1) with c1. ring. }
      rewrite EV. unfold gq, app. rewrite (csumn_ext K (fun k0 => cmul (conj (Zq k0 k i)) (csub _ _)) (fun k0 => csub (cmul (conj (Zq k0 k i)) (csumn M (fun j => cmul (Zq k0 j i) (rfftn nv axes (filt Y j) i)))) (cmul (conj (Zq k0 k i)) (Sq k0 i)))) by (intros; ring).
      rewrite csumn_sub. change (ofR 1) with c1. ring. }
  pose proof (proj1 (fixed_iff 1 Y U _ Rlt_0_1 Hx) E X) as G.
  assert (EU : sdot U (fun p => X p - Y p) = - sdot (gs Y) (fun p => X p - Y p)).
  { replace U with (fun p => -1 * gs Y p + 0 * Y p) by (extensionality p; unfold U; ring). rewrite sdot_lin_l. ring. }
  rewrite EU in G. lra.
Qed.
(** Expansion along a line. *)
Lemma synth_line Y z t k p : synth nv nv axes M zc (filt (fun p => Y p + t * z p)) k p = synth nv nv axes M zc (filt Y) k p + t * synth nv nv axes M zc (filt z) k p.
Proof.
  unfold synth. rewrite <- sumn_scal, <- sumn_plus. apply sumn_ext. intros m _. unfold conv.
  rewrite <- (Rmult_1_l (total nv axes (fun k0 => _ * filt Y m _) p)), <- total_lin. f_equal. extensionality q. rewrite !filt_mv. ring.
Qed.
Definition gfit0 (z : index -> R) : R := sumn Cd (fun c => datafit nv nv axes M K zc (fun _ _ => 0) (filt z) (at_cm c 0)).
Lemma gfit0_nonneg z : 0 <= gfit0 z.
Proof. apply sumn_nonneg. intros. apply Rmult_le_pos; [lra|]. apply sumn_nonneg. intros. apply total_nonneg. intros. nra. Qed.
Lemma gfit_line Y z : exists A, forall t, gfit (fun p => Y p + t * z p) = gfit Y + t * A + t * t * gfit0 z.
Proof.
  set (a := fun k p => synth nv nv axes M zc (filt Y) k p - sg k p). set (b := fun k p => synth nv nv axes M zc (filt z) k p - 0).
  exists (sumn Cd (fun c => / 2 * sumn K (fun k => 2 * total nv axes (fun p => a k p * b k p) (at_cm c 0)))).
  - intros t. unfold gfit0, gfit, datafit. rewrite <- !sumn_scal, <- !sumn_plus. apply sumn_ext. intros c _.
    set (u := sumn K _). set (v := sumn K (fun k => sqn _ _ (fun p => _ - sg k p) _)). set (w := sumn K (fun k => 2 * _)). set (x := sumn K (fun k => sqn _ _ (fun p => _ - 0) _)).
    assert (E : u = v + t * w + t * t * x); [|rewrite E; ring]. unfold u, v, w, x. rewrite <- !sumn_scal, <- !sumn_plus. apply sumn_ext. intros k _. unfold sqn.
    set (T1 := total nv axes (fun p => a k p * b k p) _). set (T2 := total nv axes (fun p => (_ - 0) * (_ - 0)) _). set (T0 := total nv axes (fun p => (synth nv nv axes M zc (filt Y) k p - sg k p) * _) _).
    transitivity (1 * T0 + 1 * (2 * t * T1 + t * t * T2)); [|ring]. unfold T0, T1, T2. rewrite <- !total_lin. f_equal. extensionality p. rewrite synth_line. unfold a, b. ring.
Qed.
(** Linear lower bounds on a line through [Y] have the same slope. *)
Lemma slope_unique Y z l1 l2 : (forall t, gfit Y + t * l1 <= gfit (fun p => Y p + t * z p)) -> (forall t, gfit Y + t * l2 <= gfit (fun p => Y p + t * z p)) -> l1 = l2.
Proof.
  intros H1 H2. destruct (gfit_line Y z) as (A & E). pose proof (gfit0_nonneg z) as HB. set (B := gfit0 z) in *.
  assert (Q : forall l, (forall t, gfit Y + t * l <= gfit (fun p => Y p + t * z p)) -> l = A).
  { intros l H. assert (P : forall t, 0 <= t * (A - l) + t * t * B) by (intros t; specialize (H t); rewrite E in H; lra).
    set (e := A - l) in *. assert (e = 0); [|unfold e in *; lra].
    pose proof (P (- e / (2 * B + 1))) as P1.
    assert (E1 : - e / (2 * B + 1) * e + - e / (2 * B + 1) * (- e / (2 * B + 1)) * B = - (e * e) * (B + 1) / ((2 * B + 1) * (2 * B + 1))) by (field; lra).
    rewrite E1 in P1. assert (D : 0 < (2 * B + 1) * (2 * B + 1)) by nra.
    apply (Rmult_le_compat_r _ _ _ (Rlt_le _ _ D)) in P1. unfold Rdiv in P1. rewrite Rmult_assoc, Rinv_l, Rmult_1_r, Rmult_0_l in P1 by lra. pose proof (Rle_0_sqr e) as Q. unfold Rsqr in Q. nra. }
  rewrite (Q l1 H1), (Q l2 H2). reflexivity.
Qed.
Lemma gs_line Y z t : gfit Y + t * sdot (gs Y) z <= gfit (fun p => Y p + t * z p).
Proof.
  pose proof (gfit_grad Y (fun p => Y p + t * z p)) as G.
  assert (E : sdot (gs Y) (fun p => Y p + t * z p - Y p) = t * sdot (gs Y) z).
  { transitivity (sdot (gs Y) (fun p => t * z p + 0 * z p)); [f_equal; extensionality p; ring|]. rewrite sdot_lin_r. ring. }
  rewrite <- E. exact G.
Qed.
Lemma gfit_exact Y z : gfit (fun p => Y p + z p) = gfit Y + sdot (gs Y) z + gfit0 z.
Proof.
  destruct (gfit_line Y z) as (A & E). assert (EA : A = sdot (gs Y) z).
  { apply (slope_unique Y z); [|apply gs_line]. intros t. rewrite E. pose proof (gfit0_nonneg z). pose proof (Rle_0_sqr t) as Q. unfold Rsqr in Q. nra. }
  specialize (E 1). rewrite EA in E. replace (fun p => Y p + 1 * z p) with (fun p => Y p + z p) in E by (extensionality p; ring). rewrite E. ring.
Qed.
(** The curvature is bounded. *)
Lemma total_abs f : forall p, Rabs (total nv axes f p) <= total nv axes (fun q => Rabs (f q)) p.
Proof.
  generalize axes. intros L. induction L as [|a L IH]; intros p; simpl; [apply Rle_refl|]. eapply Rle_trans; [apply sumn_abs|]. apply sumn_le. intros. apply IH.
Qed.
Lemma total_mono f g b : (forall p, ons b 0 p -> f p <= g p) -> total nv axes f (at_cm b 0) <= total nv axes g (at_cm b 0).
Proof.
  intros H. assert (E : total nv axes (fun p => 1 * g p + -1 * f p) (at_cm b 0) = total nv axes (fun p => Rabs (1 * g p + -1 * f p)) (at_cm b 0)).
  { apply total_ext; [apply ND0|]. intros p Hp. specialize (H p Hp). rewrite Rabs_pos_eq; lra. }
  rewrite total_lin in E. pose proof (total_nonneg nv axes (fun p => Rabs (1 * g p + -1 * f p)) ltac:(intros; apply Rabs_pos) (at_cm b 0)). lra.
Qed.
Lemma entry_bound z p : entry p -> z p * z p <= sdot z z.
Proof.
  intros Hp. apply entry_slice in Hp. destruct Hp as (c & m & Hc & Hm & Hp).
  apply Rle_trans with (fdot z z m); [|apply (sumn_ge_term M (fun m => fdot z z m)); [intros; apply fdot_nonneg|exact Hm]].
  apply Rle_trans with (total nv axes (fun p => z p * z p) (at_cm c m)).
  - apply (total_ge nv axes (fun p => z p * z p)); [intros; nra|exact Hp].
  - apply (sumn_ge_term Cd (fun c => total nv axes (fun p => z p * z p) (at_cm c m))); [intros; apply total_nonneg; intros; nra|exact Hc].
Qed.
Definition zabs (k : nat) (p : index) : R := sumn M (fun m => total nv axes (fun q => Rabs (ext nv axes (zc k m) q)) p).
Definition curv : R := 1 + sumn Cd (fun c => sumn K (fun k => total nv axes (fun p => zabs k p * zabs k p) (at_cm c 0))).
Lemma synth_bound z c k p : (c < Cd)%nat -> ons c 0 p -> Rabs (synth nv nv axes M zc (filt z) k p) <= zabs k p * sqrt (sdot z z).
Proof.
  intros Hc Hp. unfold synth, zabs. eapply Rle_trans; [apply sumn_abs|]. rewrite <- sumn_scal_r. apply sumn_le. intros m Hm. unfold conv.
  eapply Rle_trans; [apply total_abs|].
  assert (T : forall f g q, (forall q, f q <= g q) -> total nv axes f q <= total nv axes g q).
  { generalize axes. intros L f g. induction L as [|a L IH]; intros q H; simpl; [apply H|]. apply sumn_le. intros. apply IH. exact H. }
  eapply Rle_trans; [apply T with (g := fun q => sqrt (sdot z z) * Rabs (ext nv axes (zc k m) q) + 0 * 0)|].
  - intros q. rewrite Rabs_mult, (Rmult_comm (Rabs (ext _ _ _ _))), Rmult_0_l, Rplus_0_r. apply Rmult_le_compat_r; [apply Rabs_pos|]. rewrite <- sqrt_Rsqr_abs. apply sqrt_le_1_alt. unfold Rsqr. rewrite !filt_mv. apply entry_bound.
    apply (slice_entry nv dN Cd M c m); [exact Hc|exact Hm|]. apply mv_slice. apply (minus_slice nv axes (at_cm c 0) ax_pos). exact Hp.
  - rewrite total_lin. lra.
Qed.
Lemma curv_pos : 0 < curv.
Proof. unfold curv. assert (0 <= sumn Cd (fun c => sumn K (fun k => total nv axes (fun p => zabs k p * zabs k p) (at_cm c 0)))); [|lra]. apply sumn_nonneg. intros. apply sumn_nonneg. intros. apply total_nonneg. intros. nra. Qed.
Lemma curv_bound z : gfit0 z <= curv / 2 * sdot z z.
Proof.
  pose proof (sdot_nonneg z) as N. apply Rle_trans with (/ 2 * (curv - 1) * sdot z z); [|nra]. unfold curv. set (x := sumn Cd _). replace (1 + x - 1) with x by ring. unfold x.
  unfold gfit0, datafit. rewrite sumn_scal, Rmult_assoc. apply Rmult_le_compat_l; [lra|]. rewrite <- sumn_scal_r. apply sumn_le. intros c Hc. rewrite <- sumn_scal_r. apply sumn_le. intros k _. unfold sqn.
  apply Rle_trans with (total nv axes (fun p => sdot z z * (zabs k p * zabs k p) + 0 * 0) (at_cm c 0)); [|rewrite total_lin; lra].
  apply total_mono. intros p Hp. pose proof (synth_bound z c k p Hc Hp) as B. pose proof (sqrt_sqrt _ N) as Q. set (s := synth nv nv axes M zc (filt z) k p) in *. set (w := sqrt (sdot z z)) in *. rewrite <- Q.
  rewrite Rmult_0_l, Rplus_0_r, Rminus_0_r. replace (s * s) with (Rabs s * Rabs s) by (rewrite <- Rabs_mult; apply Rabs_pos_eq; nra).
  replace (w * w * (zabs k p * zabs k p)) with ((zabs k p * w) * (zabs k p * w)) by ring. apply Rmult_le_compat; try apply Rabs_pos; exact B.
Qed.
End fits.
