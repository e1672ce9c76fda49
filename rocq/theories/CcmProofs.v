(** Lemmas for C80: entries of dictionary arrays, and the constraint function as a map with the properties of a projection. *)
Require Import List Arith Reals Bool Lia Lra FunctionalExtensionality.
Require Import Verif.RVec Verif.Cplx Verif.FftModel Verif.FftProofs Verif.FftInv Verif.CscModel Verif.CscSpec Verif.CscProofs Verif.CscProps Verif.CscIterModel Verif.CscIterProofs.
Require Import Verif.PcnModel Verif.PcnSpec Verif.PcnProofs Verif.PcnProps Verif.CcmModel Verif.CcmSpec.
Require Verif.CnvrepModel.
Import ListNotations.
Local Open Scope R_scope.

Lemma total_move s axes (phi : pos -> pos) g : (forall a j p, In a axes -> phi (set_at p a j) = set_at (phi p) a j) -> forall b, total s axes (fun p => g (phi p)) b = total s axes g (phi b).
Proof.
  induction axes as [|a r IH]; intros H b; simpl; [reflexivity|]. apply sumn_ext. intros j _. rewrite IH by (intros; apply H; right; assumption).
  rewrite H by (left; reflexivity). reflexivity.
Qed.
Lemma total_nonneg s axes f : (forall p, 0 <= f p) -> forall b, 0 <= total s axes f b.
Proof. intros H. induction axes as [|a r IH]; intros b; simpl; [apply H|]. apply sumn_nonneg. intros. apply IH. Qed.
Lemma total_sq0 s axes f : NoDup axes -> forall b, total s axes (fun p => f p * f p) b = 0 -> forall p, on_slice s axes b p -> f p = 0.
Proof. intros ND b H p [H1 H2]. rewrite total_rsum in H. apply (rsum_sq_0 s axes f b H p H1 H2). Qed.
Lemma set_comm p a b j k : a <> b -> set_at (set_at p a j) b k = set_at (set_at p b k) a j.
Proof. intros N. extensionality x. unfold set_at. destruct (Nat.eqb_spec x b), (Nat.eqb_spec x a); subst; congruence. Qed.

Section entries.
Variables (nv : nat -> nat) (dN Cd K M : nat) (dsz : CnvrepModel.dsize) (zm : bool) (Z S : index -> R).
Notation axes := (seq 0 dN).
Notation at_cm := (at_cm dN).
Notation fdot := (fdot nv dN Cd).
Notation entry := (entry nv dN Cd M).
Notation ons c m := (on_slice nv axes (at_cm c m)).

Lemma ND0 : NoDup axes. Proof. apply seq_NoDup. Qed.
Lemma entry_slice p : entry p <-> exists c m, (c < Cd)%nat /\ (m < M)%nat /\ ons c m p.
Proof.
  split; intros (c & m & Hc & Hm & H1 & H2); exists c, m; repeat split; try assumption.
  - intros a Ha. apply in_seq in Ha. apply H1. lia.
  - intros a Ha. apply H2. rewrite in_seq in Ha. lia.
  - intros a Ha. apply H1. apply in_seq. lia.
  - intros a Ha. apply H2. rewrite in_seq. lia.
Qed.
Lemma slice_entry c m p : (c < Cd)%nat -> (m < M)%nat -> ons c m p -> entry p.
Proof. intros. apply entry_slice. exists c, m. auto. Qed.
Lemma fdot_ext x y x' y' m : (m < M)%nat -> same_dict nv dN Cd M x x' -> same_dict nv dN Cd M y y' -> fdot x y m = fdot x' y' m.
Proof.
  intros Hm Hx Hy. apply sumn_ext. intros c Hc. apply total_ext; [apply ND0|]. intros p Hp. rewrite (Hx p), (Hy p) by (apply (slice_entry c m); assumption). reflexivity.
Qed.
Lemma fdot_lin_l a x b y z m : fdot (fun p => a * x p + b * y p) z m = a * fdot x z m + b * fdot y z m.
Proof.
  unfold CcmSpec.fdot. rewrite <- !sumn_scal, <- sumn_plus. apply sumn_ext. intros c _. rewrite <- total_lin. f_equal. extensionality p. ring.
Qed.
Lemma fdot_sym x y m : fdot x y m = fdot y x m.
Proof. unfold CcmSpec.fdot. apply sumn_ext. intros c _. f_equal. extensionality p. ring. Qed.
Lemma fdot_lin_r a x b y z m : fdot z (fun p => a * x p + b * y p) m = a * fdot z x m + b * fdot z y m.
Proof. rewrite fdot_sym, fdot_lin_l, !(fdot_sym z). reflexivity. Qed.
Lemma fdot_nonneg x m : 0 <= fdot x x m.
Proof. apply sumn_nonneg. intros. apply total_nonneg. intros. nra. Qed.
Lemma fdot_zero x m : (m < M)%nat -> fdot x x m = 0 -> forall c p, (c < Cd)%nat -> ons c m p -> x p = 0.
Proof.
  intros Hm H c p Hc Hp. apply (total_sq0 nv axes x ND0 (at_cm c m)); [|exact Hp].
  assert (N : forall c, (c < Cd)%nat -> 0 <= total nv axes (fun p => x p * x p) (at_cm c m)) by (intros; apply total_nonneg; intros; nra).
  pose proof (sumn_ge_term Cd _ c N Hc) as G. cbv beta in G. unfold CcmSpec.fdot, spat in H. rewrite H in G. specialize (N c Hc). lra.
Qed.
Lemma fdot_cauchy x y m : fdot x y m * fdot x y m <= fdot x x m * fdot y y m.
Proof.
  assert (Q : forall t, 0 <= fdot x x m + 2 * t * fdot x y m + t * t * fdot y y m).
  { intros t. pose proof (fdot_nonneg (fun p => 1 * x p + t * y p) m) as N. rewrite fdot_lin_l, !fdot_lin_r in N. rewrite (fdot_sym y x) in N. lra. }
  pose proof (fdot_nonneg y m) as Ny. destruct (Req_dec (fdot y y m) 0) as [E|E].
  - destruct (Req_dec (fdot x y m) 0) as [E0|E0]; [rewrite E0, E; lra|]. exfalso.
    specialize (Q (- (fdot x x m + 1) / (2 * fdot x y m))). rewrite E in Q. replace (2 * (- (fdot x x m + 1) / (2 * fdot x y m)) * fdot x y m) with (- (fdot x x m + 1)) in Q by (field; lra). lra.
  - specialize (Q (- fdot x y m / fdot y y m)). set (a := fdot x y m) in *. set (b := fdot y y m) in *.
    replace (fdot x x m + 2 * (- a / b) * a + - a / b * (- a / b) * b) with (fdot x x m - a * a / b) in Q by (field; exact E).
    assert (0 < b) by lra. assert (a * a / b * b = a * a) by (field; exact E). nra.
Qed.

(** ** Dictionaries extended by zero *)
Definition inb (p : index) : bool := (in_spat dN nv p && (Nat.ltb (p dN) Cd && (Nat.eqb (p (dN + 1)%nat) 0 && Nat.ltb (p (dN + 2)%nat) M)))%bool.
Definition cut (p : index) : index := fun a => if Nat.leb a (dN + 2) then p a else O.
Definition trunc (y : index -> R) (p : index) : R := if inb p then y (cut p) else 0.
Lemma entry_inb p : entry p -> inb p = true /\ cut p = p.
Proof.
  intros (c & m & Hc & Hm & H1 & H2). assert (E0 : p dN = c) by (rewrite H2 by lia; unfold CcmSpec.at_cm; rewrite Nat.eqb_refl; reflexivity).
  assert (E1 : p (dN + 1)%nat = O) by (rewrite H2 by lia; unfold CcmSpec.at_cm; destruct (Nat.eqb_spec (dN + 1) dN), (Nat.eqb_spec (dN + 1) (dN + 2)); try lia).
  assert (E2 : p (dN + 2)%nat = m) by (rewrite H2 by lia; unfold CcmSpec.at_cm; destruct (Nat.eqb_spec (dN + 2) dN); [lia|]; rewrite Nat.eqb_refl; reflexivity).
  split.
  - unfold inb. rewrite E0, E1, E2. rewrite !andb_true_iff, !Nat.ltb_lt. repeat split; try assumption. apply in_spat_iff. intros a Ha. apply in_seq in Ha. apply H1. lia.
  - extensionality a. unfold cut. destruct (Nat.leb_spec a (dN + 2)); [reflexivity|]. rewrite H2 by lia. unfold CcmSpec.at_cm. destruct (Nat.eqb_spec a dN), (Nat.eqb_spec a (dN + 2)); try lia.
Qed.
Lemma inb_entry p : inb p = true -> entry (cut p).
Proof.
  unfold inb. rewrite !andb_true_iff, !Nat.ltb_lt. intros (H1 & H2 & H3 & H4). apply Nat.eqb_eq in H3. exists (p dN), (p (dN + 2)%nat). repeat split; try assumption.
  - intros a Ha. unfold cut. destruct (Nat.leb_spec a (dN + 2)); [|lia]. rewrite in_spat_iff in H1. apply H1. apply in_seq. lia.
  - intros a Ha. unfold cut, CcmSpec.at_cm. destruct (Nat.leb_spec a (dN + 2)), (Nat.eqb_spec a dN), (Nat.eqb_spec a (dN + 2)); subst; try lia; try reflexivity. assert (a = dN + 1)%nat by lia. subst. exact H3.
Qed.
Lemma trunc_same y : same_dict nv dN Cd M (trunc y) y.
Proof. intros p Hp. destruct (entry_inb p Hp) as [E1 E2]. unfold trunc. rewrite E1, E2. reflexivity. Qed.
Lemma support_ext p q : (forall a, (a <= dN + 2)%nat -> p a = q a) -> support dsz dN p = support dsz dN q.
Proof.
  intros H. unfold support. induction (boxes dN dsz) as [|b l IH]; [reflexivity|]. cbn [existsb]. rewrite IH. f_equal. unfold in_box, sel. rewrite !H by lia. f_equal.
  unfold in_spat. assert (G : forall l, (forall a, In a l -> (a < dN)%nat) -> forallb (fun i => Nat.ltb (p i) (bsz b i)) l = forallb (fun i => Nat.ltb (q i) (bsz b i)) l).
  { induction l0 as [|a r IHr]; intros Hl; [reflexivity|]. cbn [forallb]. rewrite IHr by (intros; apply Hl; right; assumption). rewrite H by (pose proof (Hl a (or_introl eq_refl)); lia). reflexivity. }
  apply G. intros a Ha. apply in_seq in Ha. lia.
Qed.

Notation sh := (dshape nv dN Cd M).
Lemma sh_spat a : (a < dN)%nat -> sh a = nv a. Proof. intros H. unfold dshape. apply Nat.ltb_lt in H. rewrite H. reflexivity. Qed.
Lemma rsum_sh f b : rsum sh axes f b = rsum nv axes f b.
Proof.
  assert (G : forall l, (forall a, In a l -> (a < dN)%nat) -> forall b, rsum sh l f b = rsum nv l f b).
  { induction l as [|a r IH]; intros Hl b0; [reflexivity|]. cbn [rsum]. rewrite sh_spat by (apply Hl; left; reflexivity). apply sumn_ext. intros. apply IH. intros; apply Hl; right; assumption. }
  apply G. intros a Ha. apply in_seq in Ha. lia.
Qed.
Lemma trunc_feas y : lin_ok nv dN Cd M dsz zm y -> feas dsz dN sh zm (trunc y).
Proof.
  intros [H1 H2]. split.
  - intros k Hk. unfold trunc. destruct (inb k) eqn:E; [|reflexivity]. apply H1; [apply inb_entry; exact E|]. apply support_false. rewrite <- Hk. apply support_ext.
    intros a Ha. unfold cut. destruct (Nat.leb_spec a (dN + 2)); [reflexivity|lia].
  - intros Ez k. rewrite rsum_sh. destruct (Nat.ltb (k dN) Cd && (Nat.eqb (k (dN + 1)%nat) 0 && Nat.ltb (k (dN + 2)%nat) M))%bool eqn:E.
    + rewrite (rsum_ext_in nv axes _ (fun p => y (cut p))).
      * rewrite <- total_rsum. rewrite (total_move nv axes cut y).
        -- rewrite !andb_true_iff, !Nat.ltb_lt in E. destruct E as (E1 & E2 & E3). apply Nat.eqb_eq in E2. rewrite <- (H2 Ez (k dN) (k (dN + 2)%nat) E1 E3). rewrite !total_rsum. apply rsum_base.
           intros a Ha. unfold spat in Ha. rewrite in_seq in Ha. unfold cut, CcmSpec.at_cm. destruct (Nat.leb_spec a (dN + 2)), (Nat.eqb_spec a dN), (Nat.eqb_spec a (dN + 2)); subst; try lia; try reflexivity. assert (a = dN + 1)%nat by lia. subst. exact E2.
        -- intros a j p Ha. apply in_seq in Ha. extensionality x. unfold cut, set_at. destruct (Nat.leb_spec x (dN + 2)), (Nat.eqb_spec x a); try reflexivity; lia.
      * intros p Hp Ho. unfold trunc, inb. rewrite !Ho by (rewrite in_seq; lia). rewrite E. replace (in_spat dN nv p) with true; [reflexivity|]. symmetry. apply in_spat_iff. exact Hp.
    + apply rsum_0. intros p _ Ho. unfold trunc, inb. rewrite !Ho by (rewrite in_seq; lia). rewrite E, andb_false_r. reflexivity.
Qed.
Lemma lin_of_feas y : feas dsz dN sh zm y -> lin_ok nv dN Cd M dsz zm y.
Proof.
  intros [H1 H2]. split; [intros p _ Hp; apply H1; apply support_false; exact Hp|]. intros Ez c m _ _. specialize (H2 Ez (at_cm c m)). rewrite rsum_sh, <- total_rsum in H2. exact H2.
Qed.
Lemma lin_same y y' : same_dict nv dN Cd M y y' -> lin_ok nv dN Cd M dsz zm y -> lin_ok nv dN Cd M dsz zm y'.
Proof.
  intros E [H1 H2]. split; [intros p Hp Hf; rewrite <- (E p Hp); apply H1; assumption|]. intros Ez c m Hc Hm. etransitivity; [|exact (H2 Ez c m Hc Hm)]. apply total_ext; [apply ND0|].
  intros p Hp. symmetry. apply E. apply (slice_entry c m); assumption.
Qed.
Lemma lin_lin a x b y : lin_ok nv dN Cd M dsz zm x -> lin_ok nv dN Cd M dsz zm y -> lin_ok nv dN Cd M dsz zm (fun p => a * x p + b * y p).
Proof.
  intros [X1 X2] [Y1 Y2]. split; [intros p Hp Hf; rewrite X1, Y1 by assumption; ring|]. intros Ez c m Hc Hm. unfold spat. rewrite total_lin.
  fold (spat dN). rewrite (X2 Ez c m Hc Hm), (Y2 Ez c m Hc Hm). ring.
Qed.

Section projection.
Variable dC : nat.
Hypothesis HdC : dC = 1%nat \/ (dC = 0%nat /\ Cd = 1%nat).
Hypothesis HF : fits dN nv dsz.
Hypothesis HV : zm = false \/ dN = 2%nat.
Notation A := (seq 0 (dN + dC)).
Lemma fdot_rsum x y m : fdot x y m = rsum sh A (fun k => x k * y k) (at_cm 0 m).
Proof.
  rewrite rsum_fibers. destruct HdC as [E0|[E0 E1]]; rewrite E0 in *.
  - cbn [seq rsum]. assert (E : sh dN = Cd) by (unfold dshape; rewrite Nat.ltb_irrefl, Nat.eqb_refl; reflexivity). rewrite E. apply sumn_ext. intros c _. rewrite rsum_sh, total_rsum. apply rsum_base.
    intros a Ha. unfold upd, CcmSpec.at_cm. destruct (Nat.eqb_spec a dN); reflexivity.
  - cbn [seq rsum]. unfold CcmSpec.fdot. rewrite rsum_sh, <- total_rsum. assert (T : forall f, sumn Cd f = f O) by (intros f; rewrite E1; cbn [sumn]; ring). rewrite T. reflexivity.
Qed.
Lemma full_sh x : full_shape dN nv (mkArr sh x) = sh.
Proof. extensionality a. unfold full_shape. cbn [shp]. destruct (Nat.ltb_spec a dN); [symmetry; apply sh_spat; assumption|reflexivity]. Qed.
Lemma sbox : forall b, In b (boxes dN dsz) -> forall i, (i < dN)%nat -> (0 < bsz b i <= sh i)%nat.
Proof. intros b Hb i Hi. rewrite <- (full_sh (fun _ => 0)). apply (s_box dsz nv dN _ HF b Hb i Hi). Qed.
Notation cP := (cPcn nv dN dC Cd M dsz zm).
Definition nf (w : index -> R) (m : nat) : R := nfac dsz dN dC sh zm w (at_cm 0 m).
Lemma cP_pn w : same_dict nv dN Cd M (cP w) (pn dsz dN dC sh zm w).
Proof.
  intros p (c & m & Hc & Hm & H1 & H2). pose proof (projected_val dsz nv dN dC false zm (mkArr sh w) p HF (or_intror HV) H1) as E. cbn [val] in E. rewrite full_sh in E. exact E.
Qed.
Lemma nf_pos w m : 0 < nf w m. Proof. apply nfac_pos. Qed.
Lemma cP_lin w : lin_ok nv dN Cd M dsz zm (cP w).
Proof. apply (lin_same (pn dsz dN dC sh zm w)); [intros p Hp; symmetry; apply cP_pn; exact Hp|]. apply lin_of_feas. apply pn_feas. apply sbox. Qed.
Lemma cP_unit w : unit_norms nv dN Cd M (cP w).
Proof.
  intros m Hm. rewrite (fdot_ext _ _ _ _ m Hm (cP_pn w) (cP_pn w)), fdot_rsum. destruct (Req_dec (PcnProofs.nrm2 dsz dN dC sh zm w (at_cm 0 m)) 0) as [E|E].
  - right. apply rsum_0. intros k H1 H2. rewrite (pn_zero dsz dN dC sh zm w (at_cm 0 m) E k H1 H2). ring.
  - left. apply pn_norm. exact E.
Qed.
Lemma cP_dot w z m : (m < M)%nat -> lin_ok nv dN Cd M dsz zm z -> fdot w z m = nf w m * fdot (cP w) z m.
Proof.
  intros Hm Hz. rewrite (fdot_ext w z w (trunc z) m Hm), (fdot_ext (cP w) z (pn dsz dN dC sh zm w) (trunc z) m Hm); try (intros p Hp; reflexivity || (symmetry; apply trunc_same; exact Hp)); [|apply cP_pn].
  rewrite !fdot_rsum, pn_dot. rewrite (dot_feas dsz dN dC sh zm sbox w (trunc z) (at_cm 0 m) (trunc_feas z Hz)).
  fold (nf w m). pose proof (nf_pos w m). field. lra.
Qed.
(** The dictionaries that the constraint function returns are characterised by these properties. *)
Lemma cP_unique w y c : lin_ok nv dN Cd M dsz zm y -> unit_norms nv dN Cd M y -> (forall m, (m < M)%nat -> 0 < c m) ->
  (forall z m, (m < M)%nat -> lin_ok nv dN Cd M dsz zm z -> fdot w z m = c m * fdot y z m) -> same_dict nv dN Cd M (cP w) y.
Proof.
  intros Ly Uy Hc Hd. assert (G : forall m, (m < M)%nat -> forall ch p, (ch < Cd)%nat -> ons ch m p -> nf w m * cP w p = c m * y p).
  { intros m Hm ch p Hch Hp. set (z := fun p => nf w m * cP w p + - c m * y p). assert (Lz : lin_ok nv dN Cd M dsz zm z) by (apply lin_lin; [apply cP_lin|exact Ly]).
    assert (E : fdot z z m = 0).
    { unfold z at 1. rewrite fdot_lin_l. pose proof (Hd z m Hm Lz) as E1. pose proof (cP_dot w z m Hm Lz) as E2. lra. }
    pose proof (fdot_zero z m Hm E ch p Hch Hp) as E0. unfold z in E0. lra. }
  intros p Hp. apply entry_slice in Hp. destruct Hp as (ch & m & Hch & Hm & Hp). pose proof (nf_pos w m) as Pn. specialize (Hc m Hm).
  assert (E2 : nf w m * nf w m * fdot (cP w) (cP w) m = c m * c m * fdot y y m).
  { assert (Gs : fdot (fun p => nf w m * cP w p + 0 * y p) (fun p => nf w m * cP w p + 0 * y p) m = fdot (fun p => c m * y p + 0 * y p) (fun p => c m * y p + 0 * y p) m).
    { apply sumn_ext. intros c1 Hc1. apply total_ext; [apply ND0|]. intros q Hq. rewrite (G m Hm c1 q Hc1 Hq). reflexivity. }
    rewrite !fdot_lin_l, !fdot_lin_r in Gs. lra. }
  destruct (Uy m Hm) as [E|E].
  - destruct (cP_unit w m Hm) as [E1|E1]; rewrite E, E1 in E2.
    + assert (nf w m = c m) by nra. pose proof (G m Hm ch p Hch Hp) as Q. rewrite H in Q. apply Rmult_eq_reg_l in Q; [exact Q|lra].
    + nra.
  - rewrite (fdot_zero y m Hm E ch p Hch Hp). pose proof (G m Hm ch p Hch Hp) as Q. rewrite (fdot_zero y m Hm E ch p Hch Hp) in Q. apply (Rmult_eq_reg_l (nf w m)); lra.
Qed.
End projection.
End entries.
