Require Import List Arith ZArith Reals Bool String Lia Lra FunctionalExtensionality.
Require Import Verif.RVec Verif.Cplx Verif.FftModel Verif.FftProofs Verif.FftInv Verif.ProxModel Verif.CscModel Verif.CscSpec Verif.CscProofs Verif.CscProps Verif.CcmProofs Verif.RecModel Verif.RecSpec Verif.RecProofs.
Import ListNotations.
Local Open Scope R_scope.

Lemma total_abs_le s axes f : forall p, Rabs (total s axes f p) <= total s axes (fun q => Rabs (f q)) p.
Proof.
  induction axes as [|a r IH]; intros p; [apply Rle_refl|]. cbn [total]. eapply Rle_trans; [apply sumn_abs|]. apply sumn_le. intros j _. apply IH.
Qed.
Lemma total_mono_all s axes f g : (forall p, f p <= g p) -> forall p, total s axes f p <= total s axes g p.
Proof. intros H. induction axes as [|a r IH]; intros p; [apply H|]. cbn [total]. apply sumn_le. intros j _. apply IH. Qed.
Lemma total_scal_all s axes c f : forall p, total s axes (fun q => c * f q) p = c * total s axes f p.
Proof. induction axes as [|a r IH]; intros p; [reflexivity|]. cbn [total]. rewrite <- sumn_scal. apply sumn_ext. intros j _. apply IH. Qed.
Lemma total_sub_all s axes f g : forall p, total s axes (fun q => f q - g q) p = total s axes f p - total s axes g p.
Proof.
  induction axes as [|a r IH]; intros p; [reflexivity|]. cbn [total]. rewrite <- sumn_minus. apply sumn_ext. intros j _. apply IH.
Qed.

(** ** Coefficients passed, or those of the solver *)
(** Passing coefficients: every solver of the sparse coding problem returns the signal they represent. *)
Theorem C96_argument (s dsh : nat -> nat) (axes : list nat) (M : nat) (D : nat -> nat -> index -> R) (o : cobj) (X : nat -> index -> R) (c : nat) :
  NoDup axes -> axes <> [] ->
  represents s dsh axes M D X c (gen_reconstruct s dsh axes M D o (Some X) c) /\
  represents s dsh axes M D X c (pgm_reconstruct s dsh axes M D o (Some X) c) /\
  represents s dsh axes M D X c (two_reconstruct s dsh axes M D o (Some X) c).
Proof. intros ND Hne. repeat split; intros p Hp; apply C68_reconstruct; assumption. Qed.
Print Assumptions C96_argument.

(** Without an argument.  The PGM solver uses the coefficients that solve returns.  The ADMM solvers use Y, which solve returns
    unless ReturnX is set.  The two block solvers use the stored spectrum of X. *)
Theorem C96_default (s dsh : nat -> nat) (axes : list nat) (M : nat) (D : nat -> nat -> index -> R) (o : cobj) (c : nat) :
  NoDup axes -> axes <> [] ->
  represents s dsh axes M D (pgm_getmin o) c (pgm_reconstruct s dsh axes M D o None c) /\
  represents s dsh axes M D (gen_getmin false o) c (gen_reconstruct s dsh axes M D o None c) /\
  ((forall m i, (m < M)%nat -> in_signal s axes i -> oXf o m i = rfftn s axes (oX o m) i) ->
   represents s dsh axes M D (oX o) c (two_reconstruct s dsh axes M D o None c)).
Proof.
  intros ND Hne. repeat split; [intros p Hp; apply C68_reconstruct; assumption..|]. intros HX p Hp.
  rewrite <- C68_reconstruct by assumption. unfold two_reconstruct, reconstruct. apply irfftn_ext_in; try assumption.
  intros i Hi. apply csumn_ext. intros m Hm. rewrite HX by assumption. reflexivity.
Qed.
Print Assumptions C96_default.

(** For the two block solvers the difference between reconstruct() and the reconstruction of what solve returned is at most the
    largest entry of X - Y1 (a part of the primal residual) times the sum of the absolute filter samples. *)
Theorem C96_two_block (s dsh : nat -> nat) (axes : list nat) (M : nat) (D : nat -> nat -> index -> R) (o : cobj) (c : nat) (e : R) (p : index) :
  NoDup axes -> axes <> [] -> in_signal s axes p ->
  (forall m i, (m < M)%nat -> in_signal s axes i -> oXf o m i = rfftn s axes (oX o m) i) ->
  (forall m q, (m < M)%nat -> Rabs (oX o m q - oY o m q) <= e) ->
  Rabs (two_reconstruct s dsh axes M D o None c p - two_reconstruct s dsh axes M D o (Some (two_getmin false o)) c p) <= filter_mass s dsh axes M D c p * e.
Proof.
  intros ND Hne Hp HX He.
  rewrite (proj2 (proj2 (C96_default s dsh axes M D o c ND Hne)) HX p Hp).
  rewrite (proj2 (proj2 (C96_argument s dsh axes M D o (two_getmin false o) c ND Hne)) p Hp).
  unfold synth, filter_mass, two_getmin. rewrite <- sumn_minus, Rmult_comm, <- sumn_scal.
  eapply Rle_trans; [apply sumn_abs|]. apply sumn_le. intros m Hm. unfold conv. rewrite <- total_sub_all.
  eapply Rle_trans; [apply total_abs_le|]. rewrite <- total_scal_all. apply total_mono_all. intros q.
  replace (ext dsh axes (D c m) q * oX o m (minus s axes p q) - ext dsh axes (D c m) q * oY o m (minus s axes p q))
    with ((oX o m (minus s axes p q) - oY o m (minus s axes p q)) * ext dsh axes (D c m) q) by ring.
  rewrite Rabs_mult. apply Rmult_le_compat_r; [apply Rabs_pos|]. apply He. exact Hm.
Qed.
Print Assumptions C96_two_block.

Lemma rfftn_one x i : rfftn (fun _ => 1%nat) [O] x i = ofR (x (upd i O O)).
Proof.
  unfold rfftn. cbn [removelast last fftn fold_right]. unfold dft_ax, dft. rewrite (csumn_first 1) by lia.
  change (Z.of_nat 0) with 0%Z. rewrite Z.mul_0_l, Z.opp_0, ru_0. ceq; simpl; ring.
Qed.
Lemma irfftn_one h i : irfftn (fun _ => 1%nat) [O] h i = re (h (upd i O O)).
Proof. unfold irfftn. cbn [removelast last ifftn fold_right]. unfold irfft. simpl. field. Qed.

(** With ReturnX the ADMM solvers reconstruct from the other variable; and after one iteration from zero of the masked problem on
    one sample (filter 1, signal 1, rho 1, lmbda 1: the x step gives 1/2, its soft thresholding 0) reconstruct() is 1/2 although
    the coefficients returned by solve represent 0.  Before the first iteration reconstruct() of the two block solvers is
    whatever the allocated array holds: two objects with equal X and Y differ. *)
Theorem C96_default_refuted :
  let s := fun _ : nat => 1%nat in let D := fun (_ _ : nat) (_ : index) => 1 in let z := fun (_ : nat) (_ : index) => 0 in
  let S := fun (_ : nat) (_ : index) => 1 in
  let X := xstep2 s s [O] 1 1 D S z z z z in
  let o := mkCobj X (xstep2f s s [O] 1 1 D S z z z z) (fun m p => prox_l1 (fun _ => X m p) (fun _ => 1) O) in
  (gen_reconstruct s s [O] 1 D o None O idx0 = 0 /\ gen_reconstruct s s [O] 1 D o (Some (gen_getmin true o)) O idx0 = / 2) /\
  (two_reconstruct s s [O] 1 D o None O idx0 = / 2 /\ two_reconstruct s s [O] 1 D o (Some (two_getmin false o)) O idx0 = 0) /\
  (forall v, exists o', oX o' = oX o /\ oY o' = oY o /\ two_reconstruct s s [O] 1 D o' None O idx0 = v).
Proof.
  intros s D z S X o.
  assert (ED : forall i, Df s s [O] D O O i = c1).
  { intros i. unfold Df, s. rewrite rfftn_one. reflexivity. }
  assert (EXf : forall i, xstep2f s s [O] 1 1 D S z z z z O i = ofR (/ 2)).
  { intros i. unfold xstep2f. cbn [Nat.eqb]. unfold dbi_sm, inner. rewrite !csumn_first by lia. rewrite ED. unfold s. rewrite !rfftn_one.
    unfold S, z. ceq; unfold cdiv, cinv, cabs2; simpl; field. }
  assert (EX : forall p, X O p = / 2).
  { intros p. unfold X, xstep2, s. rewrite irfftn_one. fold s. rewrite EXf. reflexivity. }
  assert (EY : forall p, oY o O p = 0).
  { intros p. cbn [o oY]. unfold prox_l1. rewrite EX. rewrite Rmax_right; [ring|]. rewrite Rabs_right; lra. }
  assert (R1 : forall V, reconstruct s s [O] 1 D V O idx0 = V O (upd idx0 O O)).
  { intros V. unfold reconstruct, s. rewrite irfftn_one. fold s. rewrite csumn_first by lia. rewrite ED. unfold s. rewrite rfftn_one.
    simpl. rewrite (upd_upd idx0 O O O). ring. }
  assert (R2 : forall o', two_reconstruct s s [O] 1 D o' None O idx0 = re (oXf o' O (upd idx0 O O))).
  { intros o'. unfold two_reconstruct, s. rewrite irfftn_one. fold s. rewrite csumn_first by lia. rewrite ED. simpl. ring. }
  repeat split.
  - unfold gen_reconstruct. rewrite R1. apply EY.
  - unfold gen_reconstruct. rewrite R1. apply EX.
  - rewrite R2. cbn [o oXf]. rewrite EXf. reflexivity.
  - change (reconstruct s s [O] 1 D (oY o) O idx0 = 0). rewrite R1. apply EY.
  - intros v. exists (mkCobj (oX o) (fun _ _ => ofR v) (oY o)). repeat split. rewrite R2. reflexivity.
Qed.
Print Assumptions C96_default_refuted.

(** ** Dictionary update *)
(** Without an argument: the signal for the dictionary variable X, of full size. *)
Theorem C96_dictionary_default (s dsh : nat -> nat) (axes : list nat) (M : nat) (Z : nat -> index -> R) (o : cobj) :
  NoDup axes -> axes <> [] -> (forall m i, (m < M)%nat -> in_signal s axes i -> oXf o m i = rfftn s axes (oX o m) i) ->
  exists f, ccm_reconstruct s dsh axes M (fun m => rfftn s axes (Z m)) o None = Returned f /\ represents s s axes M (fun _ => oX o) Z 0 f.
Proof.
  intros ND Hne HX. eexists. split; [reflexivity|]. intros p Hp. rewrite <- C68_reconstruct by assumption. unfold reconstruct.
  apply irfftn_ext_in; try assumption. intros i Hi. apply csumn_ext. intros m Hm. rewrite HX by assumption. unfold Df.
  transitivity (cmul (rfftn s axes (oX o m) i) (rfftn s axes (Z m) i)); [ceq; ring|]. f_equal.
  destruct (exists_last Hne) as (r & l & ->). rewrite !rfftn_fftn. apply fftn_ext_in. intros q Hq _. unfold padR.
  replace (inside s (r ++ [l]) q) with true; [reflexivity|]. symmetry. apply forallb_forall. intros ax Ha. apply Nat.ltb_lt. apply Hq. exact Ha.
Qed.
Print Assumptions C96_dictionary_default.

(** A dictionary of the size of the signal, or of size one, along each axis: the signal it represents. *)
Theorem C96_dictionary (s dsh : nat -> nat) (axes : list nat) (M : nat) (Z : nat -> index -> R) (o : cobj) (D : nat -> index -> R) :
  NoDup axes -> axes <> [] -> (forall ax, In ax axes -> (0 < s ax)%nat) -> (forall ax, In ax axes -> dsh ax = s ax \/ dsh ax = 1%nat) ->
  exists f, ccm_reconstruct s dsh axes M (fun m => rfftn s axes (Z m)) o (Some D) = Returned f /\ represents s dsh axes M (fun _ => D) Z 0 f.
Proof.
  intros ND Hne P H. unfold ccm_reconstruct.
  replace (compatible (half_shape axes s) (half_shape axes dsh) axes) with true.
  - eexists. split; [reflexivity|]. intros p Hp. apply ccm_reconstruct_same; assumption.
  - symmetry. apply compatible_true. intros ax Ha. unfold half_shape. destruct (H ax Ha) as [->| ->]; [left; reflexivity|].
    destruct (Nat.eqb ax (last axes O)); right; right; reflexivity.
Qed.
Print Assumptions C96_dictionary.

(** Otherwise, for a dictionary no larger than the signal, such as the cropped one that solve and getdict return: the call raises
    exactly when on some axis but the last 1 < Nd < N, or on the last axis 1 < Nd and Nd // 2 < N // 2. *)
Theorem C96_dictionary_raises (s dsh : nat -> nat) (axes : list nat) (M : nat) (Zf : nat -> index -> C) (o : cobj) (D : nat -> index -> R) :
  (forall ax, In ax axes -> (0 < dsh ax <= s ax)%nat) ->
  (ccm_reconstruct s dsh axes M Zf o (Some D) = ValueError <->
   exists ax, In ax axes /\ (1 < dsh ax)%nat /\ (if Nat.eqb ax (last axes O) then dsh ax / 2 < s ax / 2 else dsh ax < s ax)%nat).
Proof.
  intros H. unfold ccm_reconstruct. destruct (compatible (half_shape axes s) (half_shape axes dsh) axes) eqn:E.
  - split; [discriminate|]. intros (ax & Ha & H1 & H2). exfalso. rewrite compatible_true in E. specialize (E ax Ha). specialize (H ax Ha).
    unfold half_shape in E. destruct (Nat.eqb ax (last axes O)); [rewrite !half_div in E; lia|lia].
  - split; [intros _|reflexivity]. unfold compatible in E.
    assert (K : exists ax, In ax axes /\ (Nat.eqb (half_shape axes s ax) (half_shape axes dsh ax) || Nat.eqb (half_shape axes s ax) 1 || Nat.eqb (half_shape axes dsh ax) 1)%bool = false).
    { clear H. revert E. generalize (half_shape axes s) (half_shape axes dsh). intros a b. induction axes as [|x r IH]; [discriminate|]. cbn [forallb].
      destruct (Nat.eqb (a x) (b x) || Nat.eqb (a x) 1 || Nat.eqb (b x) 1)%bool eqn:Ex.
      - intros E. destruct (IH E) as (ax & Ha & Hx). exists ax. split; [right; exact Ha|exact Hx].
      - intros _. exists x. split; [left; reflexivity|exact Ex]. }
    destruct K as (ax & Ha & Hx). exists ax. split; [exact Ha|]. specialize (H ax Ha). rewrite !orb_false_iff, !Nat.eqb_neq in Hx. unfold half_shape in Hx.
    destruct (Nat.eqb ax (last axes O)); [rewrite !half_div in Hx|]; [|lia].
    split; [lia|]. pose proof (Nat.div_le_mono (dsh ax) (s ax) 2). lia.
Qed.
Print Assumptions C96_dictionary_raises.

(** In the remaining case, N = 2k+1 and Nd = 2k on the last axis, the half spectra have equal lengths and a wrong signal is
    returned: N = 3, the filter (1, 1), a unit impulse at the origin. *)
Lemma ru_21 : ru 2 (-1) = ofR (-1).
Proof.
  unfold ru. replace (2 * PI * IZR (-1) / INR 2) with (- PI) by (simpl; field). unfold cis. rewrite cos_neg, sin_neg, cos_PI, sin_PI. ceq; simpl; ring.
Qed.
Theorem C96_dictionary_refuted : let s := fun _ : nat => 3%nat in let dsh := fun _ : nat => 2%nat in
  let D := fun (_ : nat) (_ : index) => 1 in let Z := fun (_ : nat) (p : index) => if Nat.eqb (p O) 0 then 1 else 0 in
  forall o, exists f, ccm_reconstruct s dsh [O] 1 (fun m => rfftn s [O] (Z m)) o (Some D) = Returned f /\
    ~ represents s dsh [O] 1 (fun _ => D) Z 0 f.
Proof.
  intros s dsh D Z o. eexists. split; [reflexivity|]. intros E.
  specialize (E (fun _ => 2%nat)). revert E. unfold irfftn. cbn [removelast last ifftn fold_right]. unfold irfft, s.
  change ((3 + 1) / 2 - 1)%nat with 1%nat. cbn [sumn Nat.even].
  assert (E0 : forall i, i O = O -> csumn 1 (fun m => cmul (rfftn (fun _ => 3%nat) [O] (Z m) (stretch (half_shape [O] (fun _ => 3%nat)) [O] i))
      (rfftn dsh [O] (D m) (stretch (half_shape [O] dsh) [O] i))) = ofR 2).
  { intros i Hi. rewrite csumn_first by lia. unfold rfftn. cbn [removelast last fftn fold_right]. unfold dft_ax, dft.
    replace (stretch (half_shape [O] (fun _ => 3%nat)) [O] i O) with O by (unfold stretch; simpl; rewrite Hi; reflexivity).
    replace (stretch (half_shape [O] dsh) [O] i O) with O by (unfold stretch; simpl; rewrite Hi; reflexivity).
    unfold csumn, dsh, D, Z. change (Z.of_nat 0) with 0%Z. cbn [sumn]. rewrite !Z.mul_0_r, Z.opp_0, !ru_0. ceq; simpl; ring. }
  assert (E1 : forall i, i O = 1%nat -> csumn 1 (fun m => cmul (rfftn (fun _ => 3%nat) [O] (Z m) (stretch (half_shape [O] (fun _ => 3%nat)) [O] i))
      (rfftn dsh [O] (D m) (stretch (half_shape [O] dsh) [O] i))) = c0).
  { intros i Hi. rewrite csumn_first by lia.
    replace (rfftn dsh [O] (D O) (stretch (half_shape [O] dsh) [O] i)) with c0; [ceq; ring|].
    unfold rfftn. cbn [removelast last fftn fold_right]. unfold dft_ax, dft.
    replace (stretch (half_shape [O] dsh) [O] i O) with 1%nat by (unfold stretch; simpl; rewrite Hi; reflexivity).
    unfold csumn, dsh, D. cbn [sumn]. change (- (Z.of_nat 0 * Z.of_nat 1))%Z with 0%Z. change (- (Z.of_nat 1 * Z.of_nat 1))%Z with (-1)%Z.
    rewrite ru_0, ru_21. ceq; simpl; ring. }
  rewrite E0 by apply upd_same. rewrite E1 by apply upd_same.
  intros E. assert (Hp : in_signal s [O] (fun _ => 2%nat)) by (intros ax _; unfold s; lia). specialize (E Hp). revert E.
  unfold synth, conv, ext, minus, D, Z, s, dsh. simpl. lra.
Qed.
Print Assumptions C96_dictionary_refuted.

(** ** Dictionary learning: cropped and full dictionaries *)
Theorem C96_dictlrn (s dsh : nat -> nat) (axes : list nat) (M : nat) (gd D : nat -> nat -> index -> R) (gc X : nat -> index -> R) (c : nat) :
  NoDup axes -> axes <> [] ->
  represents s s axes M gd gc c (dl_reconstruct s dsh axes M gd gc None None c) /\
  represents s s axes M gd X c (dl_reconstruct s dsh axes M gd gc None (Some X) c) /\
  represents s dsh axes M D gc c (dl_reconstruct s dsh axes M gd gc (Some D) None c) /\
  represents s dsh axes M D X c (dl_reconstruct s dsh axes M gd gc (Some D) (Some X) c).
Proof. intros ND Hne. repeat split; intros p Hp; apply C68_reconstruct; assumption. Qed.
Print Assumptions C96_dictlrn.

(** ** Matrices *)
(** pgm BPDN ignores its argument; it returns the product with the argument exactly when that equals the product with the
    coefficients of the object. *)
Theorem C96_bpdn (n : nat) (S D X Y A : nat -> nat -> R) :
  dot_reconstruct n (bpdn_object S D X Y) None = Returned (fun i j => sumn n (fun k => D i k * X k j)) /\
  (dot_reconstruct n (bpdn_object S D X Y) (Some A) = Returned (fun i j => sumn n (fun k => D i k * A k j)) <->
   forall i j, sumn n (fun k => D i k * X k j) = sumn n (fun k => D i k * A k j)).
Proof.
  split; [reflexivity|].
  change (dot_reconstruct n (bpdn_object S D X Y) (Some A)) with (Returned (mdot n D X)). unfold mdot. split.
  - intros E i j. injection E as E. exact (f_equal (fun f => f i j) E).
  - intros E. f_equal. extensionality i. extensionality j. apply E.
Qed.
Print Assumptions C96_bpdn.
Theorem C96_bpdn_refuted : exists S D X Y A,
  dot_reconstruct 1 (bpdn_object S D X Y) (Some A) <> Returned (fun i j => sumn 1 (fun k => D i k * A k j)).
Proof.
  exists (fun _ _ => 1), (fun _ _ => 1), (fun _ _ => 0), (fun _ _ => 0), (fun _ _ => 1). rewrite (proj2 (C96_bpdn 1 _ _ _ _ _)).
  intros E. specialize (E O O). simpl in E. lra.
Qed.
Print Assumptions C96_bpdn_refuted.
(** pgm CnstrMOD has the same text but no attribute D, and rfftn is not bound in the module of MultiDictConvBPDN: no call returns.
    If the name were bound, MultiDictConvBPDN would return the signals of set b. *)
Theorem C96_raises_refuted : (forall n self arg, (forall nm v, self nm = Some v -> In nm cmod_assigned) -> dot_reconstruct n self arg = AttributeError) /\
  (forall s dsh axes M D chncs coef b X, multi_reconstruct cbpdn_names s dsh axes M D chncs coef b X = NameError) /\
  (forall names s dsh axes M D chncs coef b X, In "rfftn"%string names -> NoDup axes -> axes <> [] ->
     exists f, multi_reconstruct names s dsh axes M D chncs coef b (Some X) = Returned f /\ forall c, represents s dsh axes M D X (chncs b + c) (f c)).
Proof.
  split; [|split].
  - intros n self arg H. unfold dot_reconstruct.
    assert (E : self "D"%string = None).
    { destruct (self "D"%string) as [v|] eqn:E; [|reflexivity]. apply H in E. exfalso. revert E. unfold cmod_assigned. cbn [In].
      intros K. repeat (destruct K as [K|K]; [discriminate K|]). exact K. }
    rewrite E. destruct arg; [reflexivity|]. destruct (self "X"%string); reflexivity.
  - intros. reflexivity.
  - intros names s dsh axes M D chncs coef b X HN ND Hne. unfold multi_reconstruct.
    replace (existsb (String.eqb "rfftn") names) with true.
    + eexists. split; [reflexivity|]. intros c p Hp. apply C68_reconstruct; assumption.
    + symmetry. apply existsb_exists. exists "rfftn"%string. split; [exact HN|reflexivity].
Qed.
Print Assumptions C96_raises_refuted.

(** A case meeting the hypotheses of the dictionary theorems: a 4 by 5 signal, with filters of size 4 by 1 (correct) and 3 by 3
    (the call raises). *)
Example C96_instance :
  let s := fun ax => match ax with O => 4%nat | _ => 5%nat end in let good := fun ax => match ax with O => 4%nat | _ => 1%nat end in
  let Z := fun (m : nat) (p : index) => INR (m + p O + p 1%nat) in let D := fun (m : nat) (p : index) => INR (1 + m + p O) in
  let o := mkCobj D (fun m => rfftn s [O; 1%nat] (D m)) D in
  (exists f, ccm_reconstruct s good [O; 1%nat] 2 (fun m => rfftn s [O; 1%nat] (Z m)) o (Some D) = Returned f /\
     represents s good [O; 1%nat] 2 (fun _ => D) Z 0 f) /\
  ccm_reconstruct s (fun _ => 3%nat) [O; 1%nat] 2 (fun m => rfftn s [O; 1%nat] (Z m)) o (Some D) = ValueError.
Proof.
  intros s good Z D o. split.
  - apply C96_dictionary; [repeat constructor; simpl; intuition lia|discriminate|intros [|ax] _; simpl; lia|].
    intros ax [<-|[<-|[]]]; [left|right]; reflexivity.
  - refine (proj2 (C96_dictionary_raises s (fun _ => 3%nat) [O; 1%nat] 2 _ o D _) _); [intros [|ax] _; simpl; lia|]. exists O. simpl. repeat split; auto with arith.
Qed.
