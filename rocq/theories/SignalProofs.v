Require Import List Arith ZArith Reals Bool Lia Lra.
Require Import Verif.NdIndex Verif.RVec Verif.NdSum Verif.SignalModel.
Import ListNotations.
Local Open Scope R_scope.

Lemma np_axis_nat s ax : np_axis s (Z.of_nat ax) = ax.
Proof. unfold np_axis. destruct (Z.ltb_spec (Z.of_nat ax) 0); lia. Qed.
Lemma slc_axis_nat ax : slc_axis (Z.of_nat ax) = ax.
Proof. unfold slc_axis. lia. Qed.

(** Values of grad and gradT along the axis. *)
Lemma grad_val s ax x idx : (coord ax idx < nth ax s O)%nat ->
  grad s (Z.of_nat ax) x idx =
  if Nat.eqb (coord ax idx) (nth ax s O - 1) then 0 else x (setc ax (coord ax idx + 1) idx) - x idx.
Proof.
  intros H. unfold grad, roll_m1. rewrite np_axis_nat, slc_axis_nat.
  destruct (Nat.eqb_spec (coord ax idx) (nth ax s O - 1)); [reflexivity|]. rewrite Nat.mod_small by lia. reflexivity.
Qed.

Lemma gradT_val s ax y : (2 <= nth ax s O)%nat -> exists g, gradT s (Z.of_nat ax) y = Some g /\
  forall idx, (coord ax idx < nth ax s O)%nat ->
   g idx = (if Nat.eqb (coord ax idx) 0 then 0 else y (setc ax (coord ax idx - 1) idx))
           - (if Nat.eqb (coord ax idx) (nth ax s O - 1) then 0 else y (setc ax (coord ax idx) idx)) \/
   idx <> setc ax (coord ax idx) idx.
Proof.
  intros Hn. unfold gradT. rewrite np_axis_nat, slc_axis_nat. destruct (Nat.eqb_spec (nth ax s O) 1); [lia|].
  eexists. split; [reflexivity|]. intros idx Hi.
  destruct (list_eq_dec Nat.eq_dec idx (setc ax (coord ax idx) idx)) as [E|E]; [left|right; exact E].
  destruct (Nat.eqb_spec (coord ax idx) (nth ax s O - 1)) as [E1|E1]; destruct (Nat.eqb_spec (coord ax idx) 0) as [E0|E0]; try lia.
  - replace (coord ax idx - 1)%nat with (nth ax s O - 2)%nat by lia. lra.
  - rewrite E0. lra.
  - unfold roll_p1. replace (coord ax idx + nth ax s O - 1)%nat with (coord ax idx - 1 + 1 * nth ax s O)%nat by lia.
    rewrite Nat.mod_add by lia. rewrite Nat.mod_small by lia. rewrite <- E. reflexivity.
Qed.

Lemma setc_self s idx ax : inb s idx -> (ax < length s)%nat -> setc ax (coord ax idx) idx = idx.
Proof.
  intros H Hax. destruct (nth_split idx O (n := ax)) as (a & b & E & La); [rewrite (inb_length _ _ H); exact Hax|].
  unfold coord. set (c := nth ax idx O) in *. rewrite E. rewrite <- La. apply setc_at.
Qed.

Lemma gradT_inb s ax y : (2 <= nth ax s O)%nat -> (ax < length s)%nat -> exists g, gradT s (Z.of_nat ax) y = Some g /\
  forall idx, inb s idx ->
   g idx = (if Nat.eqb (coord ax idx) 0 then 0 else y (setc ax (coord ax idx - 1) idx))
           - (if Nat.eqb (coord ax idx) (nth ax s O - 1) then 0 else y idx).
Proof.
  intros Hn Hax. destruct (gradT_val s ax y Hn) as (g & E & H). exists g. split; [exact E|]. intros idx Hi.
  assert (Hs := setc_self s idx ax Hi Hax).
  destruct (H idx (inb_coord _ _ _ Hi Hax)) as [K|K]; [|congruence]. rewrite Hs in K. exact K.
Qed.

(** Summation by parts on one axis. *)
Lemma by_parts n (x y : nat -> R) :
  sumn (S n) (fun i => (if Nat.eqb i n then 0 else x (i + 1)%nat - x i) * y i) =
  sumn (S n) (fun i => x i * ((if Nat.eqb i 0 then 0 else y (i - 1)%nat) - (if Nat.eqb i n then 0 else y i))).
Proof.
  cbn [sumn]. rewrite Nat.eqb_refl.
  rewrite (sumn_ext n _ (fun i => x (i + 1)%nat * y i - x i * y i)).
  2: { intros i Hi. destruct (Nat.eqb_spec i n); [lia|]. ring. }
  rewrite (sumn_ext n (fun i => x i * _) (fun i => x i * (if Nat.eqb i 0 then 0 else y (i - 1)%nat) - x i * y i)).
  2: { intros i Hi. destruct (Nat.eqb_spec i n); [lia|]. ring. }
  rewrite !sumn_minus.
  assert (E : sumn n (fun i => x (i + 1)%nat * y i) =
     sumn n (fun i => x i * (if Nat.eqb i 0 then 0 else y (i - 1)%nat)) + x n * (if Nat.eqb n 0 then 0 else y (n - 1)%nat)).
  { clear. induction n as [|n IH]; [simpl; lra|]. cbn [sumn]. rewrite IH.
    replace (Nat.eqb (S n) 0) with false by reflexivity. replace (S n - 1)%nat with n by lia. replace (n + 1)%nat with (S n) by lia. lra. }
  rewrite E. lra.
Qed.

Lemma adjoint_ok s ax x y : (ax < length s)%nat -> (2 <= nth ax s O)%nat -> exists g, gradT s (Z.of_nat ax) y = Some g /\
  ndot s (grad s (Z.of_nat ax) x) y = ndot s x g.
Proof.
  intros Hax Hn. destruct (gradT_inb s ax y Hn Hax) as (g & E & Hg). exists g. split; [exact E|].
  unfold ndot. destruct (shape_axis s ax Hax) as (p & q & Es & Lp).
  set (n := nth ax s O) in *.
  assert (G : forall f, ndsum s f = ndsum (p ++ n :: q) f) by (intros; rewrite <- Es; reflexivity).
  rewrite (G (fun idx => grad _ _ _ _ * _)), (G (fun idx => x _ * _)). apply ndsum_axis. intros a b Ha Hb.
  assert (La : length a = ax) by (rewrite (inb_length _ _ Ha); exact Lp).
  assert (IN : forall i, (i < n)%nat -> inb s (a ++ i :: b)).
  { intros i Hi. rewrite Es. apply inb_app; [rewrite La; congruence|]. split; [exact Ha|]. constructor; assumption. }
  destruct n as [|m] eqn:En; [lia|].
  rewrite (sumn_ext (S m) _ (fun i => (if Nat.eqb i m then 0 else x (a ++ (i + 1)%nat :: b) - x (a ++ i :: b)) * y (a ++ i :: b))).
  2: { intros i Hi. rewrite grad_val by (apply inb_coord; [apply IN; exact Hi|exact Hax]). rewrite <- La. rewrite !coord_at, setc_at.
       rewrite La. fold n. rewrite En. replace (S m - 1)%nat with m by lia. reflexivity. }
  rewrite (by_parts m (fun i => x (a ++ i :: b)) (fun i => y (a ++ i :: b))).
  apply sumn_ext. intros i Hi. rewrite Hg by (apply IN; exact Hi). rewrite <- La. rewrite !coord_at, !setc_at.
  rewrite ?La. fold n. rewrite ?En. replace (S m - 1)%nat with m by lia. reflexivity.
Qed.

(** ** Zero-padded differences *)
Lemma by_parts_zp n (x y : nat -> R) :
  sumn (S n) (fun i => ((if Nat.eqb i n then 0 else x i) - (if Nat.eqb i 0 then 0 else x (i - 1)%nat)) * y i) =
  sumn n (fun i => x i * - (y (i + 1)%nat - y i)).
Proof.
  rewrite (sumn_ext (S n) _ (fun i => (if Nat.eqb i n then 0 else x i) * y i - (if Nat.eqb i 0 then 0 else x (i - 1)%nat) * y i)).
  2: { intros i Hi. ring. }
  rewrite sumn_minus. cbn [sumn]. rewrite Nat.eqb_refl.
  rewrite (sumn_ext n _ (fun i => x i * y i)).
  2: { intros i Hi. destruct (Nat.eqb_spec i n); [lia|reflexivity]. }
  assert (E : sumn n (fun i => (if Nat.eqb i 0 then 0 else x (i - 1)%nat) * y i) + (if Nat.eqb n 0 then 0 else x (n - 1)%nat) * y n =
     sumn n (fun i => x i * y (i + 1)%nat)).
  { clear. induction n as [|n IH]; [simpl; lra|]. cbn [sumn]. rewrite IH.
    replace (Nat.eqb (S n) 0) with false by reflexivity. replace (S n - 1)%nat with n by lia. replace (n + 1)%nat with (S n) by lia. lra. }
  rewrite (sumn_ext n (fun i => x i * - _) (fun i => x i * y i - x i * y (i + 1)%nat)) by (intros; ring).
  rewrite sumn_minus. lra.
Qed.

(** ** Total variation operators *)
Lemma lsum_ext {A} (f g : A -> R) l : (forall a, In a l -> f a = g a) -> lsum f l = lsum g l.
Proof. induction l as [|a l IH]; intros H; simpl; [reflexivity|]. rewrite (H a) by (left; reflexivity). rewrite IH; [reflexivity|]. intros b Hb. apply H. right. exact Hb. Qed.
Lemma lsum_plus {A} (f g : A -> R) l : lsum (fun a => f a + g a) l = lsum f l + lsum g l.
Proof. induction l as [|a l IH]; simpl; [lra|]. rewrite IH. lra. Qed.
Lemma lsum_scal {A} c (f : A -> R) l : lsum (fun a => c * f a) l = c * lsum f l.
Proof. induction l as [|a l IH]; simpl; [lra|]. rewrite IH. lra. Qed.
Lemma lsum_const {A} c (l : list A) : lsum (fun _ => c) l = INR (length l) * c.
Proof. induction l as [|a l IH]; [simpl; lra|]. cbn [lsum length]. rewrite IH, S_INR. lra. Qed.
Lemma lsum_abs {A} (f : A -> R) l : Rabs (lsum f l) <= lsum (fun a => Rabs (f a)) l.
Proof. induction l as [|a l IH]; simpl; [rewrite Rabs_R0; lra|]. eapply Rle_trans; [apply Rabs_triang|]. lra. Qed.
Lemma lsum_le {A} (f g : A -> R) l : (forall a, In a l -> f a <= g a) -> lsum f l <= lsum g l.
Proof. induction l as [|a l IH]; intros H; simpl; [lra|]. apply Rplus_le_compat; [apply H; left; reflexivity|]. apply IH. intros b Hb. apply H. right. exact Hb. Qed.
Lemma lsum_0 {A} (f : A -> R) l : (forall a, In a l -> f a = 0) -> lsum f l = 0.
Proof. induction l as [|a l IH]; intros H; simpl; [reflexivity|]. rewrite H by (left; reflexivity). rewrite IH; [lra|]. intros b Hb. apply H. right. exact Hb. Qed.
Lemma lsum_sumn (f : nat -> R) l : lsum f l = sumn (length l) (fun c => f (nth c l O)).
Proof.
  induction l as [|a l IH]; [reflexivity|]. cbn [length lsum]. rewrite sumn_first. cbn [nth]. rewrite IH. reflexivity.
Qed.

Definition valid_axes (s : list nat) (axes : list nat) : Prop :=
  forall ax, In ax axes -> (ax < length s)%nat /\ (2 <= nth ax s O)%nat.

Lemma AT_inner s nc axes x y : valid_axes s axes -> (forall ax, In ax axes -> (ax < nc)%nat) ->
  exists h, tv_AT_sum s nc axes y = Some h /\ ndot s x h = lsum (fun ax => ndot s (grad s (Z.of_nat ax) x) (y ax)) axes.
Proof.
  intros Hv Hc. induction axes as [|ax axes IH]; simpl.
  - eexists. split; [reflexivity|]. apply ndsum_0. intros. ring.
  - destruct IH as (h & Eh & Hh); [intros a Ha; apply Hv; right; exact Ha|intros a Ha; apply Hc; right; exact Ha|].
    destruct (Hv ax (or_introl eq_refl)) as [V1 V2].
    destruct (adjoint_ok s ax x (y ax) V1 V2) as (g & Eg & Hg).
    destruct (Nat.ltb_spec ax nc) as [L|L]; [|specialize (Hc ax (or_introl eq_refl)); lia].
    rewrite Eg, Eh. eexists. split; [reflexivity|].
    rewrite <- Hh, Hg. unfold ndot. rewrite <- ndsum_plus. apply ndsum_ext. intros. ring.
Qed.

Lemma AT_some s nc axes y h : tv_AT_sum s nc axes y = Some h -> forall ax, In ax axes -> (ax < nc)%nat.
Proof.
  revert h. induction axes as [|a axes IH]; intros h H ax Hin; [contradiction|]. simpl in H.
  destruct (Nat.ltb_spec a nc) as [L|L]; [|discriminate].
  destruct (gradT _ _ _); [|discriminate]. destruct (tv_AT_sum s nc axes y) eqn:E; [|discriminate].
  destruct Hin as [<-|Hin]; [exact L|]. eapply IH; [reflexivity|exact Hin].
Qed.

(** The counterexample: x varies only along [ax], y is one sample of component j at the origin. *)
Definition ramp (ax : nat) : list nat -> R := fun idx => INR (coord ax idx).
Definition origin (s : list nat) : list nat := map (fun _ => O) s.
Definition one_at (s : list nat) (j : nat) : nat -> list nat -> R :=
  fun c idx => if Nat.eqb c j then (if list_eq_dec Nat.eq_dec idx (origin s) then 1 else 0) else 0.

Lemma origin_inb s : Forall (fun n => 0 < n)%nat s -> inb s (origin s).
Proof. induction 1; simpl; constructor; assumption. Qed.
Lemma origin_coord s ax : coord ax (origin s) = O.
Proof. unfold coord, origin. revert ax. induction s as [|n s IH]; intros [|ax]; simpl; auto. Qed.

Lemma one_at_dot s j f : Forall (fun n => 0 < n)%nat s -> ndot s f (one_at s j j) = f (origin s).
Proof.
  intros H. unfold ndot. rewrite (ndsum_delta s (origin s)).
  - unfold one_at. rewrite Nat.eqb_refl. destruct (list_eq_dec _ _ _); [ring|congruence].
  - apply origin_inb. exact H.
  - intros idx _ Hne. unfold one_at. rewrite Nat.eqb_refl. destruct (list_eq_dec _ _ _); [congruence|ring].
Qed.
Lemma one_at_dot_ne s j c f : c <> j -> ndot s f (one_at s j c) = 0.
Proof. intros H. apply ndsum_0. intros idx _. unfold one_at. destruct (Nat.eqb_spec c j); [congruence|ring]. Qed.

Lemma grad_ramp s ax : Forall (fun n => 0 < n)%nat s -> (ax < length s)%nat -> (2 <= nth ax s O)%nat ->
  grad s (Z.of_nat ax) (ramp ax) (origin s) = 1.
Proof.
  intros H Hax Hn. rewrite grad_val by (rewrite origin_coord; lia). rewrite origin_coord.
  destruct (Nat.eqb_spec 0 (nth ax s O - 1)); [lia|]. unfold ramp.
  rewrite coord_setc by (unfold origin; rewrite map_length; exact Hax). rewrite origin_coord. simpl. lra.
Qed.
Lemma grad_ramp_ne s ax k : k <> ax -> Forall (fun n => 0 < n)%nat s -> (k < length s)%nat -> (2 <= nth k s O)%nat ->
  grad s (Z.of_nat k) (ramp ax) (origin s) = 0.
Proof.
  intros Hne H Hax Hn. rewrite grad_val by (rewrite origin_coord; lia). rewrite origin_coord.
  destruct (Nat.eqb_spec 0 (nth k s O - 1)); [lia|]. unfold ramp.
  rewrite coord_setc_ne by (auto; unfold origin; rewrite map_length; exact Hax). lra.
Qed.

Lemma seq_char (l : list nat) : l = seq 0 (length l) <-> forall c, (c < length l)%nat -> nth c l O = c.
Proof.
  split.
  - intros E c Hc. rewrite E. rewrite seq_nth by (rewrite E in Hc; rewrite seq_length in Hc; exact Hc). reflexivity.
  - intros H. apply nth_ext with (d := O) (d' := O); [rewrite seq_length; reflexivity|].
    intros n Hn. rewrite seq_nth by exact Hn. apply H. exact Hn.
Qed.

(** The core of both counterexamples. *)
Lemma wrong_axes s axes j : valid_axes s axes -> Forall (fun n => 0 < n)%nat s -> (j < length axes)%nat -> nth j axes O <> j ->
  sumn (length axes) (fun c => ndot s (grad s (Z.of_nat (nth c axes O)) (ramp (nth j axes O))) (one_at s j c)) = 1 /\
  lsum (fun ax => ndot s (grad s (Z.of_nat ax) (ramp (nth j axes O))) (one_at s j ax)) axes = 0.
Proof.
  intros Hv Hs Hj Hne. split.
  - rewrite (sumn_ext _ _ (fun c => if Nat.eqb c j then 1 else 0)).
    + rewrite (sumn_delta _ j (fun _ => 1)) by exact Hj. reflexivity.
    + intros c Hc. destruct (Nat.eqb_spec c j) as [->|Hcj].
      * rewrite one_at_dot by exact Hs. destruct (Hv (nth j axes O)) as [V1 V2]; [apply nth_In; exact Hj|]. apply grad_ramp; assumption.
      * apply one_at_dot_ne. exact Hcj.
  - apply lsum_0. intros ax Hin. destruct (Nat.eq_dec ax j) as [->|Hn].
    + rewrite one_at_dot by exact Hs. destruct (Hv j Hin) as [V1 V2]. apply grad_ramp_ne; auto.
    + apply one_at_dot_ne. exact Hn.
Qed.

(** ** The relaxation step *)
Definition nbr (s : list nat) (X : list nat -> R) (idx : list nat) (ax : nat) : R :=
  (if Nat.eqb (coord ax idx) 0 then 0 else X (setc ax (coord ax idx - 1) idx))
  + (if Nat.eqb (coord ax idx) (nth ax s O - 1) then 0 else X (setc ax (coord ax idx + 1) idx)).
Definition cnt (s : list nat) (idx : list nat) (ax : nat) : R :=
  (if Nat.eqb (coord ax idx) 0 then 0 else 1) + (if Nat.eqb (coord ax idx) (nth ax s O - 1) then 0 else 1).

Lemma lcw_cnt s axes idx : valid_axes s axes -> inb s idx -> lcw s axes idx = lsum (cnt s idx) axes.
Proof.
  intros Hv Hi. unfold lcw. rewrite Rmult_comm, <- (lsum_const 2 axes).
  assert (E : forall f g : nat -> R, lsum f axes - lsum g axes = lsum (fun a => f a + -1 * g a) axes).
  { intros f g. rewrite lsum_plus, lsum_scal. lra. }
  rewrite E. apply lsum_ext. intros ax Hin. destruct (Hv ax Hin) as [V1 V2]. unfold cnt.
  destruct (Nat.eqb_spec (coord ax idx) 0); destruct (Nat.eqb_spec (coord ax idx) (nth ax s O - 1)); simpl; try lra. lia.
Qed.
Lemma cnt_ge s axes idx : valid_axes s axes -> inb s idx -> INR (length axes) <= lsum (cnt s idx) axes <= 2 * INR (length axes).
Proof.
  intros Hv Hi. split.
  - rewrite <- (Rmult_1_r (INR (length axes))), <- lsum_const. apply lsum_le. intros ax Hin. destruct (Hv ax Hin). unfold cnt.
    destruct (Nat.eqb_spec (coord ax idx) 0); destruct (Nat.eqb_spec (coord ax idx) (nth ax s O - 1)); try lra. lia.
  - rewrite Rmult_comm, <- lsum_const. apply lsum_le. intros ax Hin. unfold cnt.
    destruct (Nat.eqb_spec (coord ax idx) 0); destruct (Nat.eqb_spec (coord ax idx) (nth ax s O - 1)); lra.
Qed.

(** The Laplacian: sum over the axes of gradT(grad x). *)
Lemma laplace_axis s ax x : (ax < length s)%nat -> (2 <= nth ax s O)%nat ->
  exists g, gradT s (Z.of_nat ax) (grad s (Z.of_nat ax) x) = Some g /\
  forall idx, inb s idx -> g idx = cnt s idx ax * x idx - nbr s x idx ax.
Proof.
  intros Hax Hn. destruct (gradT_inb s ax (grad s (Z.of_nat ax) x) Hn Hax) as (g & E & H). exists g. split; [exact E|].
  intros idx Hi. rewrite (H idx Hi). pose proof (inb_coord _ _ _ Hi Hax) as Hc. unfold cnt, nbr.
  assert (Li : (ax < length idx)%nat) by (rewrite (inb_length _ _ Hi); exact Hax).
  rewrite (grad_val s ax x idx Hc).
  destruct (Nat.eqb_spec (coord ax idx) 0) as [E0|E0].
  - destruct (Nat.eqb_spec (coord ax idx) (nth ax s O - 1)); [lia|]. lra.
  - rewrite grad_val by (rewrite coord_setc by exact Li; lia). rewrite coord_setc by exact Li.
    destruct (Nat.eqb_spec (coord ax idx - 1) (nth ax s O - 1)); [lia|].
    assert (R1 : setc ax (coord ax idx - 1 + 1) (setc ax (coord ax idx - 1) idx) = idx).
    { replace (coord ax idx - 1 + 1)%nat with (coord ax idx) by lia.
      destruct (nth_split idx O Li) as (a & b & Ei & La). unfold coord. set (c := nth ax idx O) in *. rewrite Ei.
      rewrite <- La. rewrite setc_at. apply setc_at. }
    rewrite R1. destruct (Nat.eqb_spec (coord ax idx) (nth ax s O - 1)); lra.
Qed.
