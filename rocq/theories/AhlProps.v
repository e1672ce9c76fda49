Require Import List Arith ZArith Bool Lia Reals Lra.
Import ListNotations.
Require Import Verif.RVec Verif.Cplx Verif.CscModel Verif.CscProofs Verif.InnModel Verif.AhlModel Verif.AhlSpec.

(** ** zpad *)
Lemma pad_none : forall s, pad_shape s (repeat (0, 0) (length s)) = s.
Proof. induction s as [|d s IH]; [reflexivity|]. simpl. rewrite IH. f_equal. lia. Qed.
Lemma pad_none_index : forall s i, within s i -> pad_index s (repeat (0, 0) (length s)) i = Some i.
Proof.
  induction 1 as [|d k s i H _ IH]; [reflexivity|]. simpl. destruct (Nat.ltb_spec k d); [|lia]. rewrite IH. rewrite Nat.sub_0_r. reflexivity.
Qed.
Lemma pad_one_shape a b : forall p s, (p < length s)%nat ->
  pad_shape s (repeat (0, 0) p ++ (a, b) :: repeat (0, 0) (length s - p - 1)) = replaced p (a + nth p s O + b) s.
Proof.
  induction p as [|p IH]; intros [|d s] H; simpl in *; try lia.
  - rewrite Nat.sub_0_r, pad_none. reflexivity.
  - rewrite IH by lia. f_equal. lia.
Qed.
Lemma pad_one_index a b : forall p s i, (p < length s)%nat -> within (replaced p (a + nth p s O + b) s) i ->
  pad_index s (repeat (0, 0) p ++ (a, b) :: repeat (0, 0) (length s - p - 1)) i =
  if (Nat.leb a (nth p i O) && Nat.ltb (nth p i O) (a + nth p s O))%bool then Some (replaced p (nth p i O - a) i) else None.
Proof.
  induction p as [|p IH]; intros [|d s] i H W; simpl in H, W; try lia; inversion W; subst.
  - simpl. rewrite Nat.sub_0_r, pad_none_index by assumption. destruct (_ && _)%bool; reflexivity.
  - simpl. match goal with |- context [Nat.ltb ?k d] => destruct (Nat.ltb_spec k d); [|lia] end.
    rewrite IH by (try assumption; lia). destruct (_ && _)%bool; [|reflexivity]. rewrite Nat.sub_0_r. reflexivity.
Qed.
(** The array with zeros before and behind it on one axis, 0 <= ax < ndim; any other ax raises, negative ones included. *)
Theorem C103_zpad (x : arr) (a b p : nat) : (p < length (shp x))%nat ->
  exists r, zpad x (a, b) (Z.of_nat p) = Some r /\ shp r = replaced p (a + nth p (shp x) O + b) (shp x) /\
    forall i, within (shp r) i ->
      ((a <= nth p i O < a + nth p (shp x) O)%nat -> entry r i = entry x (replaced p (nth p i O - a) i)) /\
      (~ (a <= nth p i O < a + nth p (shp x) O)%nat -> entry r i = c0).
Proof.
  intros Hp. unfold zpad, np_pad, ndim. rewrite Nat2Z.id. replace (Z.to_nat (Z.of_nat (length (shp x)) - Z.of_nat p - 1)) with (length (shp x) - p - 1)%nat by lia.
  replace (length (repeat (0, 0) p ++ (a, b) :: repeat (0, 0) (length (shp x) - p - 1))) with (length (shp x)) by (rewrite app_length; simpl; rewrite !repeat_length; lia).
  rewrite Nat.eqb_refl. eexists. split; [reflexivity|]. cbn [shp entry]. rewrite pad_one_shape by exact Hp. split; [reflexivity|].
  intros i W. rewrite pad_one_index by assumption. split; intros H.
  - destruct (Nat.leb_spec a (nth p i O)); [|lia]. destruct (Nat.ltb_spec (nth p i O) (a + nth p (shp x) O)); [|lia]. reflexivity.
  - destruct (Nat.leb_spec a (nth p i O)); destruct (Nat.ltb_spec (nth p i O) (a + nth p (shp x) O)); try reflexivity. exfalso. apply H. lia.
Qed.
Print Assumptions C103_zpad.
Theorem C103_zpad_raises (x : arr) (pd : nat * nat) (ax : Z) : (ax < 0 \/ Z.of_nat (length (shp x)) <= ax)%Z -> zpad x pd ax = None.
Proof.
  intros H. unfold zpad, np_pad, ndim. rewrite app_length. simpl. rewrite !repeat_length.
  destruct (Nat.eqb_spec (Z.to_nat ax + S (Z.to_nat (Z.of_nat (length (shp x)) - ax - 1))) (length (shp x))); [lia|reflexivity].
Qed.
Print Assumptions C103_zpad_raises.

(** ** zdivide *)
(** For a real or complex x of at least the shape of y: z y = x where y is not zero, and z = 0 where it is. *)
Theorem C103_zdivide (x y : arr) : bshape (shp x) (shp y) = Some (shp x) ->
  exists z, zdivide false x y = Some z /\ shp z = shp x /\ forall i,
    (bread (shp y) (entry y) i <> c0 -> cmul (bread (shp y) (entry y) i) (entry z i) = bread (shp x) (entry x) i) /\
    (bread (shp y) (entry y) i = c0 -> entry z i = c0).
Proof.
  intros H. unfold zdivide. rewrite H. destruct (list_eq_dec Nat.eq_dec (shp x) (shp x)) as [_|N]; [|contradiction N; reflexivity].
  eexists. split; [reflexivity|]. split; [reflexivity|]. intros i. cbn [entry]. cbv zeta. set (v := bread (shp y) (entry y) i). split.
  - intros Hv. destruct (Req_EM_T (re v) 0) as [R0|R0]; [destruct (Req_EM_T (im v) 0) as [I0|I0]|].
    + exfalso. apply Hv. destruct v. unfold re, im in *. simpl in *. subst. reflexivity.
    + apply cdiv_mul. exact Hv.
    + apply cdiv_mul. exact Hv.
  - intros ->. simpl. destruct (Req_EM_T 0 0); [reflexivity|contradiction].
Qed.
Print Assumptions C103_zdivide.
(** An integer numerator raises, and so does a numerator that would have to be broadcast. *)
Theorem C103_zdivide_refuted (x y : arr) :
  zdivide true x y = None /\ zdivide false (mkArr [1] (fun _ => c1)) (mkArr [3] (fun _ => c1)) = None /\ bshape [1] [3] = Some [3].
Proof. repeat split. Qed.
Print Assumptions C103_zdivide_refuted.

(** ** atleast_nd *)
Theorem C103_atleast_nd (n : nat) (u : arr) :
  length (shp (atleast_nd n u)) = Nat.max n (length (shp u)) /\ (exists k, shp (atleast_nd n u) = shp u ++ repeat 1 k) /\
  (forall i k, length i = length (shp u) -> length (i ++ repeat O k) = Nat.max n (length (shp u)) -> entry (atleast_nd n u) (i ++ repeat O k) = entry u i).
Proof.
  unfold atleast_nd, ndim. destruct (Nat.leb_spec n (length (shp u))).
  - split; [lia|]. split; [exists O; rewrite app_nil_r; reflexivity|]. intros i k Hi Hk. rewrite app_length, repeat_length in Hk.
    replace k with O by lia. rewrite app_nil_r. reflexivity.
  - cbn [shp entry]. rewrite app_length, repeat_length. split; [lia|]. split; [eexists; reflexivity|]. intros i k Hi _. f_equal. rewrite <- Hi.
    rewrite firstn_app, Nat.sub_diag, firstn_all. simpl. apply app_nil_r.
Qed.
Print Assumptions C103_atleast_nd.

(** ** split *)
Lemma del_without : forall p l, del p l = without p l.
Proof. induction p as [|p IH]; intros [|h t]; simpl; try reflexivity; try (f_equal; apply IH). Qed.
Lemma ins_without : forall p i, (p < length i)%nat -> ins p (nth p i O) (without p i) = i.
Proof. induction p as [|p IH]; intros [|h t] H; simpl in *; try lia; [reflexivity|]. rewrite IH by lia. reflexivity. Qed.
Lemma norm_in n a : (- Z.of_nat n <= a < Z.of_nat n)%Z -> norm_axis n a = Some (Z.to_nat (if Z.ltb a 0 then a + Z.of_nat n else a)).
Proof. intros H. unfold norm_axis. destruct (Z.leb_spec (- Z.of_nat n) a); [|lia]. destruct (Z.ltb_spec a (Z.of_nat n)); [|lia]. reflexivity. Qed.
(** For an axis in range, positive or negative: as many arrays as the size of the axis, without that axis, and every entry of u in its place. *)
Theorem C103_split (u : arr) (axis : Z) (p : nat) : (p < length (shp u))%nat ->
  (axis = Z.of_nat p \/ axis = (Z.of_nat p - Z.of_nat (length (shp u)))%Z) ->
  exists l, split u axis = Some l /\ length l = nth p (shp u) O /\ (forall v, In v l -> shp v = without p (shp u)) /\
    (forall i, length i = length (shp u) -> (nth p i O < nth p (shp u) O)%nat -> forall d, entry (nth (nth p i O) l d) (without p i) = entry u i).
Proof.
  intros Hp Hax. unfold split, ndim.
  assert (N : (if (axis <? 0)%Z then (Z.of_nat (length (shp u)) + axis)%Z else axis) = Z.of_nat p) by (destruct (Z.ltb_spec axis 0); lia).
  rewrite N. cbv zeta. rewrite norm_in by lia. destruct (Z.ltb_spec (Z.of_nat p) 0); [lia|]. rewrite Nat2Z.id. rewrite Nat.ltb_irrefl.
  eexists. split; [reflexivity|]. split; [rewrite map_length, seq_length; reflexivity|]. split.
  - intros v Hv. apply in_map_iff in Hv. destruct Hv as (k & <- & _). cbn [shp]. apply del_without.
  - intros i Hi Hk d. set (f := fun k => mkArr (del p (shp u)) (fun i => entry u (ins p k i))).
    rewrite (nth_indep _ d (f O)) by (rewrite map_length, seq_length; exact Hk). rewrite map_nth, seq_nth by exact Hk. unfold f. cbn [entry]. simpl Nat.add.
    rewrite ins_without by lia. reflexivity.
Qed.
Print Assumptions C103_split.
(** An axis out of range by less than the number of dimensions does not raise: axis -3 of a square matrix splits it into its rows. *)
Theorem C103_split_refuted (n : nat) (e : list nat -> C) : split (mkArr [n; n] e) (-3) = split (mkArr [n; n] e) 0.
Proof. unfold split. cbn [ndim shp length]. reflexivity. Qed.
Print Assumptions C103_split_refuted.

(** Cases meeting the hypotheses. *)
Example C103_instance : bshape [2; 3] [1; 3] = Some [2; 3] /\ (exists r, zpad (mkArr [2; 3] (fun _ => c1)) (1, 2) 1 = Some r /\ shp r = [2; 6]) /\
  (exists l, split (mkArr [2; 3] (fun _ => c1)) (-1) = Some l /\ length l = 3).
Proof. split; [reflexivity|]. split; eexists; split; reflexivity. Qed.
