Require Import List Arith ZArith Bool Lia Reals Lra.
Import ListNotations.
Require Import Verif.RVec Verif.Cplx Verif.InnModel Verif.InnSpec.

Lemma del_len a : forall l, (a < length l)%nat -> length (del a l) = (length l - 1)%nat.
Proof. induction a as [|a IH]; intros [|h t] H; simpl in *; try lia. rewrite IH by lia. lia. Qed.
Lemma bzip_len : forall s t r, bzip s t = Some r -> length s = length r /\ length t = length r.
Proof.
  induction s as [|d s IH]; intros [|e t] r H; simpl in H; try discriminate; [injection H as <-; auto|].
  destruct (bdim d e); [|discriminate]. destruct (bzip s t) as [q|] eqn:E; [|discriminate]. injection H as <-. destruct (IH t q E). simpl. lia.
Qed.
Lemma bzip_at a : forall s t, length s = length t -> (a < length s)%nat ->
  bzip s t = match bdim (nth a s O) (nth a t O), bzip (del a s) (del a t) with Some m, Some r => Some (ins a m r) | _, _ => None end.
Proof.
  induction a as [|a IH]; intros [|d s] [|e t] Hl Ha; simpl in *; try lia; [reflexivity|].
  rewrite (IH s t) by lia. destruct (bdim (nth a s O) (nth a t O)), (bdim d e), (bzip (del a s) (del a t)); reflexivity.
Qed.
Lemma bidx_ins a k : forall s r, (a < length s)%nat -> length s = S (length r) ->
  bidx s (ins a k r) = ins a (bidx1 (nth a s O) k) (bidx (del a s) r).
Proof.
  induction a as [|a IH]; intros [|d s] r Ha Hl; simpl in *; try lia; [reflexivity|].
  destruct r as [|h r]; simpl in *; [lia|]. rewrite IH by lia. reflexivity.
Qed.
Lemma put_ins a k : forall i, (a < length i)%nat -> put a k i = ins a k (del a i).
Proof. induction a as [|a IH]; intros [|h t] H; simpl in *; try lia; [reflexivity|]. rewrite IH by lia. reflexivity. Qed.
Lemma nth_ins a m : forall r, (a <= length r)%nat -> nth a (ins a m r) O = m.
Proof. induction a as [|a IH]; intros [|h t] H; simpl in *; try lia; try reflexivity. apply IH. lia. Qed.
Lemma put_of_ins a k m : forall r, (a <= length r)%nat -> put a k (ins a m r) = ins a k r.
Proof. induction a as [|a IH]; intros [|h t] H; simpl in *; try lia; try reflexivity. f_equal. apply IH. lia. Qed.
Lemma ins_len a k : forall r, length (ins a k r) = S (length r).
Proof. induction a as [|a IH]; intros [|h t]; simpl; try reflexivity. rewrite IH. reflexivity. Qed.
Lemma bshape_eq s t : length s = length t -> bshape s t = bzip s t.
Proof. intros H. unfold bshape, pad. rewrite H, Nat.max_id, Nat.sub_diag. reflexivity. Qed.
Lemma bread_eq s e i : length i = length s -> bread s e i = e (bidx s i).
Proof. intros H. unfold bread. rewrite H, Nat.sub_diag. reflexivity. Qed.
Lemma norm_axis_nat n a : (a < n)%nat -> norm_axis n (Z.of_nat a) = Some a.
Proof.
  intros H. unfold norm_axis. destruct (Z.leb_spec (- Z.of_nat n) (Z.of_nat a)); [|lia]. destruct (Z.ltb_spec (Z.of_nat a) (Z.of_nat n)); [|lia].
  destruct (Z.ltb_spec (Z.of_nat a) 0); [lia|]. simpl. rewrite Nat2Z.id. reflexivity.
Qed.

(** The code after the normalisation of the axis. *)
Lemma inner_at x y (a : nat) : ndim x = ndim y -> (a < ndim x)%nat ->
  same_result (inner x y (Z.of_nat a)) (sum_product x y (Z.of_nat a)).
Proof.
  destruct x as [s ex], y as [t ey]. unfold ndim. simpl. intros Hl Ha.
  assert (D : length (del a s) = length (del a t)) by (rewrite !del_len by lia; lia).
  unfold sum_product, product. simpl shp. simpl entry. rewrite bshape_eq, (bzip_at a) by assumption.
  assert (I : inner (mkArr s ex) (mkArr t ey) (Z.of_nat a) =
    match bdim (nth a s O) (nth a t O), bzip (del a s) (del a t) with
    | Some m, Some b => Some (mkArr (ins a 1 b) (fun i => csumn m (fun k =>
        cmul (bread (del a s) (fun r => ex (ins a (bidx1 (nth a s O) k) r)) (del a i)) (bread (del a t) (fun r => ey (ins a (bidx1 (nth a t O) k) r)) (del a i)))))
    | _, _ => None end \/
    (a = O /\ inner (mkArr s ex) (mkArr t ey) (Z.of_nat a) = einsum0 (mkArr s ex) (mkArr t ey))).
  { unfold inner. destruct (Z.ltb_spec (Z.of_nat a) 0); [lia|]. destruct (Z.eqb_spec (Z.of_nat a) 0) as [E|E].
    - right. split; [lia|]. destruct (einsum0 _ _); reflexivity.
    - left. unfold move_front, ndim. simpl shp. simpl entry. rewrite !norm_axis_nat by lia. unfold einsum0. cbn [shp entry]. cbv iota. rewrite bshape_eq by exact D.
      destruct (bdim _ _) as [m|]; [|reflexivity]. destruct (bzip (del a s) (del a t)) as [b|] eqn:B; [|reflexivity].
      unfold move_back, ndim. simpl shp. simpl entry. destruct (bzip_len _ _ _ B) as [B1 _]. rewrite del_len in B1 by lia. simpl length. rewrite norm_axis_nat by lia. reflexivity. }
  destruct I as [I|[-> I]].
  - rewrite I. destruct (bdim _ _) as [m|]; [|exact Logic.I]. destruct (bzip (del a s) (del a t)) as [b|] eqn:B; [|exact Logic.I].
    destruct (bzip_len _ _ _ B) as [B1 B2]. rewrite del_len in B1, B2 by lia. unfold sum_keepdims, ndim. simpl shp. simpl entry. rewrite ins_len.
    destruct (Z.leb_spec (- Z.of_nat (S (length b))) (Z.of_nat a)); [|lia]. destruct (Z.ltb_spec (Z.of_nat a) (Z.of_nat (S (length b)))); [|lia].
    destruct (Z.ltb_spec (Z.of_nat a) 0); [lia|]. cbv [andb]. rewrite Nat2Z.id. unfold same_result. cbv beta iota. cbn [shp entry].
    rewrite nth_ins, put_of_ins by lia. split; [reflexivity|]. intros i Hi. rewrite ins_len in Hi. apply csumn_ext. intros k _.
    rewrite put_ins by lia. rewrite (bread_eq (del a s)), (bread_eq (del a t)) by (rewrite !del_len by lia; lia).
    rewrite (bread_eq s), (bread_eq t) by (rewrite ins_len, del_len by lia; lia). rewrite !bidx_ins by (rewrite ?del_len by lia; lia). reflexivity.
  - rewrite I. destruct s as [|d s], t as [|e t]; simpl in Hl, Ha; try lia. unfold einsum0. cbn [shp entry]. cbn [nth del]. simpl in D. rewrite bshape_eq by exact D.
    destruct (bdim d e) as [m|]; [|exact Logic.I]. destruct (bzip s t) as [b|] eqn:B; [|exact Logic.I]. destruct (bzip_len _ _ _ B) as [B1 B2].
    unfold sum_keepdims, ndim. cbn [shp entry ins]. simpl length.
    destruct (Z.leb_spec (- Z.of_nat (S (length b))) (Z.of_nat 0)); [|lia]. destruct (Z.ltb_spec (Z.of_nat 0) (Z.of_nat (S (length b)))); [|lia].
    cbv [andb]. change (Z.to_nat (if (Z.of_nat 0 <? 0)%Z then (Z.of_nat 0 + Z.of_nat (S (length b)))%Z else Z.of_nat 0)) with O. unfold same_result. cbn [shp entry nth put]. split; [reflexivity|].
    intros [|h i] Hi; simpl in Hi; [lia|]. apply csumn_ext. intros k _. cbn [tl put].
    rewrite (bread_eq s), (bread_eq t) by lia. rewrite (bread_eq (d :: s)), (bread_eq (e :: t)) by (simpl; lia). reflexivity.
Qed.

(** For arrays with the same number of dimensions and an axis in range, positive or negative: the same exceptions, shape and entries as
    np.sum(x * y, axis, keepdims=True), broadcasting included. *)
Theorem C102_inner (x y : arr) (axis : Z) : length (shp x) = length (shp y) -> (- Z.of_nat (length (shp x)) <= axis < Z.of_nat (length (shp x)))%Z ->
  same_result (inner x y axis) (sum_product x y axis).
Proof.
  intros Hl Ha. destruct (Z.ltb_spec axis 0) as [Hn|Hp].
  - set (a := Z.to_nat (axis + Z.of_nat (length (shp x)))). assert (E : Z.of_nat a = (axis + Z.of_nat (length (shp x)))%Z) by (unfold a; lia).
    pose proof (inner_at x y a Hl ltac:(unfold ndim; lia)) as K.
    assert (E1 : inner x y axis = inner x y (Z.of_nat a)).
    { unfold inner, ndim. destruct (Z.ltb_spec axis 0); [|lia]. destruct (Z.ltb_spec (Z.of_nat a) 0); [lia|]. rewrite E, (Z.add_comm axis). reflexivity. }
    assert (E2 : sum_product x y axis = sum_product x y (Z.of_nat a)).
    { unfold sum_product, product. rewrite bshape_eq by exact Hl. destruct (bzip (shp x) (shp y)) as [b|] eqn:B; [|reflexivity].
      destruct (bzip_len _ _ _ B) as [B1 _]. unfold sum_keepdims, ndim. cbn [shp entry]. rewrite <- B1.
      destruct (Z.leb_spec (- Z.of_nat (length (shp x))) axis); [|lia]. destruct (Z.ltb_spec axis (Z.of_nat (length (shp x)))); [|lia].
      destruct (Z.leb_spec (- Z.of_nat (length (shp x))) (Z.of_nat a)); [|lia]. destruct (Z.ltb_spec (Z.of_nat a) (Z.of_nat (length (shp x)))); [|lia].
      destruct (Z.ltb_spec axis 0); [|lia]. destruct (Z.ltb_spec (Z.of_nat a) 0); [lia|]. rewrite E. reflexivity. }
    rewrite E1, E2. exact K.
  - pose proof (inner_at x y (Z.to_nat axis) Hl ltac:(unfold ndim; lia)) as K. rewrite Z2Nat.id in K by lia. exact K.
Qed.
Print Assumptions C102_inner.

(** Two arrays with different numbers of dimensions: a negative axis counts from the end of the first array in both, so that the sum runs
    over another axis (same sizes, no exception), and ... *)
Definition vec3 : arr := mkArr [3] (fun i => match i with [k] => if Nat.eqb k 0 then c1 else c0 | _ => c0 end).
Definition mat33 : arr := mkArr [3; 3] (fun i => match i with [j; k] => if (Nat.eqb j 0 && Nat.eqb k 1)%bool then c1 else c0 | _ => c0 end).
Theorem C102_inner_dimensions_refuted :
  exists u v, inner vec3 mat33 (-1) = Some u /\ sum_product vec3 mat33 (-1) = Some v /\ shp u = [1; 3] /\ shp v = [3; 1] /\
    entry u [0; 1] = c1 /\ (forall j, entry v [j; 0] = c0).
Proof.
  eexists. eexists. split; [reflexivity|]. split; [reflexivity|]. split; [reflexivity|]. split; [reflexivity|]. split.
  - cbn. unfold csumn. apply c_eq; cbn; lra.
  - intros [|j]; cbn; change (Pos.to_nat 1) with 1%nat; unfold csumn; apply c_eq; cbn; lra.
Qed.
Print Assumptions C102_inner_dimensions_refuted.
(** ... an array with fewer dimensions as second argument raises, although the product can be broadcast. *)
Theorem C102_inner_raises_refuted : inner mat33 vec3 (-1) = None /\ exists v, sum_product mat33 vec3 (-1) = Some v.
Proof. split; [reflexivity|]. eexists. reflexivity. Qed.
Print Assumptions C102_inner_raises_refuted.
(** An axis that is out of range by less than the number of dimensions is taken for another axis: axis -4 of three dimensions is axis -1. *)
Theorem C102_inner_range_refuted (x y : arr) : length (shp x) = 3 -> length (shp y) = 3 ->
  same_result (inner x y (-4)) (inner x y (-1)) /\ sum_product x y (-4) = None.
Proof.
  intros Hx Hy. split.
  - unfold inner, ndim. rewrite Hx. change (if (-4 <? 0)%Z then (Z.of_nat 3 + -4)%Z else (-4)%Z) with (-1)%Z.
    change (if (-1 <? 0)%Z then (Z.of_nat 3 + -1)%Z else (-1)%Z) with 2%Z. cbv zeta. change (Z.eqb (-1) 0) with false. change (Z.eqb 2 0) with false. cbv iota.
    unfold move_front, ndim. rewrite Hx, Hy. change (norm_axis 3 (-1)) with (Some 2). change (norm_axis 3 2) with (Some 2). cbv iota.
    destruct (einsum0 _ _) as [ip|] eqn:E; [|exact Logic.I].
    assert (L : length (shp ip) = 3).
    { unfold einsum0 in E. cbn [shp] in E. rewrite bshape_eq in E by (rewrite !del_len; lia). destruct (bdim _ _); [|discriminate].
      destruct (bzip _ _) as [b|] eqn:B; [|discriminate]. injection E as <-. destruct (bzip_len _ _ _ B) as [B1 _]. rewrite del_len in B1 by lia. simpl. lia. }
    unfold move_back, ndim. rewrite L. change (norm_axis 3 (-1)) with (Some 2). change (norm_axis 3 2) with (Some 2). simpl. split; reflexivity.
  - unfold sum_product, product. rewrite bshape_eq by lia. destruct (bzip _ _) as [b|] eqn:B; [|reflexivity]. destruct (bzip_len _ _ _ B) as [B1 _].
    unfold sum_keepdims, ndim. cbn [shp]. rewrite <- B1, Hx. reflexivity.
Qed.
Print Assumptions C102_inner_range_refuted.

(** ** dot *)
Definition inside (s i : list nat) : Prop := Forall2 (fun d k => (k < d)%nat) s i.
Lemma bidx_inside s i : inside s i -> bidx s i = i.
Proof. induction 1 as [|d k s i H _ IH]; [reflexivity|]. simpl. rewrite IH. f_equal. unfold bidx1. destruct (Nat.eqb_spec d 1); [lia|reflexivity]. Qed.
Lemma inside_len s i : inside s i -> length i = length s.
Proof. induction 1; simpl; lia. Qed.
Lemma bzip_ones : forall s, bzip (repeat 1 (length s)) s = Some s.
Proof. induction s as [|d s IH]; [reflexivity|]. simpl. rewrite IH. unfold bdim. destruct (Nat.eqb_spec 1 d); [subst; reflexivity|reflexivity]. Qed.
Lemma dot_shape M0 M1 : forall p s, (p < length s)%nat ->
  bzip (repeat 1 p ++ M0 :: M1 :: repeat 1 (length s - p - 1)) (ins p 1 s) =
  match bdim M1 (nth p s O) with Some m => Some (ins p M0 (put p m s)) | None => None end.
Proof.
  induction p as [|p IH]; intros [|h s] Hp; simpl in Hp; try lia.
  - simpl. rewrite Nat.sub_0_r, bzip_ones. unfold bdim at 1. destruct (Nat.eqb_spec M0 1) as [->|]; simpl; destruct (bdim M1 h); reflexivity.
  - simpl. rewrite IH by lia. unfold bdim at 1. destruct (bdim M1 (nth p s O)); destruct (Nat.eqb_spec 1 h); subst; reflexivity.
Qed.
Lemma put_same : forall p s, put p (nth p s O) s = s.
Proof. induction p as [|p IH]; intros [|h s]; simpl; try reflexivity. rewrite IH. reflexivity. Qed.
Lemma del_ins_next M : forall p s, (p < length s)%nat -> del (p + 1) (ins p M s) = put p M s.
Proof. induction p as [|p IH]; intros [|h s] H; simpl in *; try lia; try reflexivity. rewrite IH by lia. reflexivity. Qed.
Lemma nth_ins_next M : forall p s, (p < length s)%nat -> nth (p + 1) (ins p M s) O = nth p s O.
Proof. induction p as [|p IH]; intros [|h s] H; simpl in *; try lia; try reflexivity. apply IH. lia. Qed.
Lemma read_b : forall p k s i, (p < length s)%nat -> inside (put p (S k) s) (put p k i) -> length i = length s -> (k < nth p s O)%nat ->
  del p (bidx (ins p 1 s) (ins (p + 1) k i)) = put p k i.
Proof.
  induction p as [|p IH]; intros k [|h s] [|j i] Hp Hin Hl Hk; simpl in *; try lia.
  - inversion Hin; subst. rewrite bidx_inside by assumption. f_equal. unfold bidx1. destruct (Nat.eqb_spec h 1); lia.
  - inversion Hin; subst. rewrite IH by (try assumption; lia). f_equal. unfold bidx1. destruct (Nat.eqb_spec h 1); lia.
Qed.
Lemma read_a M0 M1 q : forall p k i, (p < length i)%nat -> (length i - p - 1 <= q)%nat -> (nth p i O < M0)%nat -> (k < M1)%nat ->
  nth p (bidx (repeat 1 p ++ M0 :: M1 :: repeat 1 q) (ins (p + 1) k i)) O = nth p i O /\
  nth (p + 1) (bidx (repeat 1 p ++ M0 :: M1 :: repeat 1 q) (ins (p + 1) k i)) O = k.
Proof.
  induction p as [|p IH]; intros k [|j i] Hp Hq Hi Hk; simpl in *; try lia.
  - unfold bidx1. destruct (Nat.eqb_spec M0 1), (Nat.eqb_spec M1 1); lia.
  - apply IH; lia.
Qed.
(** With matching sizes and an axis in range: entry i of the result is the sum over k of a[i_axis, k] b[.., k, ..]. *)
Theorem C102_dot (M0 M1 : nat) (a : nat -> nat -> C) (b : arr) (axis : Z) (p : nat) : (p < length (shp b))%nat ->
  (axis = Z.of_nat p \/ axis = (Z.of_nat p - Z.of_nat (length (shp b)))%Z) -> nth p (shp b) O = M1 ->
  exists r, dot_matrix M0 M1 a b axis = Some r /\ shp r = put p M0 (shp b) /\
    forall i, Forall2 (fun d k => (k < d)%nat) (put p M0 (shp b)) i -> entry r i = csumn M1 (fun k => cmul (a (nth p i O) k) (entry b (put p k i))).
Proof.
  intros Hp Hax Hm. unfold dot_matrix, ndim.
  assert (N : (if (axis <? 0)%Z then (Z.of_nat (length (shp b)) + axis)%Z else axis) = Z.of_nat p) by (destruct (Z.ltb_spec axis 0); lia).
  rewrite N. cbv zeta. destruct (Z.leb_spec 0 (Z.of_nat p)); [|lia]. destruct (Z.ltb_spec (Z.of_nat p) (Z.of_nat (length (shp b)))); [|lia]. cbv [andb].
  rewrite Nat2Z.id. rewrite bshape_eq.
  2:{ rewrite app_length, repeat_length. simpl. rewrite repeat_length, ins_len. lia. }
  assert (PS : put p M1 (shp b) = shp b) by (rewrite <- Hm; apply put_same). rewrite (dot_shape M0 M1 p (shp b) Hp), Hm. unfold bdim. rewrite Nat.eqb_refl, PS.
  eexists. split; [reflexivity|]. cbn [shp entry]. rewrite del_ins_next by exact Hp. split; [reflexivity|]. intros i Hi.
  assert (PL : forall m s, length (put p m s) = length s) by (clear; induction p as [|p IH]; intros m [|h s]; simpl; try reflexivity; rewrite IH; reflexivity).
  pose proof (inside_len _ _ Hi) as Li. rewrite PL in Li. rewrite nth_ins_next, Hm by exact Hp. apply csumn_ext. intros k Hk.
  assert (IH : (nth p i O < M0)%nat /\ inside (put p (S k) (shp b)) (put p k i)).
  { clear - Hi Hp. revert i Hi. generalize dependent (shp b). induction p as [|p IH]; intros [|h s] Hp i Hi; simpl in *; try lia.
    - inversion Hi; subst. simpl. split; [assumption|]. constructor; [lia|assumption].
    - inversion Hi; subst. simpl. destruct (IH s ltac:(lia) l' ltac:(assumption)) as [A B]. split; [exact A|]. constructor; assumption. }
  destruct IH as [IH1 IH2].
  rewrite !bread_eq by (rewrite ?app_length, ?repeat_length; simpl; rewrite ?repeat_length, !ins_len; lia).
  destruct (read_a M0 M1 (length (shp b) - p - 1) p k i ltac:(lia) ltac:(lia) IH1 Hk) as [A B]. rewrite A, B.
  rewrite read_b by (try assumption; lia). reflexivity.
Qed.
Print Assumptions C102_dot.
(** Sizes that do not match are broadcast, where numpy.dot raises: a (1, 1) matrix and b of size 2. *)
Theorem C102_dot_sizes_refuted (a : nat -> nat -> C) (b : list nat -> C) :
  exists r, dot_matrix 1 1 a (mkArr [2; 3] b) 0 = Some r /\ shp r = [1; 3] /\
    forall j, (j < 3)%nat -> entry r [0; j] = cadd (cmul (a O O) (b [0; j])) (cmul (a O O) (b [1; j])).
Proof.
  eexists. split; [reflexivity|]. split; [reflexivity|]. intros j Hj. cbn [entry]. unfold csumn. apply c_eq; cbn; unfold bread; cbn; ring.
Qed.
Print Assumptions C102_dot_sizes_refuted.

(** A case meeting the hypotheses: a (2, 3) and a (1, 3) array on the last axis. *)
Example C102_instance : exists u, inner (mkArr [2; 3] (fun _ => c1)) (mkArr [1; 3] (fun _ => c1)) (-1) = Some u /\ shp u = [2; 1] /\ entry u [1; 0] = ofR 3.
Proof. eexists. split; [reflexivity|]. split; [reflexivity|]. cbn. change (Pos.to_nat 2) with 2%nat. change (Pos.to_nat 1) with 1%nat. unfold csumn. apply c_eq; cbn; lra. Qed.
