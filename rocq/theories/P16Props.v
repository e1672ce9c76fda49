(** C105: promote16, and the nuclear norm functions for arrays of any element type. *)
Require Import Reals List ZArith Lra Lia Arith FunctionalExtensionality.
Require Import Verif.RVec Verif.FiltModel Verif.NucModel Verif.NucSpec Verif.P16Model.
Import ListNotations.
Local Open Scope R_scope.

(** An array of integer type holds integers. *)
Definition valid (u : arr) : Prop := ty u = I64 -> forall i j, exists z, val u i j = IZR z.

Lemma trunc_IZR z : astype_int (IZR z) = z.
Proof.
  assert (P : forall y, Int_part (IZR y) = y).
  { intros y. unfold Int_part. rewrite <- (up_tech (IZR y) y); [lia | lra | rewrite plus_IZR; lra]. }
  unfold astype_int. destruct (Rle_dec 0 (IZR z)); [apply P | ]. rewrite <- opp_IZR, P. lia.
Qed.
(** Truncation of a number of absolute value below one, and of one or minus one. *)
Lemma trunc_small x : Rabs x < 1 -> astype_int x = 0%Z.
Proof.
  intros H. apply Rabs_def2 in H. unfold astype_int.
  assert (P : forall y, 0 <= y < 1 -> Int_part y = 0%Z) by (intros y Hy; unfold Int_part; rewrite <- (up_tech y 0); [lia | lra | simpl; lra]).
  destruct (Rle_dec 0 x); [apply P; lra | ]. rewrite P by lra. reflexivity.
Qed.

(** Without a function: the values of the argument, with a type that is not float16 and differs from that of the argument only for float16. *)
Theorem C105_promote u : valid u ->
  val (promote16 u) = val u /\ (ty u = F16 -> ty (promote16 u) = F32) /\ (ty u <> F16 -> ty (promote16 u) = ty u).
Proof.
  intros Hv. split; [ | split].
  - apply functional_extensionality. intros i. apply functional_extensionality. intros j. unfold promote16, asarray. cbn [val].
    destruct (ty u) eqn:E; cbn [up_dtype conv]; try reflexivity. destruct (Hv E i j) as [z ->]. rewrite trunc_IZR. reflexivity.
  - unfold promote16. cbn. intros ->. reflexivity.
  - unfold promote16. cbn. intros H. destruct (ty u); try reflexivity. contradiction H. reflexivity.
Qed.

(** With a function: as many results as the function returns, all of the type of the argument; the values are those of the function for the
    floating point types ... *)
Theorem C105_apply u fn l : valid u -> promote16_fn u fn = Some l ->
  exists v, fn (promote16 u) = Some v /\ length l = length v /\ (forall a, In a l -> ty a = ty u) /\
    (ty u <> I64 -> map val l = map val v).
Proof.
  intros Hv. unfold promote16_fn. destruct (fn (promote16 u)) as [v|]; [ | discriminate]. cbn [option_map]. intros E. injection E as <-.
  exists v. split; [reflexivity | ]. split; [apply map_length | ]. split.
  - intros a Ha. apply in_map_iff in Ha. destruct Ha as (b & <- & _). reflexivity.
  - intros Ht. rewrite map_map. apply map_ext. intros a. unfold asarray. cbn [val]. destruct (ty u); try contradiction; reflexivity.
Qed.

(** ... so that the nuclear norm is that of the values for every type, and its proximal operator for the floating point types; neither raises. *)
Theorem C105_float svd M N u alpha : valid u ->
  norm_nuclear_t svd M N u = Some (norm_nuclear svd M N (val u)) /\
  prox_nuclear_t svd M N u alpha <> None /\
  (ty u <> I64 -> prox_nuclear_t svd M N u alpha = Some (prox_nuclear svd M N (val u) alpha)).
Proof.
  intros Hv. destruct (C105_promote u Hv) as (E & T1 & T2).
  unfold norm_nuclear_t, prox_nuclear_t, norm_nuclear, prox_nuclear, promote16_fn, np_svd. rewrite E.
  destruct (svd (val u)) as [[U s] V].
  destruct (ty u) eqn:Et; [rewrite T1 by reflexivity | rewrite T2 by discriminate ..]; cbn; repeat split; try discriminate; try reflexivity; congruence.
Qed.

(** For integer matrices the singular vectors are truncated to integers: unless one of them is a coordinate vector up to sign (on both sides),
    the result is the zero matrix, whatever alpha; the returned singular values are those of the truncated ones. *)
Theorem C105_integer svd M N u alpha : valid u -> ty u = I64 -> is_svd M N (val u) (svd (val u)) ->
  let '(U, s, V) := svd (val u) in let K := Nat.min M N in
  exists X ss, prox_nuclear_t svd M N u alpha = Some (X, ss) /\
    (forall k, (k < K)%nat -> exists z, IZR z <= s k < IZR z + 1 /\ ss k = Rmax 0 (IZR z - alpha)) /\
    ((forall i k, (i < M)%nat -> (k < K)%nat -> Rabs (U i k) <> 1) \/ (forall k j, (k < K)%nat -> (j < N)%nat -> Rabs (V k j) <> 1) ->
     forall i j, (i < M)%nat -> (j < N)%nat -> X i j = 0).
Proof.
  intros Hv Ht Hs. destruct (C105_promote u Hv) as (E & _ & T2). unfold prox_nuclear_t, promote16_fn, np_svd. rewrite E, T2, Ht by congruence.
  destruct (svd (val u)) as [[U s] V]. cbn zeta. destruct Hs as (OU & OV & Ps & _). cbn [option_map map asarray val conv]. eexists. eexists. split; [reflexivity | ].
  split.
  - intros k Hk. exists (astype_int (s k)). split; [ | reflexivity]. unfold astype_int. destruct (Rle_dec 0 (s k)) as [_|n]; [ | destruct n; exact (Ps k Hk)].
    destruct (base_Int_part (s k)). lra.
  - assert (B : forall n (f : nat -> R) i, (i < n)%nat -> sumn n (fun i => f i * f i) = 1 -> Rabs (f i) <> 1 -> astype_int (f i) = 0%Z).
    { intros n f i Hi H1 Hn. apply trunc_small. pose proof (sumn_ge_term n (fun i => f i * f i) i (fun j _ => Rle_0_sqr (f j)) Hi) as G. cbv beta in G. rewrite H1 in G.
      destruct (Rle_lt_dec 1 (Rabs (f i))) as [L|L]; [ | exact L]. exfalso. apply Hn. apply Rle_antisym; [ | exact L].
      assert (Rabs (f i) * Rabs (f i) <= 1) by (rewrite <- Rabs_mult, Rabs_right by (apply Rle_ge, Rle_0_sqr); exact G). nra. }
    assert (D : forall k, (k < Nat.min M N)%nat -> delta k k = 1) by (intros k _; unfold delta; rewrite Nat.eqb_refl; reflexivity).
    intros [H|H] i j Hi Hj; unfold mdot; apply sumn_0; intros k Hk.
    + rewrite (B M (fun i => U i k) i Hi) by (try apply H; try assumption; rewrite (OU k k Hk Hk); apply D; exact Hk). ring.
    + rewrite (sumn_0 (Nat.min M N)); [ring | ]. intros l Hl.
      rewrite (B N (fun j => V l j) j Hj) by (try apply H; try assumption; rewrite (OV l l Hl Hl); apply D; exact Hl). ring.
Qed.

(** For instance for the matrix of ones with two rows and columns and alpha = 0, for which the operator is the identity. *)
Definition ones : mat := fun _ _ => 1.
Definition svd_ones : mat -> mat * (nat -> R) * mat := fun _ =>
  let h := / sqrt 2 in let U := fun i j : nat => match i, j with 1%nat, 1%nat => - h | _, _ => h end in
  (U, fun k => match k with O => 2 | _ => 0 end, U).
Lemma half2 : / sqrt 2 * / sqrt 2 = / 2.
Proof. rewrite <- Rinv_mult. rewrite sqrt_sqrt by lra. reflexivity. Qed.
Theorem C105_integer_refuted : is_svd 2 2 ones (svd_ones ones) /\
  (exists X ss, prox_nuclear_t svd_ones 2 2 (mkArr F64 ones) 0 = Some (X, ss) /\ forall i j, (i < 2)%nat -> (j < 2)%nat -> X i j = 1) /\
  (exists X ss, prox_nuclear_t svd_ones 2 2 (mkArr I64 ones) 0 = Some (X, ss) /\ forall i j, (i < 2)%nat -> (j < 2)%nat -> X i j = 0).
Proof.
  pose proof half2 as Hh.
  assert (S : is_svd 2 2 ones (svd_ones ones)).
  { unfold is_svd, svd_ones. cbn zeta. set (h := / sqrt 2) in *. repeat split.
    - intros [|[|a]] [|[|b]] Ha Hb; simpl in Ha, Hb; try lia; cbn; nra.
    - intros [|[|a]] [|[|b]] Ha Hb; simpl in Ha, Hb; try lia; cbn; nra.
    - intros [|k] _; lra.
    - intros [|[|i]] [|[|j]] Hi Hj; try lia; cbn; unfold ones; nra. }
  assert (V : forall d, valid (mkArr d ones)) by (intros d _ i j; exists 1%Z; reflexivity).
  split; [exact S | ]. split.
  - destruct (C105_float svd_ones 2 2 (mkArr F64 ones) 0 (V F64)) as (_ & _ & E). rewrite E by discriminate. eexists. eexists. split; [reflexivity | ].
    cbn [svd_ones]. set (h := / sqrt 2) in *. intros [|[|i]] [|[|j]] Hi Hj; try lia; cbn; rewrite ?(Rmax_right 0 (2 - 0)), ?(Rmax_left 0 (0 - 0)) by lra; nra.
  - pose proof (C105_integer svd_ones 2 2 (mkArr I64 ones) 0 (V I64) eq_refl S) as H. cbn [svd_ones val] in H. destruct H as (X & ss & E & _ & H).
    exists X, ss. split; [exact E | ]. apply H. left.
    assert (G : Rabs (/ sqrt 2) <> 1).
    { intros A. assert (Q : Rabs (/ sqrt 2) * Rabs (/ sqrt 2) = / 2) by (rewrite <- Rabs_mult, Hh; apply Rabs_right; lra). rewrite A in Q. lra. }
    intros [|[|i]] [|[|k]] Hi Hk; simpl in Hk; try lia; try exact G. rewrite Rabs_Ropp. exact G.
Qed.
Print Assumptions C105_promote.
Print Assumptions C105_apply.
Print Assumptions C105_float.
Print Assumptions C105_integer.
Print Assumptions C105_integer_refuted.

Example C105_instance : let u := mkArr F16 ones in valid u /\ ty (promote16 u) = F32 /\
  prox_nuclear_t svd_ones 2 2 u (/ 2) = Some (prox_nuclear svd_ones 2 2 ones (/ 2)).
Proof.
  cbv zeta. assert (V : valid (mkArr F16 ones)) by discriminate. split; [exact V | ]. split; [reflexivity | ].
  apply (C105_float svd_ones 2 2 (mkArr F16 ones) (/ 2) V). discriminate.
Qed.
