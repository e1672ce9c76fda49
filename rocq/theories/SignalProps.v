(** C25: finite differences; C26: total variation operators; C27: the relaxation step of the TV denoising solvers. *)
Require Import List Arith ZArith Reals Bool Lia Lra.
Require Import Verif.NdIndex Verif.RVec Verif.NdSum Verif.SignalModel Verif.SignalProofs.
Import ListNotations.
Local Open Scope R_scope.

(** ** C25 *)
Theorem C25_adjoint (s : list nat) (ax : nat) (x y : list nat -> R) :
  (ax < length s)%nat -> (2 <= nth ax s O)%nat ->
  exists g, gradT s (Z.of_nat ax) y = Some g /\ ndot s (grad s (Z.of_nat ax) x) y = ndot s x g.
Proof. apply adjoint_ok. Qed.
Print Assumptions C25_adjoint.
(** The gradient is the forward difference, zero on the last sample. *)
Theorem C25_forward_difference (p q : list nat) (n : nat) (x : list nat -> R) (a b : list nat) (i : nat) :
  inb p a -> inb q b -> (i < n)%nat ->
  grad (p ++ n :: q) (Z.of_nat (length p)) x (a ++ i :: b) =
  if Nat.eqb (S i) n then 0 else x (a ++ S i :: b) - x (a ++ i :: b).
Proof.
  intros Ha Hb Hi. assert (La := inb_length _ _ Ha).
  assert (Hn : nth (length p) (p ++ n :: q) O = n) by (rewrite app_nth2 by lia; rewrite Nat.sub_diag; reflexivity).
  rewrite grad_val; rewrite Hn; rewrite <- La; rewrite !coord_at; [|exact Hi]. rewrite setc_at.
  replace (i + 1)%nat with (S i) by lia.
  destruct (Nat.eqb_spec i (n - 1)); destruct (Nat.eqb_spec (S i) n); try lia; reflexivity.
Qed.
Print Assumptions C25_forward_difference.
Example C25_ex : let x := fun idx => INR (coord 0 idx * coord 1 idx) in
  grad [2; 3]%nat 1 x [1; 1]%nat = 1 /\ grad [2; 3]%nat 1 x [1; 2]%nat = 0 /\ (2 <= nth 1 [2; 3]%nat O)%nat.
Proof. cbv [grad roll_m1 np_axis slc_axis coord setc]; simpl. split; [|split]; [lra|reflexivity|lia]. Qed.

(** With zero padding the gradient has one more sample on the axis. *)
Theorem C25_adjoint_zero_pad (p q : list nat) (n : nat) (x y : list nat -> R) :
  ndot (p ++ S n :: q) (grad_zp (p ++ n :: q) (Z.of_nat (length p)) x) y =
  ndot (p ++ n :: q) x (gradT_zp (p ++ S n :: q) (Z.of_nat (length p)) y).
Proof.
  unfold ndot. apply ndsum_axis. intros a b Ha Hb. assert (La := inb_length _ _ Ha).
  unfold grad_zp, gradT_zp. rewrite !np_axis_nat.
  assert (Hn : nth (length p) (p ++ n :: q) O = n) by (rewrite app_nth2 by lia; rewrite Nat.sub_diag; reflexivity).
  rewrite Hn. rewrite <- La.
  rewrite (sumn_ext (S n) _ (fun i => ((if Nat.eqb i n then 0 else x (a ++ i :: b)) - (if Nat.eqb i 0 then 0 else x (a ++ (i - 1)%nat :: b))) * y (a ++ i :: b))).
  2: { intros i Hi. repeat (rewrite ?coord_at, ?setc_at).
       replace (Nat.eqb (i + 1) 0) with false by (symmetry; apply Nat.eqb_neq; lia).
       replace (Nat.eqb i (n + 1)) with false by (symmetry; apply Nat.eqb_neq; lia).
       replace (i + 1 - 1)%nat with i by lia.
       destruct (Nat.eqb_spec (i + 1) (n + 1)); destruct (Nat.eqb_spec i n); try lia; reflexivity. }
  rewrite (by_parts_zp n (fun i => x (a ++ i :: b)) (fun i => y (a ++ i :: b))).
  apply sumn_ext. intros i Hi. rewrite !coord_at, setc_at. reflexivity.
Qed.
Print Assumptions C25_adjoint_zero_pad.

(** An axis with one sample makes gradT fail. *)
Theorem C25_one_sample_refuted (s : list nat) (ax : nat) (y : list nat -> R) :
  nth ax s O = 1%nat -> gradT s (Z.of_nat ax) y = None.
Proof. intros H. unfold gradT. rewrite slc_axis_nat, H. reflexivity. Qed.
Print Assumptions C25_one_sample_refuted.

(** A negative axis, accepted without error, gives operators which are not adjoint: the boundary samples are set on the
    first axis although the difference is along the last. *)
Theorem C25_negative_axis_refuted : exists (s : list nat) (x y g : list nat -> R),
  gradT s (-1) y = Some g /\ ndot s (grad s (-1) x) y <> ndot s x g.
Proof.
  exists [2; 2]%nat, (fun idx => if Nat.eqb (coord 0 idx) 0 then (if Nat.eqb (coord 1 idx) 1 then 1 else 0) else 0),
    (fun idx => if Nat.eqb (coord 0 idx) 0 then 1 else 0).
  eexists. split; [reflexivity|].
  cbv [ndot ndsum sumn grad roll_m1 roll_p1 np_axis slc_axis coord setc nth Nat.eqb Z.to_nat Z.ltb Z.compare length Z.of_nat Z.add firstn skipn app Nat.sub Nat.add Nat.modulo Nat.divmod Pos.to_nat Z.pos_sub Pos.iter_op Pos.of_succ_nat Pos.succ Pos.pred_double fst snd].
  lra.
Qed.
Print Assumptions C25_negative_axis_refuted.

(** ** C26 *)
(** The operators of the l2 total variation solver are adjoint exactly when the axes are 0, 1, 2, ... in this order. *)
Theorem C26_tvl2_adjoint_iff (s axes : list nat) :
  valid_axes s axes -> Forall (fun n => 0 < n)%nat s ->
  (forall x y, exists g, tv_AT s axes y = Some g /\
     sumn (length axes) (fun c => ndot s (tv_A s axes x c) (y c)) = ndot s x g) <-> axes = seq 0 (length axes).
Proof.
  intros Hv Hs. unfold tv_AT, tv_A. rewrite seq_char. split.
  - intros H j Hj. destruct (Nat.eq_dec (nth j axes O) j) as [E|E]; [exact E|exfalso].
    destruct (wrong_axes s axes j Hv Hs Hj E) as [W1 W2].
    destruct (H (ramp (nth j axes O)) (one_at s j)) as (g & Eg & Hg).
    destruct (AT_inner s (length axes) axes (ramp (nth j axes O)) (one_at s j) Hv (AT_some _ _ _ _ _ Eg)) as (h & Eh & Hh).
    rewrite Eg in Eh. injection Eh as <-. rewrite W1 in Hg. rewrite W2 in Hh. lra.
  - intros H x y.
    destruct (AT_inner s (length axes) axes x y Hv) as (h & Eh & Hh).
    { intros ax Hin. apply In_nth with (d := O) in Hin. destruct Hin as (c & Hc & <-). rewrite H by exact Hc. exact Hc. }
    exists h. split; [exact Eh|]. rewrite Hh, lsum_sumn. apply sumn_ext. intros c Hc. rewrite (H c Hc). reflexivity.
Qed.
Print Assumptions C26_tvl2_adjoint_iff.

(** The same for the l1 solver, whose last component is the array itself. *)
Theorem C26_tvl1_adjoint_iff (s axes : list nat) :
  valid_axes s axes -> Forall (fun n => 0 < n)%nat s ->
  (forall x y, exists g, tv1_AT s axes y = Some g /\
     sumn (S (length axes)) (fun c => ndot s (tv1_A s axes x c) (y c)) = ndot s x g) <-> axes = seq 0 (length axes).
Proof.
  intros Hv Hs. unfold tv1_AT, tv1_A. rewrite seq_char. cbn [sumn].
  assert (E0 : forall x y, sumn (length axes) (fun c => ndot s (if Nat.ltb c (length axes) then grad s (Z.of_nat (nth c axes O)) x else x) (y c))
     = sumn (length axes) (fun c => ndot s (grad s (Z.of_nat (nth c axes O)) x) (y c))).
  { intros x y. apply sumn_ext. intros c Hc. destruct (Nat.ltb_spec c (length axes)); [reflexivity|lia]. }
  assert (E1 : forall x g y, ndot s x (fun idx => g idx + y (length axes) idx) = ndot s x g + ndot s x (y (length axes))).
  { intros x g y. unfold ndot. rewrite <- ndsum_plus. apply ndsum_ext. intros. ring. }
  rewrite Nat.ltb_irrefl. split.
  - intros H j Hj. destruct (Nat.eq_dec (nth j axes O) j) as [E|E]; [exact E|exfalso].
    destruct (wrong_axes s axes j Hv Hs Hj E) as [W1 W2].
    destruct (H (ramp (nth j axes O)) (one_at s j)) as (g & Eg & Hg).
    destruct (tv_AT_sum s (length axes + 1) axes (one_at s j)) as [g'|] eqn:Eg'; [|discriminate]. injection Eg as <-.
    destruct (AT_inner s (length axes + 1) axes (ramp (nth j axes O)) (one_at s j) Hv (AT_some _ _ _ _ _ Eg')) as (h & Eh & Hh).
    rewrite Eg' in Eh. injection Eh as <-. rewrite E0, W1, E1, Hh, W2 in Hg. lra.
  - intros H x y.
    destruct (AT_inner s (length axes + 1) axes x y Hv) as (h & Eh & Hh).
    { intros ax Hin. apply In_nth with (d := O) in Hin. destruct Hin as (c & Hc & <-). rewrite H by exact Hc. lia. }
    rewrite Eh. eexists. split; [reflexivity|]. rewrite E0, E1, Hh, lsum_sumn. f_equal. apply sumn_ext. intros c Hc. rewrite (H c Hc). reflexivity.
Qed.
Print Assumptions C26_tvl1_adjoint_iff.

(** Hence the claim for any choice of axes is false; (1, 0) and (1, 2) are instances. *)
Theorem C26_any_axes_refuted :
  ~ (forall s axes, valid_axes s axes -> Forall (fun n => 0 < n)%nat s ->
     forall x y, exists g, tv_AT s axes y = Some g /\ sumn (length axes) (fun c => ndot s (tv_A s axes x c) (y c)) = ndot s x g).
Proof.
  intros H.
  assert (V : valid_axes [2; 2]%nat [1; 0]%nat) by (intros ax [<-|[<-|[]]]; simpl; lia).
  assert (P : Forall (fun n => 0 < n)%nat [2; 2]%nat) by (repeat constructor).
  specialize (H [2; 2]%nat [1; 0]%nat V P). apply (C26_tvl2_adjoint_iff _ _ V P) in H. discriminate.
Qed.
Print Assumptions C26_any_axes_refuted.
Example C26_ex : valid_axes [4; 5; 3]%nat [0; 1]%nat /\ [0; 1]%nat = seq 0 (length [0; 1]%nat).
Proof. split; [intros ax [<-|[<-|[]]]; simpl; lia|reflexivity]. Qed.

(** ** C27 *)
(** The left side of the normal equations: W2 X + rho sum_ax gradT(grad X). *)
Definition normal_lhs (s axes : list nat) (rho : R) (W2 X : list nat -> R) (idx : list nat) : R :=
  W2 idx * X idx + rho * lsum (fun ax => match gradT s (Z.of_nat ax) (grad s (Z.of_nat ax) X) with Some g => g idx | None => 0 end) axes.

Lemma normal_lhs_eq s axes rho W2 X idx : valid_axes s axes -> inb s idx ->
  normal_lhs s axes rho W2 X idx = W2 idx * X idx + rho * (lcw s axes idx * X idx - lsum (nbr s X idx) axes).
Proof.
  intros Hv Hi. unfold normal_lhs. f_equal. f_equal. rewrite (lcw_cnt s axes idx Hv Hi).
  rewrite (lsum_ext _ (fun ax => X idx * cnt s idx ax + -1 * nbr s X idx ax)).
  - rewrite lsum_plus, !lsum_scal. lra.
  - intros ax Hin. destruct (Hv ax Hin) as [V1 V2]. destruct (laplace_axis s ax X V1 V2) as (g & E & Hg). rewrite E, (Hg idx Hi). lra.
Qed.

(** An array is a fixed point exactly when it satisfies the normal equations. *)
Theorem C27_fixed_iff_normal (s axes : list nat) (S X ATYU W2 : list nat -> R) (rho : R) :
  valid_axes s axes -> axes <> [] -> 0 < rho -> (forall idx, inb s idx -> 0 <= W2 idx) ->
  ((forall idx, inb s idx -> gs_step s axes S X ATYU rho W2 idx = X idx) <->
   (forall idx, inb s idx -> normal_lhs s axes rho W2 X idx = W2 idx * S idx + rho * ATYU idx)).
Proof.
  intros Hv Hne Hr HW.
  assert (D : forall idx, inb s idx -> 0 < W2 idx + rho * lcw s axes idx).
  { intros idx Hi. rewrite lcw_cnt by assumption. destruct (cnt_ge s axes idx Hv Hi) as [C _].
    assert (1 <= INR (length axes)) by (destruct axes; [congruence|]; cbn [length]; rewrite S_INR; pose proof (pos_INR (length axes)); lra).
    specialize (HW idx Hi). assert (0 < rho * lsum (cnt s idx) axes) by (apply Rmult_lt_0_compat; lra). lra. }
  split; intros H idx Hi; specialize (H idx Hi); specialize (D idx Hi).
  - rewrite normal_lhs_eq by assumption. unfold gs_step in H. fold (nbr s X idx) in H.
    apply (f_equal (fun z => z * (W2 idx + rho * lcw s axes idx))) in H. unfold Rdiv in H. rewrite Rmult_assoc, Rinv_l in H by lra. lra.
  - rewrite normal_lhs_eq in H by assumption. unfold gs_step. fold (nbr s X idx).
    apply (Rmult_eq_reg_r (W2 idx + rho * lcw s axes idx)); [|lra]. unfold Rdiv. rewrite Rmult_assoc, Rinv_l by lra. lra.
Qed.
Print Assumptions C27_fixed_iff_normal.

(** The objective of the x sub-problem. *)
Definition x_objective (s axes : list nat) (rho : R) (W2 S : list nat -> R) (V : nat -> list nat -> R) (X : list nat -> R) : R :=
  / 2 * ndsum s (fun idx => W2 idx * (X idx - S idx) ^ 2) +
  rho / 2 * sumn (length axes) (fun c => ndsum s (fun idx => (grad s (Z.of_nat (nth c axes O)) X idx - V c idx) ^ 2)).

Lemma grad_add s z X D idx : grad s z (fun i => X i + D i) idx = grad s z X idx + grad s z D idx.
Proof. unfold grad, roll_m1. destruct (Nat.eqb _ _); lra. Qed.

Lemma x_objective_expand s axes rho W2 S V ATYU X D : valid_axes s axes ->
  (forall x, sumn (length axes) (fun c => ndot s (grad s (Z.of_nat (nth c axes O)) x) (V c)) = ndot s x ATYU) ->
  x_objective s axes rho W2 S V (fun i => X i + D i) =
  x_objective s axes rho W2 S V X
  + ndot s D (fun idx => normal_lhs s axes rho W2 X idx - (W2 idx * S idx + rho * ATYU idx))
  + (/ 2 * ndsum s (fun idx => W2 idx * (D idx) ^ 2)
     + rho / 2 * sumn (length axes) (fun c => ndsum s (fun idx => (grad s (Z.of_nat (nth c axes O)) D idx) ^ 2))).
Proof.
  intros Hv HAT. unfold x_objective.
  assert (L : sumn (length axes) (fun c => ndot s (grad s (Z.of_nat (nth c axes O)) D) (grad s (Z.of_nat (nth c axes O)) X)) =
    ndot s D (fun idx => lsum (fun ax => match gradT s (Z.of_nat ax) (grad s (Z.of_nat ax) X) with Some g => g idx | None => 0 end) axes)).
  { rewrite <- (lsum_sumn (fun ax => ndot s (grad s (Z.of_nat ax) D) (grad s (Z.of_nat ax) X))). clear HAT. induction axes as [|ax axes IH]; simpl.
    - symmetry. apply ndsum_0. intros. ring.
    - rewrite IH by (intros a Ha; apply Hv; right; exact Ha). destruct (Hv ax (or_introl eq_refl)) as [V1 V2].
      destruct (adjoint_ok s ax D (grad s (Z.of_nat ax) X) V1 V2) as (g & E & Hg). rewrite E, Hg.
      unfold ndot. rewrite <- ndsum_plus. apply ndsum_ext. intros. ring. }
  assert (E1 : ndsum s (fun idx => W2 idx * (X idx + D idx - S idx) ^ 2) =
     ndsum s (fun idx => W2 idx * (X idx - S idx) ^ 2) + 2 * ndsum s (fun idx => D idx * (W2 idx * (X idx - S idx))) + ndsum s (fun idx => W2 idx * D idx ^ 2)).
  { rewrite <- ndsum_scal, <- !ndsum_plus. apply ndsum_ext. intros. ring. }
  assert (E2 : sumn (length axes) (fun c => ndsum s (fun idx => (grad s (Z.of_nat (nth c axes O)) (fun i => X i + D i) idx - V c idx) ^ 2)) =
     sumn (length axes) (fun c => ndsum s (fun idx => (grad s (Z.of_nat (nth c axes O)) X idx - V c idx) ^ 2))
     + 2 * (sumn (length axes) (fun c => ndot s (grad s (Z.of_nat (nth c axes O)) D) (grad s (Z.of_nat (nth c axes O)) X))
            - sumn (length axes) (fun c => ndot s (grad s (Z.of_nat (nth c axes O)) D) (V c)))
     + sumn (length axes) (fun c => ndsum s (fun idx => (grad s (Z.of_nat (nth c axes O)) D idx) ^ 2))).
  { rewrite <- sumn_minus, <- sumn_scal, <- !sumn_plus. apply sumn_ext. intros c Hc. unfold ndot.
    assert (M : forall f g, ndsum s f - ndsum s g = ndsum s (fun i => f i + -1 * g i)) by (intros; rewrite ndsum_plus, ndsum_scal; lra).
    rewrite M, <- ndsum_scal, <- !ndsum_plus. apply ndsum_ext. intros idx _. rewrite grad_add. ring. }
  rewrite E1, E2, L, HAT.
  assert (E3 : ndot s D (fun idx => normal_lhs s axes rho W2 X idx - (W2 idx * S idx + rho * ATYU idx)) =
     ndsum s (fun idx => D idx * (W2 idx * (X idx - S idx)))
     + rho * (ndot s D (fun idx => lsum (fun ax => match gradT s (Z.of_nat ax) (grad s (Z.of_nat ax) X) with Some g => g idx | None => 0 end) axes)
     - ndot s D ATYU)).
  { unfold ndot.
    assert (M : forall f g, ndsum s f - ndsum s g = ndsum s (fun i => f i + -1 * g i)) by (intros; rewrite ndsum_plus, ndsum_scal; lra).
    rewrite M, <- ndsum_scal, <- ndsum_plus. apply ndsum_ext. intros idx _. unfold normal_lhs. ring. }
  rewrite E3. lra.
Qed.

Lemma ndsum_sq_0 s f : ndsum s (fun idx => f idx * f idx) = 0 -> forall idx, inb s idx -> f idx = 0.
Proof.
  revert f. induction s as [|n s IH]; intros f H idx Hi.
  - inversion Hi. simpl in H. destruct (Rmult_integral _ _ H); assumption.
  - destruct idx as [|i idx]; [inversion Hi|]. apply inb_cons in Hi. destruct Hi as [Hi1 Hi2]. simpl in H.
    pose proof (sumn_nonneg_0 n _ (fun i _ => ndsum_nonneg s (fun idx => f (i :: idx) * f (i :: idx)) (fun idx _ => Rle_0_sqr (f (i :: idx)))) H i Hi1) as K.
    apply (IH (fun idx => f (i :: idx)) K idx Hi2).
Qed.

(** A fixed point is a minimiser of the x sub-problem and conversely, when the axes are 0, 1, 2, ... (C26). *)
Theorem C27_fixed_iff_minimiser (s : list nat) (m : nat) (S X ATYU W2 : list nat -> R) (V : nat -> list nat -> R) (rho : R) :
  let axes := seq 0 m in
  valid_axes s axes -> (0 < m)%nat -> 0 < rho -> (forall idx, inb s idx -> 0 <= W2 idx) -> tv_AT s axes V = Some ATYU ->
  ((forall idx, inb s idx -> gs_step s axes S X ATYU rho W2 idx = X idx) <->
   (forall Z, x_objective s axes rho W2 S V X <= x_objective s axes rho W2 S V Z)).
Proof.
  intros axes Hv Hm Hr HW HAT.
  assert (Lx : length axes = m) by apply seq_length.
  assert (HA : forall x, sumn (length axes) (fun c => ndot s (grad s (Z.of_nat (nth c axes O)) x) (V c)) = ndot s x ATYU).
  { intros x. destruct (AT_inner s (length axes) axes x V Hv (AT_some _ _ _ _ _ HAT)) as (h & Eh & Hh).
    unfold tv_AT in HAT. rewrite HAT in Eh. injection Eh as <-. rewrite Hh, lsum_sumn. apply sumn_ext. intros c Hc.
    assert (Ec : nth c axes O = c) by (unfold axes; rewrite seq_nth; lia). rewrite Ec. reflexivity. }
  assert (Hne : axes <> []) by (unfold axes; destruct m; [lia|discriminate]).
  rewrite (C27_fixed_iff_normal s axes S X ATYU W2 rho Hv Hne Hr HW).
  set (N := fun idx => normal_lhs s axes rho W2 X idx - (W2 idx * S idx + rho * ATYU idx)).
  set (Q := fun D : list nat -> R => / 2 * ndsum s (fun idx => W2 idx * (D idx) ^ 2)
     + rho / 2 * sumn (length axes) (fun c => ndsum s (fun idx => (grad s (Z.of_nat (nth c axes O)) D idx) ^ 2))).
  assert (Ex : forall D, x_objective s axes rho W2 S V (fun i => X i + D i) = x_objective s axes rho W2 S V X + ndot s D N + Q D)
    by (intros D; apply x_objective_expand; assumption).
  assert (Qpos : forall D, 0 <= Q D).
  { intros D. unfold Q. apply Rplus_le_le_0_compat.
    - apply Rmult_le_pos; [lra|]. apply ndsum_nonneg. intros idx Hi. apply Rmult_le_pos; [apply HW; exact Hi|apply pow2_ge_0].
    - apply Rmult_le_pos; [lra|]. apply sumn_nonneg. intros c Hc. apply ndsum_nonneg. intros. apply pow2_ge_0. }
  split.
  - intros H Z.
    assert (EZ : x_objective s axes rho W2 S V Z = x_objective s axes rho W2 S V (fun i => X i + (Z i - X i))).
    { unfold x_objective. f_equal; f_equal.
      - apply ndsum_ext. intros idx _. ring.
      - apply sumn_ext. intros c _. apply ndsum_ext. intros idx _. f_equal. f_equal. unfold grad, roll_m1. destruct (Nat.eqb _ _); [reflexivity|]. ring. }
    rewrite EZ, Ex. specialize (Qpos (fun i => Z i - X i)).
    assert (N0 : ndot s (fun i => Z i - X i) N = 0).
    { apply ndsum_0. intros idx Hi. unfold N. rewrite (H idx Hi). ring. }
    rewrite N0. lra.
  - intros H.
    assert (Qs : forall t, Q (fun i => - t * N i) = t * t * Q N).
    { intros t. unfold Q. rewrite Rmult_plus_distr_l. f_equal.
      - rewrite <- !ndsum_scal. apply ndsum_ext. intros. ring.
      - rewrite <- !sumn_scal. apply sumn_ext. intros c _. rewrite <- !ndsum_scal. apply ndsum_ext. intros idx _. unfold grad, roll_m1.
        destruct (Nat.eqb _ _); ring. }
    assert (K : forall t, 0 <= t * t * Q N - t * ndot s N N).
    { intros t. specialize (H (fun i => X i + - t * N i)). rewrite Ex, Qs in H.
      assert (E : ndot s (fun i => - t * N i) N = - t * ndot s N N) by (unfold ndot; rewrite <- ndsum_scal; apply ndsum_ext; intros; ring).
      rewrite E in H. lra. }
    assert (Npos : 0 <= ndot s N N) by (apply ndsum_nonneg; intros; apply Rle_0_sqr).
    assert (N0 : ndot s N N = 0).
    { destruct (Req_dec (ndot s N N) 0) as [E|E]; [exact E|exfalso].
      specialize (K (ndot s N N / (2 * (Q N + 1)))). specialize (Qpos N).
      set (a := ndot s N N) in *. set (q := Q N) in *.
      assert (P1 : a / (2 * (q + 1)) * (a / (2 * (q + 1))) * q - a / (2 * (q + 1)) * a = - (a * a * (q + 2)) / (4 * (q + 1) * (q + 1))) by (field; lra).
      rewrite P1 in K.
      assert (0 < a * a * (q + 2) / (4 * (q + 1) * (q + 1))).
      { apply Rdiv_lt_0_compat; [|nra]. apply Rmult_lt_0_compat; [nra|lra]. }
      unfold Rdiv in *. lra. }
    intros idx Hi. pose proof (ndsum_sq_0 s N N0 idx Hi) as Z. unfold N in Z. lra.
Qed.
Print Assumptions C27_fixed_iff_minimiser.
Example C27_ex : let s := [2]%nat in let axes := seq 0 1 in
  valid_axes s axes /\ forall idx, inb s idx ->
  gs_step s axes (fun i => 2) (fun i => 2) (fun _ => 0) 3 (fun _ => 1) idx = 2.
Proof.
  split; [intros ax [<-|[]]; simpl; lia|]. intros idx Hi. destruct idx as [|i r]; [inversion Hi|].
  apply inb_cons in Hi. destruct Hi as [Hi Hr]. destruct r; [|inversion Hr].
  destruct i as [|[|i]]; [| |lia]; unfold gs_step, lcw, coord, setc; simpl; lra.
Qed.

(** The step brings any two arrays closer in the maximum norm, with a factor less than one if the data weight is
    bounded below; in particular the iterates approach the minimiser. *)
Theorem C27_contraction (s axes : list nat) (S X Z ATYU W2 : list nat -> R) (rho w M : R) :
  valid_axes s axes -> 0 <= rho -> 0 < w -> (forall idx, inb s idx -> w <= W2 idx) ->
  (forall idx, inb s idx -> Rabs (X idx - Z idx) <= M) ->
  let q := rho * (2 * INR (length axes)) / (w + rho * (2 * INR (length axes))) in
  q < 1 /\
  forall idx, inb s idx -> Rabs (gs_step s axes S X ATYU rho W2 idx - gs_step s axes S Z ATYU rho W2 idx) <= q * M.
Proof.
  intros Hv Hr Hw HW HM q.
  pose proof (pos_INR (length axes)) as PI.
  assert (Hden : 0 < w + rho * (2 * INR (length axes))) by (assert (0 <= rho * (2 * INR (length axes))) by (apply Rmult_le_pos; lra); lra).
  split.
  - unfold q. apply (Rmult_lt_reg_r (w + rho * (2 * INR (length axes)))); [exact Hden|]. unfold Rdiv. rewrite Rmult_assoc, Rinv_l by lra. lra.
  - intros idx Hi. unfold gs_step. fold (nbr s X idx). fold (nbr s Z idx).
    rewrite (lcw_cnt s axes idx Hv Hi). destruct (cnt_ge s axes idx Hv Hi) as [C1 C2].
    set (c := lsum (cnt s idx) axes) in *. specialize (HW idx Hi).
    assert (Hc : 0 <= c) by lra. assert (Hrc : 0 <= rho * c) by (apply Rmult_le_pos; lra).
    assert (D : 0 < W2 idx + rho * c) by lra.
    assert (M0 : 0 <= M) by (specialize (HM idx Hi); pose proof (Rabs_pos (X idx - Z idx)); lra).
    assert (B : Rabs (lsum (nbr s X idx) axes - lsum (nbr s Z idx) axes) <= c * M).
    { assert (E : lsum (nbr s X idx) axes - lsum (nbr s Z idx) axes = lsum (fun ax => nbr s X idx ax + -1 * nbr s Z idx ax) axes)
        by (rewrite lsum_plus, lsum_scal; lra).
      rewrite E. eapply Rle_trans; [apply lsum_abs|].
      unfold c. rewrite Rmult_comm, <- lsum_scal. apply lsum_le. intros ax Hin. destruct (Hv ax Hin) as [V1 V2].
      pose proof (inb_coord _ _ _ Hi V1) as Hco.
      unfold nbr, cnt.
      destruct (Nat.eqb_spec (coord ax idx) 0); destruct (Nat.eqb_spec (coord ax idx) (nth ax s O - 1)); try lia.
      - assert (H1 := HM (setc ax (coord ax idx + 1) idx) ltac:(apply inb_setc; [exact Hi|lia|exact V1])).
        replace (0 + X (setc ax (coord ax idx + 1) idx) + -1 * (0 + Z (setc ax (coord ax idx + 1) idx))) with
          (X (setc ax (coord ax idx + 1) idx) - Z (setc ax (coord ax idx + 1) idx)) by ring. lra.
      - assert (H1 := HM (setc ax (coord ax idx - 1) idx) ltac:(apply inb_setc; [exact Hi|lia|exact V1])).
        replace (X (setc ax (coord ax idx - 1) idx) + 0 + -1 * (Z (setc ax (coord ax idx - 1) idx) + 0)) with
          (X (setc ax (coord ax idx - 1) idx) - Z (setc ax (coord ax idx - 1) idx)) by ring. lra.
      - assert (H1 := HM (setc ax (coord ax idx - 1) idx) ltac:(apply inb_setc; [exact Hi|lia|exact V1])).
        assert (H2 := HM (setc ax (coord ax idx + 1) idx) ltac:(apply inb_setc; [exact Hi|lia|exact V1])).
        set (x1 := X (setc ax (coord ax idx - 1) idx)) in *. set (x2 := X (setc ax (coord ax idx + 1) idx)) in *.
        set (z1 := Z (setc ax (coord ax idx - 1) idx)) in *. set (z2 := Z (setc ax (coord ax idx + 1) idx)) in *.
        replace (x1 + x2 + -1 * (z1 + z2)) with ((x1 - z1) + (x2 - z2)) by ring.
        eapply Rle_trans; [apply Rabs_triang|]. lra. }
    set (a := lsum (nbr s X idx) axes) in *. set (b := lsum (nbr s Z idx) axes) in *.
    replace ((rho * (a + ATYU idx) + W2 idx * S idx) / (W2 idx + rho * c) - (rho * (b + ATYU idx) + W2 idx * S idx) / (W2 idx + rho * c))
      with ((rho / (W2 idx + rho * c)) * (a - b)) by (field; lra).
    rewrite Rabs_mult. rewrite (Rabs_right (rho / (W2 idx + rho * c))) by (apply Rle_ge; apply Rmult_le_pos; [lra|left; apply Rinv_0_lt_compat; lra]).
    assert (F : 0 <= rho / (W2 idx + rho * c)) by (apply Rmult_le_pos; [lra|left; apply Rinv_0_lt_compat; lra]).
    apply Rle_trans with (rho / (W2 idx + rho * c) * (c * M)); [apply Rmult_le_compat_l; assumption|].
    rewrite <- Rmult_assoc. apply Rmult_le_compat_r; [exact M0|]. unfold q.
    apply (Rmult_le_reg_r ((W2 idx + rho * c) * (w + rho * (2 * INR (length axes))))); [apply Rmult_lt_0_compat; assumption|].
    replace (rho / (W2 idx + rho * c) * c * ((W2 idx + rho * c) * (w + rho * (2 * INR (length axes))))) with (rho * c * (w + rho * (2 * INR (length axes)))) by (field; lra).
    replace (rho * (2 * INR (length axes)) / (w + rho * (2 * INR (length axes))) * ((W2 idx + rho * c) * (w + rho * (2 * INR (length axes))))) with
      (rho * (2 * INR (length axes)) * (W2 idx + rho * c)) by (field; lra).
    set (l := 2 * INR (length axes)) in *.
    assert (rho * (c * w) <= rho * (l * W2 idx)).
    { apply Rmult_le_compat_l; [exact Hr|]. apply Rmult_le_compat; lra. }
    nra.
Qed.
Print Assumptions C27_contraction.

Fixpoint iter {A : Type} (n : nat) (f : A -> A) (a : A) : A := match n with O => a | S n' => iter n' f (f a) end.

(** The x-step makes at most MaxGSIter steps, at least one if allowed, and stops early only below the tolerance. *)
Theorem C27_xstep_loop (s axes : list nat) (maxit : nat) (tol : R) (rr : (list nat -> R) -> R) (S ATYU W2 X0 : list nat -> R) (rho : R) :
  let '(X, k) := tvl2_xstep s axes maxit tol rr S ATYU rho W2 X0 in
  X = iter k (fun X => gs_step s axes S X ATYU rho W2) X0 /\ (k <= maxit)%nat /\
  ((k < maxit)%nat -> (1 <= k)%nat /\ rr X <= tol) /\
  (forall j, (1 <= j < k)%nat -> tol < rr (iter j (fun X => gs_step s axes S X ATYU rho W2) X0)).
Proof.
  unfold tvl2_xstep. set (f := fun X => gs_step s axes S X ATYU rho W2).
  set (loop := fix loop (fuel it : nat) (first : bool) (X : list nat -> R) : (list nat -> R) * nat :=
     match fuel with
     | O => (X, it)
     | Datatypes.S f0 =>
         if (first || (if Rlt_dec tol (rr X) then true else false))%bool
         then loop f0 (Datatypes.S it) false (gs_step s axes S X ATYU rho W2)
         else (X, it)
     end).
  assert (IS : forall k X, iter k f (f X) = f (iter k f X)) by (induction k as [|k IH]; intros X; simpl; [reflexivity|apply IH]).
  assert (G : forall (fuel it : nat) (first : bool) (X : list nat -> R), (if first then it = O else (1 <= it)%nat) -> X = iter it f X0 ->
    (forall j, (1 <= j < it)%nat -> tol < rr (iter j f X0)) ->
    let '(Y, k) := loop fuel it first X in
    Y = iter k f X0 /\ (k <= it + fuel)%nat /\ ((k < it + fuel)%nat -> (1 <= k)%nat /\ rr Y <= tol) /\ (forall j, (1 <= j < k)%nat -> tol < rr (iter j f X0))).
  { induction fuel as [|fuel IH]; intros it first X Hf HX Hj; simpl.
    - repeat split; try lia; auto.
    - destruct (Rlt_dec tol (rr X)) as [L|L].
      + rewrite orb_true_r. specialize (IH (Datatypes.S it) false (f X)).
        change (gs_step s axes S X ATYU rho W2) with (f X). destruct (loop fuel (Datatypes.S it) false (f X)) as [Y k].
        replace (it + Datatypes.S fuel)%nat with (Datatypes.S it + fuel)%nat by lia. apply IH; [lia| |].
        * simpl. rewrite IS, <- HX. reflexivity.
        * intros j Hjj. destruct (Nat.eq_dec j it) as [->|]; [rewrite <- HX; exact L|apply Hj; lia].
      + rewrite orb_false_r. destruct first.
        * specialize (IH (Datatypes.S it) false (f X)).
          change (gs_step s axes S X ATYU rho W2) with (f X). destruct (loop fuel (Datatypes.S it) false (f X)) as [Y k].
          replace (it + Datatypes.S fuel)%nat with (Datatypes.S it + fuel)%nat by lia. apply IH; [lia| |].
          -- simpl. rewrite IS, <- HX. reflexivity.
          -- intros j Hjj. lia.
        * repeat split; try lia; auto. lra. }
  specialize (G maxit O true X0 eq_refl eq_refl ltac:(intros; lia)). exact G.
Qed.
Print Assumptions C27_xstep_loop.
