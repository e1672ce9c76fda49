(** C71: the x step of convolutional sparse coding, computed in the frequency domain, is the exact minimiser of the sub-problem
    in the spatial domain.  C68: the reported data fidelity and the reconstruction. *)
Require Import List Arith ZArith Reals Bool Lia Lra Ring FunctionalExtensionality.
Require Import Verif.RVec Verif.Cplx Verif.FftModel Verif.FftProofs Verif.FftProps Verif.FftInv Verif.CscModel Verif.CscSpec Verif.CscProofs.
Import ListNotations.
Local Open Scope R_scope.

(** The quadratic regularisation term of each class, in the spatial domain. *)
Definition quad_term (s : nat -> nat) (axes : list nat) (M : nat) (q : quad) (X : nat -> pos -> R) (base : pos) : R :=
  match q with QNone => 0 | QElastic mu => ridge_term s axes M mu X base | QGrad mu wg => grad_term s axes M mu wg X base end.
Definition quad_valid (s : nat -> nat) (axes : list nat) (M : nat) (q : quad) : Prop :=
  match q with
  | QNone => True
  | QElastic mu => 0 <= mu
  | QGrad mu wg => 0 <= mu /\ (forall m, (m < M)%nat -> 0 <= wg m) /\ forall ax, In ax axes -> (2 <= s ax)%nat
  end.

(** For every dictionary (single- or multi-channel), signal, Y and U: the objective of any X exceeds that of the x step by at
    least rho/2 times the squared distance; so the x step is the minimiser, and the only one. *)
Theorem C71_xstep (s dsh : nat -> nat) (axes : list nat) (M Cd : nat) (D : nat -> nat -> index -> R) (S : nat -> index -> R) (q : quad)
    (rho : R) (Y U X : nat -> index -> R) (base : index) :
  NoDup axes -> axes <> [] -> (forall ax, In ax axes -> (0 < s ax)%nat) -> (0 < Cd)%nat -> 0 < rho -> quad_valid s axes M q ->
  let F := fun X => datafit s dsh axes M Cd D S X base + quad_term s axes M q X base + near s axes M rho (fun m p => Y m p - U m p) X base in
  let x := xstep s dsh axes M Cd D S q rho Y U in
  F x + rho / 2 * sumn M (fun m => sqn s axes (fun p => X m p - x m p) base) <= F X.
Proof.
  intros ND Hne Hs HC Hr Hq F x. destruct (exists_last Hne) as (r & l & ->).
  apply (strong_min s dsh r l M Cd D S q ND Hs Hq rho (fun m p => Y m p - U m p) (xstepf s dsh (r ++ [l]) M Cd D S q rho Y U) X base Hr).
  intros i m Hm.
  change (sys M Cd (fun c k => Df s dsh (r ++ [l]) D c k i) (fun k => ediag s r l q i k + rho)
    (solve_at s dsh (r ++ [l]) M Cd D q rho i (fun k => cadd (DSf s dsh (r ++ [l]) Cd D S k i) (cmul (ofR rho) (rfftn s (r ++ [l]) (fun p => Y k p - U k p) i)))) m =
    rhs Cd (fun c k => Df s dsh (r ++ [l]) D c k i) rho (fun c => Sf s (r ++ [l]) S c i) (fun k => rfftn s (r ++ [l]) (fun p => Y k p - U k p) i) m).
  rewrite (solve_sys s dsh r l M Cd D q HC Hq rho i _ m Hr Hm). reflexivity.
Qed.
Print Assumptions C71_xstep.

(** ConvTwoBlockCnstrnt: the x step minimises || D x - s - y0 + u0 ||^2 + || x - y1 + u1 ||^2. *)
Theorem C71_two_block (s dsh : nat -> nat) (axes : list nat) (M Cd : nat) (D : nat -> nat -> index -> R) (S : nat -> index -> R)
    (Y0 U0 Y1 U1 X : nat -> index -> R) (base : index) :
  NoDup axes -> axes <> [] -> (forall ax, In ax axes -> (0 < s ax)%nat) -> (0 < Cd)%nat ->
  let F := fun X => / 2 * sumn Cd (fun c => sqn s axes (fun p => synth s dsh axes M D X c p - S c p - Y0 c p + U0 c p) base)
                  + / 2 * sumn M (fun m => sqn s axes (fun p => X m p - Y1 m p + U1 m p) base) in
  let x := xstep2 s dsh axes M Cd D S Y0 U0 Y1 U1 in
  F x + / 2 * sumn M (fun m => sqn s axes (fun p => X m p - x m p) base) <= F X.
Proof.
  intros ND Hne Hs HC F x. destruct (exists_last Hne) as (r & l & ->).
  set (S' := fun c p => Y0 c p - U0 c p + S c p). set (Z := fun m p => Y1 m p - U1 m p).
  pose proof (strong_min s dsh r l M Cd D S' QNone ND Hs I 1 Z (xstep2f s dsh (r ++ [l]) M Cd D S Y0 U0 Y1 U1) X base ltac:(lra)) as H.
  assert (EF : forall X, F X = datafit s dsh (r ++ [l]) M Cd D S' X base + 0 + near s (r ++ [l]) M 1 Z X base).
  { intros W. unfold F, datafit, near. rewrite Rplus_0_r. f_equal; [f_equal|unfold Rdiv; rewrite Rmult_1_l; f_equal]; apply sumn_ext; intros k _; f_equal; extensionality p; unfold S', Z; ring. }
  rewrite !EF. cbv zeta in H. unfold qterm in H.
  replace (/ 2 * sumn M (fun m => sqn s (r ++ [l]) (fun p => X m p - x m p) base)) with (near s (r ++ [l]) M 1 x X base) by (unfold near; lra).
  apply H. intros i m Hm.
  pose proof (solve_sys s dsh r l M Cd D QNone HC I 1 i (fun k => cadd (csumn Cd (fun c => cmul (conj (Df s dsh (r ++ [l]) D c k i)) (rfftn s (r ++ [l]) (S' c) i))) (rfftn s (r ++ [l]) (Z k) i)) m ltac:(lra) Hm) as E.
  assert (Es : forall k, xstep2f s dsh (r ++ [l]) M Cd D S Y0 U0 Y1 U1 k i = solve_at s dsh (r ++ [l]) M Cd D QNone 1 i
     (fun k => cadd (csumn Cd (fun c => cmul (conj (Df s dsh (r ++ [l]) D c k i)) (rfftn s (r ++ [l]) (S' c) i))) (rfftn s (r ++ [l]) (Z k) i)) k).
  { intros k. unfold xstep2f, solve_at. destruct (Nat.eqb Cd 1); reflexivity. }
  replace (fun k => xstep2f s dsh (r ++ [l]) M Cd D S Y0 U0 Y1 U1 k i) with (solve_at s dsh (r ++ [l]) M Cd D QNone 1 i
     (fun k => cadd (csumn Cd (fun c => cmul (conj (Df s dsh (r ++ [l]) D c k i)) (rfftn s (r ++ [l]) (S' c) i))) (rfftn s (r ++ [l]) (Z k) i))) by (extensionality k; symmetry; apply Es).
  rewrite E. unfold rhs, Sf. f_equal. ceq; ring.
Qed.
Print Assumptions C71_two_block.

(** Consequence of C71_xstep: a minimiser is the x step at every position. *)
Corollary C71_unique (s dsh : nat -> nat) (axes : list nat) (M Cd : nat) (D : nat -> nat -> index -> R) (S : nat -> index -> R) (q : quad)
    (rho : R) (Y U X : nat -> index -> R) (base : index) :
  NoDup axes -> axes <> [] -> (forall ax, In ax axes -> (0 < s ax)%nat) -> (0 < Cd)%nat -> 0 < rho -> quad_valid s axes M q ->
  let F := fun X => datafit s dsh axes M Cd D S X base + quad_term s axes M q X base + near s axes M rho (fun m p => Y m p - U m p) X base in
  (forall X', F X <= F X') ->
  forall m p, (m < M)%nat -> (forall ax, In ax axes -> (p ax < s ax)%nat) -> (forall ax, ~ In ax axes -> p ax = base ax) ->
  X m p = xstep s dsh axes M Cd D S q rho Y U m p.
Proof.
  intros ND Hne Hs HC Hr Hq F Hmin m p Hm Hp Hb.
  set (x := xstep s dsh axes M Cd D S q rho Y U) in *. specialize (Hmin x).
  assert (H : F x + rho / 2 * sumn M (fun m => sqn s axes (fun p => X m p - x m p) base) <= F X) by exact (C71_xstep s dsh axes M Cd D S q rho Y U X base ND Hne Hs HC Hr Hq).
  clearbody F.
  assert (Nn : forall L h b, (forall i, 0 <= h i) -> 0 <= rsum s L h b).
  { clear. induction L as [|a L IH]; intros h b H; simpl; [apply H|]. apply sumn_nonneg. intros. apply IH. exact H. }
  assert (Z : sumn M (fun m => sqn s axes (fun p => X m p - x m p) base) <= 0) by (set (W := sumn M _) in *; assert (rho / 2 * W <= 0) by lra; apply (Rmult_le_reg_l (rho / 2)); lra).
  assert (N1 : forall k, (k < M)%nat -> 0 <= sqn s axes (fun p => X k p - x k p) base) by (intros; rewrite sqn_rsum; apply Nn; intros; apply Rle_0_sqr).
  assert (Z1 : sqn s axes (fun p => X m p - x m p) base = 0).
  { apply (sumn_nonneg_0 M (fun k => sqn s axes (fun p => X k p - x k p) base)); [exact N1| |exact Hm]. apply Rle_antisym; [exact Z|apply sumn_nonneg; exact N1]. }
  rewrite sqn_rsum in Z1.
  assert (T : forall L h b, (forall i, 0 <= h i) -> rsum s L h b = 0 -> forall p, (forall ax, In ax L -> (p ax < s ax)%nat) -> (forall ax, ~ In ax L -> p ax = b ax) -> h p = 0).
  { clear. induction L as [|a L IH]; intros h b H E p Hp Hb; simpl in E.
    - replace p with b by (extensionality ax; symmetry; apply Hb; intros []). exact E.
    - assert (Nn : forall L h b, (forall i, 0 <= h i) -> 0 <= rsum s L h b).
      { clear. induction L as [|a L IH]; intros h b H; simpl; [apply H|]. apply sumn_nonneg. intros. apply IH. exact H. }
      apply (IH h (upd b a (p a)) H).
      + apply (sumn_nonneg_0 (s a) (fun j => rsum s L h (upd b a j))); [intros; apply Nn; exact H|exact E|apply Hp; left; reflexivity].
      + intros ax Ha. apply Hp. right. exact Ha.
      + intros ax Ha. unfold upd. destruct (Nat.eqb_spec ax a) as [->|N]; [reflexivity|]. apply Hb. intros [E1|E1]; [congruence|contradiction]. }
  assert (E : (X m p - x m p) * (X m p - x m p) = 0).
  { apply (T axes (fun p => (X m p - x m p) * (X m p - x m p)) base); [intros; apply Rle_0_sqr|exact Z1|exact Hp|exact Hb]. }
  apply Rmult_integral in E. destruct E; lra.
Qed.
Print Assumptions C71_unique.

(** ** C68 *)
(** reconstruct() is the sum of the circular convolutions. *)
Theorem C68_reconstruct (s dsh : nat -> nat) (axes : list nat) (M : nat) (D : nat -> nat -> index -> R) (X : nat -> index -> R) (c : nat) (p : index) :
  NoDup axes -> axes <> [] -> (forall ax, In ax axes -> (p ax < s ax)%nat) ->
  reconstruct s dsh axes M D X c p = synth s dsh axes M D X c p.
Proof.
  intros ND Hne Hp. destruct (exists_last Hne) as (r & l & ->).
  rewrite <- (C28_inverse_real s r l (synth s dsh (r ++ [l]) M D X c) p ND Hp). unfold reconstruct, irfftn. rewrite last_last, removelast_last.
  assert (Hl : (p l < s l)%nat) by (apply Hp; apply in_or_app; right; left; reflexivity).
  apply irfft_ext; [lia|]. intros k Hk. apply ifftn_ext_in. intros i Hi Ho. symmetry. apply synth_f; [exact ND|].
  intros ax Ha. apply in_app_or in Ha. destruct Ha as [Ha|[<-|[]]]; [apply Hi; exact Ha|].
  assert (Nl : ~ In l r) by (apply NoDup_remove_2 in ND; rewrite app_nil_r in ND; exact ND).
  rewrite (Ho l Nl), upd_same. pose proof (Nat.div_lt (s l) 2). destruct (s l) as [|[|n]]; [lia|simpl in Hk; lia|]. lia.
Qed.
Print Assumptions C68_reconstruct.

(** The data fidelity value computed from a half spectrum is half the squared norm of the spatial residual, for arrays with [d]
    axes: for the variable Y (option fEvalX false), and for the result of the x step from its stored spectrum. *)
Definition residual_norm2 (d : nat) (s dsh : nat -> nat) (axes : list nat) (M Cd : nat) (D : nat -> nat -> index -> R) (S X : nat -> index -> R) : R :=
  sumn Cd (fun c => total s (seq 0 d) (fun p => (synth s dsh axes M D X c p - S c p) * (synth s dsh axes M D X c p - S c p)) (fun _ => O)).
Lemma rfl2norm2_ext d s axes xf yf : good_axes d s axes ->
  (forall i, (forall ax, In ax axes -> (i ax < s ax)%nat) -> xf i = yf i) -> rfl2norm2 d s axes xf = rfl2norm2 d s axes yf.
Proof.
  intros (ND & Hne & Ha) H. destruct (exists_last Hne) as (r & l & ->). unfold rfl2norm2. rewrite last_last.
  assert (Hl : (0 < s l)%nat) by (apply Ha; apply in_or_app; right; left; reflexivity).
  set (rest := filter (fun ax => negb (Nat.eqb ax l)) (seq 0 d)).
  assert (E : forall k, (k < s l)%nat -> rsum s rest (fun i => cabs2 (xf i)) (upd idx0 l k) = rsum s rest (fun i => cabs2 (yf i)) (upd idx0 l k)).
  { intros k Hk. apply rsum_ext_in. intros i Hi Ho. f_equal. apply H. intros ax Hax.
    destruct (Nat.eq_dec ax l) as [->|N].
    - rewrite (Ho l), upd_same; [exact Hk|]. unfold rest. intros I. apply filter_In in I. rewrite Nat.eqb_refl in I. destruct I; discriminate.
    - apply Hi. unfold rest. apply filter_In. split; [apply in_seq; destruct (Ha ax Hax); lia|]. apply Nat.eqb_neq in N. rewrite N. reflexivity. }
  cbv zeta. pose proof (Nat.div_lt (s l) 2 Hl ltac:(lia)) as Q. rewrite (E O Hl). f_equal. f_equal; [f_equal|].
  - f_equal. apply sumn_ext. intros k Hk. apply E. assert ((s l + 1) / 2 <= s l)%nat; [|lia]. apply Nat.div_le_upper_bound; lia.
  - destruct (Nat.even (s l)); [|reflexivity]. apply E. rewrite Nat.add_sub. exact Q.
Qed.
Theorem C68_fidelity (d : nat) (s dsh : nat -> nat) (axes : list nat) (M Cd : nat) (D : nat -> nat -> index -> R) (S X : nat -> index -> R) :
  good_axes d s axes ->
  obfn_dfd s dsh axes M Cd D S d (fun m => rfftn s axes (X m)) = / 2 * residual_norm2 d s dsh axes M Cd D S X.
Proof.
  intros G. pose proof G as (ND & Hne & Ha). unfold obfn_dfd, residual_norm2. unfold Rdiv. rewrite Rmult_comm. f_equal. apply sumn_ext. intros c _.
  rewrite total_rsum. change (fun _ : nat => O) with idx0.
  pose proof (C28_half_spectrum d s axes (fun p => synth s dsh axes M D X c p - S c p) G) as P. etransitivity; [|exact P]. apply rfl2norm2_ext; [exact G|]. intros i Hi. destruct (exists_last Hne) as (r & l & ->).
  rewrite rfftn_sub, synth_f by assumption. reflexivity.
Qed.
Print Assumptions C68_fidelity.
Theorem C68_fidelity_xstep (d : nat) (s dsh : nat -> nat) (axes : list nat) (M Cd : nat) (D : nat -> nat -> index -> R) (S : nat -> index -> R) (q : quad)
    (rho : R) (Y U : nat -> index -> R) :
  good_axes d s axes -> (0 < Cd)%nat -> 0 < rho -> quad_valid s axes M q ->
  obfn_dfd s dsh axes M Cd D S d (xstepf s dsh axes M Cd D S q rho Y U) = / 2 * residual_norm2 d s dsh axes M Cd D S (xstep s dsh axes M Cd D S q rho Y U).
Proof.
  intros G HC Hr Hq. rewrite <- C68_fidelity by exact G. pose proof G as (ND & Hne & Ha). unfold obfn_dfd. f_equal. apply sumn_ext. intros c _.
  apply rfl2norm2_ext; [exact G|]. intros i Hi. f_equal. apply csumn_ext. intros m Hm. f_equal. destruct (exists_last Hne) as (r & l & ->).
  symmetry. apply rfftn_irfftn; [exact ND|intros ax Hx; apply (Ha ax Hx)| |exact Hi].
  apply (solution_hermitian s dsh r l M Cd D q ND Hq rho (xstepf s dsh (r ++ [l]) M Cd D S q rho Y U) (Sf s (r ++ [l]) S) (fun k => rfftn s (r ++ [l]) (fun p => Y k p - U k p)) Hr);
    [intros; apply rfftn_hermitian; exact ND|intros; apply rfftn_hermitian; exact ND| |exact Hm].
  intros j k Hk. exact (solve_sys s dsh r l M Cd D q HC Hq rho j _ k Hr Hk).
Qed.
Print Assumptions C68_fidelity_xstep.

(** A concrete case: signal 3, 1 of length two, one filter which is a unit impulse, rho = 1, Y = U = 0.  The x step is 3/2, 1/2. *)
Definition ex_s : nat -> nat := fun ax => if Nat.eqb ax 0 then 2%nat else 1%nat.
Definition ex_S : nat -> index -> R := fun _ i => match i O with O => 3 | _ => 1 end.
Lemma ex_synth X c p : (p O < 2)%nat -> synth ex_s (fun _ => 1%nat) [O] 1 (fun _ _ _ => 1) X c p = X O p.
Proof.
  intros Hp. unfold synth, conv. cbn [sumn total ex_s Nat.eqb]. unfold ext, set_at. simpl.
  replace (minus ex_s [O] p (fun k => if Nat.eqb k 0 then O else p k)) with p; [ring|].
  extensionality ax. unfold minus, ex_s. destruct ax as [|ax]; simpl; [|reflexivity].
  destruct (p O) as [|[|n]]; [reflexivity|reflexivity|lia].
Qed.
Example C71_ex : NoDup [O] /\ quad_valid ex_s [O] 1 QNone /\ quad_valid ex_s [O] 1 (QGrad 1 (fun _ => 2)) /\
  xstep ex_s (fun _ => 1%nat) [O] 1 1 (fun _ _ _ => 1) ex_S QNone 1 (fun _ _ => 0) (fun _ _ => 0) O (fun _ => O) = 3 / 2 /\
  xstep ex_s (fun _ => 1%nat) [O] 1 1 (fun _ _ _ => 1) ex_S QNone 1 (fun _ _ => 0) (fun _ _ => 0) O (fun ax => if Nat.eqb ax 0 then 1%nat else O) = 1 / 2.
Proof.
  split; [repeat constructor; simpl; tauto|]. split; [exact I|].
  split; [simpl; repeat split; [lra|intros; lra|intros ax [<-|[]]; unfold ex_s; simpl; lia]|].
  set (X := fun (m : nat) (p : index) => / 2 * ex_S m p).
  assert (Hmin : forall X', datafit ex_s (fun _ => 1%nat) [O] 1 1 (fun _ _ _ => 1) ex_S X (fun _ => O) + quad_term ex_s [O] 1 QNone X (fun _ => O) + near ex_s [O] 1 1 (fun m p => 0 - 0) X (fun _ => O)
    <= datafit ex_s (fun _ => 1%nat) [O] 1 1 (fun _ _ _ => 1) ex_S X' (fun _ => O) + quad_term ex_s [O] 1 QNone X' (fun _ => O) + near ex_s [O] 1 1 (fun m p => 0 - 0) X' (fun _ => O)).
  { intros X'. unfold datafit, near, sqn, quad_term. cbn [sumn total ex_s Nat.eqb]. rewrite !ex_synth by (unfold set_at; simpl; lia).
    unfold X, ex_S, set_at. simpl. set (a := X' O _). set (b := X' O _). pose proof (Rle_0_sqr (a - 3 / 2)) as Qa. pose proof (Rle_0_sqr (b - 1 / 2)) as Qb. unfold Rsqr in *. clearbody a b. lra. }
  assert (Hs : forall ax, In ax [O] -> (0 < ex_s ax)%nat) by (intros ax [<-|[]]; unfold ex_s; simpl; lia).
  assert (ND : NoDup [O]) by (repeat constructor; simpl; tauto).
  split.
  - rewrite <- (C71_unique ex_s (fun _ => 1%nat) [O] 1 1 (fun _ _ _ => 1) ex_S QNone 1 (fun _ _ => 0) (fun _ _ => 0) X (fun _ => O) ND ltac:(discriminate) Hs ltac:(lia) ltac:(lra) I Hmin O (fun _ => O) ltac:(lia)).
    + unfold X, ex_S. simpl. lra.
    + intros ax [<-|[]]. unfold ex_s. simpl. lia.
    + reflexivity.
  - rewrite <- (C71_unique ex_s (fun _ => 1%nat) [O] 1 1 (fun _ _ _ => 1) ex_S QNone 1 (fun _ _ => 0) (fun _ _ => 0) X (fun _ => O) ND ltac:(discriminate) Hs ltac:(lia) ltac:(lra) I Hmin O (fun ax => if Nat.eqb ax 0 then 1%nat else O) ltac:(lia)).
    + unfold X, ex_S. simpl. lra.
    + intros ax [<-|[]]. unfold ex_s. simpl. lia.
    + intros ax Ha. destruct ax; [exfalso; apply Ha; left; reflexivity|reflexivity].
Qed.

(** On an axis of length one the gradient is zero, but the code crops the filter 1, -1 to 1 and penalises the value itself: the
    x step of ConvBPDNGradReg is then not a minimiser. *)
Theorem C71_gradient_axis1_refuted :
  let s := fun _ : nat => 1%nat in let D := fun (_ _ : nat) (_ : index) => 0 in let S := fun (_ : nat) (_ : index) => 0 in
  let q := QGrad 1 (fun _ => 1) in let Y := fun (_ : nat) (_ : index) => 1 in let U := fun (_ : nat) (_ : index) => 0 in
  let F := fun X => datafit s s [O] 1 1 D S X idx0 + quad_term s [O] 1 q X idx0 + near s [O] 1 1 (fun m p => Y m p - U m p) X idx0 in
  F Y < F (xstep s s [O] 1 1 D S q 1 Y U).
Proof.
  intros s D S q Y U F.
  assert (Z0 : forall z, ru 1 (0 * z) = c1) by (intros; unfold ru; rewrite Z.mul_0_l; unfold Rdiv; rewrite Rmult_0_r, Rmult_0_l; unfold cis; rewrite cos_0, sin_0; reflexivity).
  assert (E0 : forall f i, rfftn s [O] f i = ofR (f (upd i O O)) \/ i O <> O).
  { intros f i. destruct (Nat.eq_dec (i O) O) as [H|H]; [left|right; exact H]. unfold rfftn. simpl. unfold dft_ax, dft, s. rewrite H. unfold csumn. cbn [sumn].
    simpl Z.of_nat. unfold ru. simpl Z.mul. simpl Z.opp. unfold Rdiv. rewrite Rmult_0_r, Rmult_0_l. unfold cis. rewrite cos_0, sin_0. ceq; ring. }
  assert (E : forall f, rfftn s [O] f (upd idx0 O O) = ofR (f idx0)).
  { intros f. destruct (E0 f (upd idx0 O O)) as [H|H]; [|exfalso; apply H; reflexivity]. rewrite H. f_equal. f_equal. extensionality ax. unfold upd, idx0. destruct (Nat.eqb ax 0); reflexivity. }
  assert (X0 : xstep s s [O] 1 1 D S q 1 Y U O idx0 = / 2).
  { set (x := xstepf s s [O] 1 1 D S q 1 Y U O (upd idx0 O O)).
    assert (Ex : re x = / 2).
    { assert (Dg : forall k, diag s [O] q 1 (upd idx0 O O) k = 2).
      { intros k. unfold diag, q, GHGf. cbn [length]. unfold csumn. cbn [sumn nth re im fst snd]. rewrite E.
        replace (padR (fun _ => 2%nat) [O] (grad_filter [O] O) idx0) with 1 by reflexivity. unfold cmul, conj, ofR. cbn [re im fst snd]. lra. }
      pose proof (dbd_sys 1 (diag s [O] q 1 (upd idx0 O O)) ltac:(intros; rewrite Dg; lra) (fun m => Df s s [O] D O m (upd idx0 O O))
        (fun k => cadd (DSf s s [O] 1 D S k (upd idx0 O O)) (cmul (ofR 1) (rfftn s [O] (fun p => Y k p - U k p) (upd idx0 O O)))) O ltac:(lia)) as H.
      change (dbd_sm _ _ _ _) with (fun k => xstepf s s [O] 1 1 D S q 1 Y U k (upd idx0 O O)) in H.
      unfold sys in H. rewrite Dg in H. fold x in H. unfold DSf in H. rewrite E in H. unfold Df in H.
      assert (ED : forall c m, rfftn s [O] (padR s [O] (D c m)) (upd idx0 O O) = c0) by (intros; rewrite E; reflexivity).
      apply (f_equal re) in H. unfold csumn, Sf in H. cbn [sumn] in H. rewrite !E in H. revert H. unfold Y, U, S.
      replace (padR s [O] (D O O) idx0) with 0 by reflexivity. cbn. intros H. lra. }
    unfold xstep, irfftn. cbn [last removelast]. unfold irfft. change (s O) with 1%nat. cbn [ifftn fold_right Nat.even].
    replace (sumn ((1 + 1) / 2 - 1) _) with 0 by reflexivity. fold x. rewrite Ex. simpl. lra. }
  assert (P : forall X, F X = / 2 * ((X O idx0 - 1) * (X O idx0 - 1))).
  { intros X. unfold F, datafit, quad_term, q, grad_term, near, sqn, synth, conv, diff. cbn [sumn total s map fold_right]. unfold ext, D, S, Y, U. simpl.
    replace (set_at idx0 0 0) with idx0 by (extensionality ax; unfold set_at, idx0; destruct (Nat.eqb ax 0); reflexivity).
    replace (back s 0 idx0) with idx0 by (extensionality ax; unfold back, set_at, idx0, s; destruct (Nat.eqb ax 0); reflexivity). lra. }
  rewrite !P, X0. unfold Y. lra.
Qed.
Print Assumptions C71_gradient_axis1_refuted.
Example C68_ex : good_axes 1 ex_s [O] /\ residual_norm2 1 ex_s (fun _ => 1%nat) [O] 1 1 (fun _ _ _ => 1) ex_S (fun _ _ => 0) = 10.
Proof.
  split.
  - split; [repeat constructor; simpl; tauto|]. split; [discriminate|]. intros ax [<-|[]]. unfold ex_s. simpl. lia.
  - unfold residual_norm2. cbn [sumn seq total ex_s Nat.eqb]. rewrite !ex_synth by (unfold set_at; simpl; lia). unfold ex_S, set_at. simpl. lra.
Qed.
