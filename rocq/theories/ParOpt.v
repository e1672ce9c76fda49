(** The steps of the parallel solver solve their subproblems. *)
Require Import Reals List Arith Bool Lia Lra.
Require Import Verif.RVec Verif.ProxModel Verif.ProxProofs Verif.InterModel Verif.InterProofs Verif.ParModel Verif.ParProofs Verif.ParSpec Verif.ParSem Verif.ParIter.
Import ListNotations.
Local Open Scope R_scope.

(** ** Sum over groups *)
Lemma sum_groups : forall n M g (h : nat -> R), groups n M g ->
  sumn M h = sumn n (fun i => sumn (g (S i) - g i) (fun j => h (g i + j)%nat)).
Proof.
  intros n M g h Hg.
  assert (A : forall k, (k <= n)%nat -> sumn (g k) h = sumn k (fun i => sumn (g (S i) - g i) (fun j => h (g i + j)%nat))).
  { intros k. induction k as [|k IH]; intros Hk.
    - destruct Hg as [-> _]. reflexivity.
    - cbn [sumn]. rewrite <- IH by lia. rewrite <- sumn_split. f_equal.
      destruct Hg as (_ & _ & H). specialize (H k ltac:(lia)). lia. }
  rewrite <- A by lia. destruct Hg as (_ & -> & _). reflexivity.
Qed.

(** ** Joint update of Y0 *)
Lemma y0_pixel : forall n (v : nat -> R) W S rho, 0 < rho ->
  let sw := S * W ^ 2 in
  let b := - W ^ 2 / (rho * (rho + W ^ 2 * INR n)) * sumn n (fun i => sw + rho * v i) in
  let y i := 1 / rho * sw + v i + b in
  forall z : nat -> R,
  1 / 2 * (W * (sumn n y - S)) ^ 2 + rho / 2 * sumn n (fun i => (v i - y i) ^ 2) + rho / 2 * sumn n (fun i => (z i - y i) ^ 2) <=
  1 / 2 * (W * (sumn n z - S)) ^ 2 + rho / 2 * sumn n (fun i => (v i - z i) ^ 2).
Proof.
  intros n v W S rho Hr sw b y z.
  set (k := 1 / rho * sw + b). set (V := sumn n v). set (N := INR n).
  assert (HN : 0 <= N) by apply pos_INR.
  assert (Hd : 0 < rho + W ^ 2 * N) by (pose proof (pow2_ge_0 W); nra).
  assert (Eb : b = - W ^ 2 / (rho * (rho + W ^ 2 * N)) * (N * sw + rho * V)).
  { unfold b. rewrite sumn_plus, sumn_const, sumn_scal. reflexivity. }
  assert (Ey : sumn n y = V + N * k).
  { unfold y. rewrite (sumn_ext n _ (fun i => v i + k)) by (intros i Hi; unfold k; ring). rewrite sumn_plus, sumn_const. reflexivity. }
  assert (Opt : W ^ 2 * (V + N * k - S) + rho * k = 0).
  { unfold k. rewrite Eb. unfold sw. field. lra. }
  set (dz := fun i => z i - y i). set (T := sumn n dz).
  assert (Ez : sumn n z = V + N * k + T).
  { unfold T, dz. rewrite sumn_minus, Ey. ring. }
  assert (E1 : sumn n (fun i => (v i - y i) ^ 2) = N * k ^ 2).
  { rewrite (sumn_ext n _ (fun _ => k ^ 2)) by (intros i Hi; unfold y, k; ring). apply sumn_const. }
  assert (E2 : sumn n (fun i => (v i - z i) ^ 2) = N * k ^ 2 + 2 * k * T + sumn n (fun i => (dz i) ^ 2)).
  { rewrite (sumn_ext n _ (fun i => k ^ 2 + (2 * k * dz i + (dz i) ^ 2))) by (intros i Hi; unfold dz, y, k; ring).
    rewrite sumn_plus, sumn_plus, sumn_const, sumn_scal. unfold T, N. ring. }
  change (sumn n (fun i => (z i - y i) ^ 2)) with (sumn n (fun i => dz i ^ 2)).
  rewrite Ey, Ez, E1, E2. clear Ey Ez E1 E2 Eb.
  clearbody T. clearbody dz. clearbody V. clearbody k. clearbody N.
  assert (Q : 0 <= sumn n (fun i => (dz i) ^ 2)) by (apply sumn_nonneg; intros i Hi; apply pow2_ge_0).
  set (Dz := sumn n (fun i => dz i ^ 2)) in *.
  replace (1 / 2 * (W * (V + N * k + T - S)) ^ 2 + rho / 2 * (N * k ^ 2 + 2 * k * T + Dz))
    with (1 / 2 * (W * (V + N * k - S)) ^ 2 + rho / 2 * (N * k ^ 2)
          + (W ^ 2 * (V + N * k - S) + rho * k) * T + 1 / 2 * (W * T) ^ 2 + rho / 2 * Dz) by field.
  rewrite Opt. pose proof (pow2_ge_0 (W * T)). nra.
Qed.

Lemma y0_joint : forall n P (v : nat -> nat -> R) (W S : nat -> R) rho (y z : nat -> nat -> R), 0 < rho ->
  (forall i p, (i < n)%nat -> (p < P)%nat ->
     y i p = 1 / rho * (S p * W p ^ 2) + v i p +
             - W p ^ 2 / (rho * (rho + W p ^ 2 * INR n)) * sumn n (fun j => S p * W p ^ 2 + rho * v j p)) ->
  sumn P (fun p => 1 / 2 * (W p * (sumn n (fun i => y i p) - S p)) ^ 2 + rho / 2 * sumn n (fun i => (v i p - y i p) ^ 2)) +
  rho / 2 * sumn P (fun p => sumn n (fun i => (z i p - y i p) ^ 2)) <=
  sumn P (fun p => 1 / 2 * (W p * (sumn n (fun i => z i p) - S p)) ^ 2 + rho / 2 * sumn n (fun i => (v i p - z i p) ^ 2)).
Proof.
  intros n P v W S rho y z Hr Hy. rewrite <- sumn_scal, <- sumn_plus. apply sumn_le. intros p Hp.
  pose proof (y0_pixel n (fun i => v i p) (W p) (S p) rho Hr (fun i => z i p)) as K. cbv zeta beta in K.
  rewrite (sumn_ext n (fun i => y i p) _ (fun i Hi => Hy i p Hi Hp)).
  rewrite (sumn_ext n (fun i => (v i p - y i p) ^ 2) (fun i => (v i p - (1 / rho * (S p * W p ^ 2) + v i p +
             - W p ^ 2 / (rho * (rho + W p ^ 2 * INR n)) * sumn n (fun j => S p * W p ^ 2 + rho * v j p))) ^ 2))
    by (intros i Hi; rewrite (Hy i p Hi Hp); reflexivity).
  rewrite (sumn_ext n (fun i => (z i p - y i p) ^ 2) (fun i => (z i p - (1 / rho * (S p * W p ^ 2) + v i p +
             - W p ^ 2 / (rho * (rho + W p ^ 2 * INR n)) * sumn n (fun j => S p * W p ^ 2 + rho * v j p))) ^ 2))
    by (intros i Hi; rewrite (Hy i p Hi Hp); reflexivity).
  exact K.
Qed.

(** ** Update of one coefficient *)
Lemma y1_coef : forall c f p v z, 0 <= lmbda c / (alpha c ^ 2 * rho c) * ParModel.wl1 c f p ->
  (nonneg c = true -> 0 <= z) -> (bnd c p = true -> z = 0) ->
  let a := lmbda c / (alpha c ^ 2 * rho c) * ParModel.wl1 c f p in
  let y := y1val c f p v in
  (nonneg c = true -> 0 <= y) /\ (bnd c p = true -> y = 0) /\
  a * Rabs y + 1 / 2 * (y - v) ^ 2 <= a * Rabs z + 1 / 2 * (z - v) ^ 2.
Proof.
  intros c f p v z Ha Hz Hb a y. fold a in Ha. unfold y, y1val. cbv zeta.
  change (prox_l1 (fun _ => v) (fun _ => lmbda c / (alpha c ^ 2 * rho c) * ParModel.wl1 c f p) 0%nat) with (sgn v * Rmax (Rabs v - a) 0).
  destruct (bnd c p) eqn:Eb.
  - rewrite (Hb eq_refl). split; [intros; lra | split; [reflexivity | lra]].
  - clear Hb. pose proof (prox_l1_sub1 v a z Ha) as Hs. cbv zeta in Hs.
    pose proof (prox_l1_cases v a Ha) as Hc. cbv zeta in Hc. set (q := sgn v * Rmax (Rabs v - a) 0) in *.
    destruct (nonneg c) eqn:En; cbn [andb].
    + specialize (Hz eq_refl). unfold ltb. destruct (Rlt_dec q 0) as [L|L].
      * split; [intros; lra | ]. split; [discriminate | ]. destruct Hc as [[H E]|[[H E]|[H E]]]; try lra.
        rewrite Rabs_R0, (Rabs_right z) by lra. nra.
      * split; [intros; lra | ]. split; [discriminate | ]. pose proof (pow2_ge_0 (z - q)). nra.
    + split; [discriminate | ]. split; [discriminate | ]. pose proof (pow2_ge_0 (z - q)). nra.
Qed.

(** The data of a model instance and the problem it is meant to solve. *)
Definition quad (c : params) (D : (nat -> nat -> R) -> nat -> R) (i : nat) (a : nat -> R) (b Z : nat -> nat -> R) : R :=
  1 / 2 * sumn (npix c) (fun p => (D Z p - a p) ^ 2) +
  alpha c ^ 2 / 2 * sumn (grp c (S i) - grp c i) (fun j => sumn (npix c) (fun p => (Z (grp c i + j)%nat p - b (grp c i + j)%nat p) ^ 2)).

Record instance_of (c : params) (q : problem) : Prop := {
  io_M : pM q = nfilt c; io_n : pn q = ngrp c; io_P : pP q = npix c;
  io_grp : groups (ngrp c) (nfilt c) (grp c);
  io_l : plmbda q = lmbda c; io_r : prho q = rho c; io_a : palpha q = alpha c; io_x : prlx q = rlx c; io_w : pw q = ParModel.wl1 c;
  io_l0 : 0 <= lmbda c; io_r0 : 0 < rho c; io_a0 : alpha c <> 0; io_w0 : forall f p, 0 <= ParModel.wl1 c f p;
  io_S : forall p, sw c p = pS q p * pW q p ^ 2;
  io_off : forall p, inv_off c p = - pW q p ^ 2 / (rho c * (rho c + pW q p ^ 2 * INR (ngrp c)));
  io_feas : forall f p v, pfeas q f p v <-> (nonneg c = true -> 0 <= v) /\ (bnd c p = true -> v = 0);
  (* the filters of a group act on the maps of the group *)
  io_D : forall i Z Z', (i < ngrp c)%nat -> (forall f p, ing c i f = true -> (p < npix c)%nat -> Z f p = Z' f p) ->
         forall p, (p < npix c)%nat -> pD q i Z p = pD q i Z' p;
  (* the linear solver is exact *)
  io_dx : forall i a b p, (i < ngrp c)%nat -> (p < npix c)%nat -> dxs c i a b p = pD q i (xs c i a b) p;
  io_xs : forall i a b Z, (i < ngrp c)%nat -> quad c (pD q i) i a b (xs c i a b) <= quad c (pD q i) i a b Z
}.

Section Opt.
Variables (c : params) (q : problem).
Hypothesis H : instance_of c q.
Let Hg : groups (ngrp c) (nfilt c) (grp c) := io_grp c q H.

Lemma ing_j : forall i j, (j < grp c (S i) - grp c i)%nat -> ing c i (grp c i + j) = true.
Proof. intros i j Hj. apply ing_iff. lia. Qed.

Lemma xobj_groups : forall s Z, xobj q s Z = sumn (ngrp c) (fun i => quad c (pD q i) i (a0 c s i) (a1 c s i) Z).
Proof.
  intros s Z. unfold xobj, sumG, sumF. rewrite (io_M c q H), (io_n c q H), (io_P c q H), (io_a c q H).
  rewrite (sum_groups (ngrp c) (nfilt c) (grp c) _ Hg). unfold quad. rewrite sumn_plus, !sumn_scal. f_equal.
  - f_equal. apply sumn_ext. intros i Hi. apply sumn_ext. intros p Hp. unfold a0.
    replace (p <? npix c)%nat with true by (symmetry; apply Nat.ltb_lt; exact Hp). f_equal. ring.
  - replace (alpha c ^ 2 / 2) with (1 / 2 * alpha c ^ 2) by field. rewrite Rmult_assoc. f_equal.
    rewrite <- sumn_scal. apply sumn_ext. intros i Hi. rewrite <- sumn_scal. apply sumn_ext. intros j Hj.
    rewrite <- sumn_scal. apply sumn_ext. intros p Hp. unfold a1. rewrite (ing_j i j Hj).
    replace (p <? npix c)%nat with true by (symmetry; apply Nat.ltb_lt; exact Hp). cbn [andb]. field. apply (io_a0 c q H).
Qed.

Lemma D_xmap : forall s i p, (i < ngrp c)%nat -> (p < npix c)%nat -> pD q i (xmap c s) p = dmap c s i p.
Proof.
  intros s i p Hi Hp. unfold dmap. rewrite (io_dx c q H i _ _ p Hi Hp). apply (io_D c q H i); [exact Hi | | exact Hp].
  intros f p' Hf Hp'. unfold xmap. rewrite (gof_unique c Hg i f Hi Hf). reflexivity.
Qed.

Lemma quad_ext : forall i a b Z Z', (i < ngrp c)%nat -> (forall f p, ing c i f = true -> (p < npix c)%nat -> Z f p = Z' f p) ->
  quad c (pD q i) i a b Z = quad c (pD q i) i a b Z'.
Proof.
  intros i a b Z Z' Hi E. unfold quad. f_equal; f_equal.
  - apply sumn_ext. intros p Hp. rewrite (io_D c q H i Z Z' Hi E p Hp). reflexivity.
  - apply sumn_ext. intros j Hj. apply sumn_ext. intros p Hp. rewrite (E _ p (ing_j i j Hj) Hp). reflexivity.
Qed.

Lemma x_step : forall s Z, xobj q s (xmap c s) <= xobj q s Z.
Proof.
  intros s Z. rewrite !xobj_groups. apply sumn_le. intros i Hi.
  rewrite (quad_ext i _ _ (xmap c s) (xs c i (a0 c s i) (a1 c s i)) Hi).
  - apply (io_xs c q H). exact Hi.
  - intros f p Hf Hp. unfold xmap. rewrite (gof_unique c Hg i f Hi Hf). reflexivity.
Qed.

Lemma relaxed_dr : forall s i p, (i < ngrp c)%nat -> (p < npix c)%nat -> relaxed q (fun i => pD q i (xmap c s)) (Y0 s) i p = dr c s i p.
Proof. intros s i p Hi Hp. unfold relaxed, dr. rewrite (io_x c q H), (D_xmap s i p Hi Hp). reflexivity. Qed.
Lemma relaxed_xr : forall s f p, relaxed q (xmap c s) (Y1 s) f p = xr c s f p.
Proof. intros s f p. unfold relaxed, xr. rewrite (io_x c q H). reflexivity. Qed.

Lemma y0obj_pixels : forall s Z,
  y0obj q (relaxed q (fun i => pD q i (xmap c s)) (Y0 s)) (U0 s) Z =
  sumn (npix c) (fun p => 1 / 2 * (pW q p * (sumn (ngrp c) (fun i => Z i p) - pS q p)) ^ 2 +
                          rho c / 2 * sumn (ngrp c) (fun i => (dr c s i p + U0 s i p - Z i p) ^ 2)).
Proof.
  intros s Z. unfold y0obj, sumG. rewrite (io_n c q H), (io_P c q H), (io_r c q H). rewrite sumn_plus, !sumn_scal. f_equal.
  f_equal. rewrite sumn_swap. apply sumn_ext. intros p Hp. apply sumn_ext. intros i Hi.
  rewrite (relaxed_dr s i p Hi Hp). f_equal. ring.
Qed.

Lemma y0_step : forall s Z,
  y0obj q (relaxed q (fun i => pD q i (xmap c s)) (Y0 s)) (U0 s) (Y0 (step c s)) <=
  y0obj q (relaxed q (fun i => pD q i (xmap c s)) (Y0 s)) (U0 s) Z.
Proof.
  intros s Z. rewrite !y0obj_pixels. apply sumn_le. intros p Hp.
  pose proof (y0_pixel (ngrp c) (fun i => dr c s i p + U0 s i p) (pW q p) (pS q p) (rho c) (io_r0 c q H) (fun i => Z i p)) as K.
  cbv zeta in K.
  replace (sumn (ngrp c) (fun i => Y0 (step c s) i p))
    with (sumn (ngrp c) (fun i => 1 / rho c * (pS q p * pW q p ^ 2) + (dr c s i p + U0 s i p) +
            - pW q p ^ 2 / (rho c * (rho c + pW q p ^ 2 * INR (ngrp c))) * sumn (ngrp c) (fun i0 => pS q p * pW q p ^ 2 + rho c * (dr c s i0 p + U0 s i0 p)))).
  - replace (sumn (ngrp c) (fun i => (dr c s i p + U0 s i p - Y0 (step c s) i p) ^ 2))
      with (sumn (ngrp c) (fun i => (dr c s i p + U0 s i p - (1 / rho c * (pS q p * pW q p ^ 2) + (dr c s i p + U0 s i p) +
            - pW q p ^ 2 / (rho c * (rho c + pW q p ^ 2 * INR (ngrp c))) * sumn (ngrp c) (fun i0 => pS q p * pW q p ^ 2 + rho c * (dr c s i0 p + U0 s i0 p)))) ^ 2)).
    + eapply Rle_trans; [ | exact K]. rewrite <- (Rplus_0_r (_ + _)) at 1. apply Rplus_le_compat_l.
      apply Rmult_le_pos; [pose proof (io_r0 c q H); lra | ]. apply sumn_nonneg. intros i Hi. apply pow2_ge_0.
    + apply sumn_ext. intros i Hi. f_equal. cbn [step update Y0]. unfold b_of. rewrite (io_S c q H), (io_off c q H). ring.
  - apply sumn_ext. intros i Hi. cbn [step update Y0]. unfold b_of. rewrite (io_S c q H), (io_off c q H). ring.
Qed.

Lemma thr_nonneg : forall f p, 0 <= lmbda c / (alpha c ^ 2 * rho c) * ParModel.wl1 c f p.
Proof.
  intros f p. apply Rmult_le_pos; [ | apply (io_w0 c q H)]. unfold Rdiv. apply Rmult_le_pos; [apply (io_l0 c q H) | ].
  apply Rlt_le, Rinv_0_lt_compat. apply Rmult_lt_0_compat; [ | apply (io_r0 c q H)].
  pose proof (io_a0 c q H). pose proof (pow2_ge_0 (alpha c)). destruct (Req_dec (alpha c ^ 2) 0) as [E|E]; [ | lra].
  exfalso. apply H0. nra.
Qed.

Lemma y1_step : forall s, feasible q (Y1 (step c s)) /\
  forall Z, feasible q Z ->
  y1obj q (relaxed q (xmap c s) (Y1 s)) (U1 s) (Y1 (step c s)) <= y1obj q (relaxed q (xmap c s) (Y1 s)) (U1 s) Z.
Proof.
  intros s. split.
  - intros f p Hf Hp. apply (io_feas c q H). cbn [step update Y1].
    destruct (y1_coef c f p (xr c s f p + 1 / alpha c * U1 s f p) 0 (thr_nonneg f p) ltac:(intros; lra) ltac:(intros; lra)) as (A & B' & _).
    split; assumption.
  - intros Z HZ. unfold y1obj. unfold sumF. rewrite <- !sumn_scal, <- !sumn_plus. apply sumn_le. intros f Hf.
    rewrite <- !sumn_scal, <- !sumn_plus. apply sumn_le. intros p Hp.
    destruct (proj1 (io_feas c q H f p (Z f p)) (HZ f p Hf Hp)) as [F1 F2].
    destruct (y1_coef c f p (xr c s f p + 1 / alpha c * U1 s f p) (Z f p) (thr_nonneg f p) F1 F2) as (_ & _ & K).
    rewrite relaxed_xr, (io_l c q H), (io_r c q H), (io_a c q H), (io_w c q H).
    change (Y1 (step c s) f p) with (y1val c f p (xr c s f p + 1 / alpha c * U1 s f p)).
    set (y := y1val c f p (xr c s f p + 1 / alpha c * U1 s f p)) in *.
    pose proof (io_a0 c q H) as Ha. pose proof (io_r0 c q H) as Hr.
    assert (Hk : 0 < rho c * alpha c ^ 2).
    { apply Rmult_lt_0_compat; [exact Hr | ]. pose proof (pow2_ge_0 (alpha c)). destruct (Req_dec (alpha c ^ 2) 0) as [E|E]; [ | lra].
      exfalso. apply Ha. nra. }
    assert (E : forall v, lmbda c * (ParModel.wl1 c f p * Rabs v) + rho c / 2 * (alpha c * xr c s f p - alpha c * v + U1 s f p) ^ 2 =
      (rho c * alpha c ^ 2) * (lmbda c / (alpha c ^ 2 * rho c) * ParModel.wl1 c f p * Rabs v + 1 / 2 * (v - (xr c s f p + 1 / alpha c * U1 s f p)) ^ 2)).
    { intros v. field. split; lra. }
    rewrite !E. apply Rmult_le_compat_l; [lra | exact K].
Qed.

Lemma step_is_step : forall s, is_step q (xmap c s) s (step c s).
Proof.
  intros s. constructor.
  - apply x_step.
  - apply y0_step.
  - apply y1_step.
  - apply y1_step.
  - intros i p Hi Hp. rewrite (io_n c q H) in Hi. rewrite (io_P c q H) in Hp. rewrite (relaxed_dr s i p Hi Hp). reflexivity.
  - intros f p Hf Hp. rewrite relaxed_xr, (io_a c q H). cbn [step update U1 Y1]. ring.
Qed.
End Opt.
