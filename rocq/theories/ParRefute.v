(** Concrete problem: one filter (the identity), one pixel, S = W = rho = alpha = 1, lmbda = 0. *)
Require Import Reals List Arith Bool Lia Lra FunctionalExtensionality.
Require Import Verif.RVec Verif.ProxModel Verif.ProxProofs Verif.InterModel Verif.InterProofs Verif.ParModel Verif.ParProofs Verif.ParSpec Verif.ParSem Verif.ParIter Verif.ParOpt
  Verif.ParLoop.
Import ListNotations.
Local Open Scope nat_scope.

(** The signal is [s1]. *)
Definition c1 (s1 : R) : params := mkParams 1 1 1 (fun i => i) 0%R 1%R 1%R 1%R (fun _ _ => 1%R) (fun _ => s1) (fun _ => (- / 2)%R) false (fun _ => false)
  (fun i a b f p => ((a p + b f p) / 2)%R) (fun i a b p => ((a p + b 0%nat p) / 2)%R).
Definition q1 (s1 : R) : problem := mkProblem 1 1 1 (fun i Z p => Z 0 p) (fun _ => s1) (fun _ => 1%R) 0%R 1%R 1%R 1%R (fun _ _ => 1%R) (fun _ _ _ => True).

Lemma c1_groups : forall s1, groups (ngrp (c1 s1)) (nfilt (c1 s1)) (grp (c1 s1)).
Proof. intros s1. split; [reflexivity | ]. split; [reflexivity | ]. intros i Hi. simpl. lia. Qed.

Lemma c1_instance : forall s1, instance_of (c1 s1) (q1 s1).
Proof.
  intros s1. constructor; try reflexivity; try (simpl; intros; lra).
  - apply c1_groups.
  - simpl. intros i Z Z' Hi E p Hp. apply E; [ | exact Hp]. replace i with 0 by lia. reflexivity.
  - simpl. intros i a b Z Hi. replace i with 0 by lia. unfold quad. cbn [npix grp alpha c1 pD q1 sumn Nat.sub Nat.add].
    pose proof (pow2_ge_0 (Z 0 0 - (a 0 + b 0 0) / 2)). nra.
Qed.

Lemma c1_y1 : forall s1 v, y1val (c1 s1) 0 0 v = v.
Proof.
  intros s1 v. unfold y1val. cbn [nonneg bnd c1 lmbda alpha rho ParModel.wl1 andb]. unfold prox_l1.
  replace (0 / (1 ^ 2 * 1) * 1)%R with 0%R by (unfold Rdiv; ring). rewrite Rminus_0_r, Rmax_left by apply Rabs_pos.
  unfold sgn, ltb. destruct (Rlt_dec 0 v); [rewrite Rabs_right by lra; ring | ].
  destruct (Rlt_dec v 0); [rewrite Rabs_left by lra; ring | ]. replace v with 0%R by lra. ring.
Qed.

Lemma c1_x : forall s1 s, xmap (c1 s1) s 0 0 = ((Y0 s 0 0 - U0 s 0 0 + (Y1 s 0 0 - U1 s 0 0)) / 2)%R /\ dmap (c1 s1) s 0 0 = xmap (c1 s1) s 0 0.
Proof.
  intros s1 s. unfold xmap, dmap, a0, a1.
  change (gof (c1 s1) 0) with 0. change (ing (c1 s1) 0 0) with true. cbn [npix c1 xs dxs alpha Nat.ltb Nat.leb andb].
  split; [ | reflexivity]. simpl. field.
Qed.

(** An update of the variables with maps for [s0]. *)
Lemma c1_update : forall s1 s0 s, let x := xmap (c1 s1) s0 0 0 in let v := (x + U0 s 0 0)%R in
  Y0 (update (c1 s1) s0 s) 0 0 = ((s1 + v) / 2)%R /\ U0 (update (c1 s1) s0 s) 0 0 = ((v - s1) / 2)%R /\
  Y1 (update (c1 s1) s0 s) 0 0 = (x + U1 s 0 0)%R /\ U1 (update (c1 s1) s0 s) 0 0 = 0%R.
Proof.
  intros s1 s0 s x v. cbn [update Y0 Y1 U0 U1]. rewrite c1_y1. unfold dr, xr, b_of. rewrite (proj2 (c1_x s1 s0)). fold x.
  cbn [ngrp rho sw alpha rlx inv_off c1 sumn]. unfold dr. cbn [rlx c1]. rewrite (proj2 (c1_x s1 s0)). fold x. unfold v, Rdiv. rewrite Rinv_1.
  split; [field | ]. split; [field | ]. split; ring.
Qed.

Definition zero : pmem := fun _ => 0%R.

(** After N + 1 iterations from zero. *)
Lemma c1_iter : forall s1 N, let s := iter (c1 s1) (S N) (view zero) in
  (Y0 s 0 0 - U0 s 0 0 = s1 /\ U1 s 0 0 = 0 /\ Y1 s 0 0 = s1 * (1 - (1 / 2) ^ N))%R.
Proof.
  intros s1 N. cbv zeta. induction N as [|N IH].
  - cbn [iter]. destruct (c1_update s1 (view zero) (view zero)) as (A & B' & C & D). cbv zeta in *.
    unfold step. rewrite A, B', C, D. rewrite (proj1 (c1_x s1 (view zero))). cbn [view Y0 Y1 U0 U1]. unfold zero. simpl pow.
    split; [field | ]. split; [reflexivity | field].
  - rewrite iter_S. set (s := iter (c1 s1) (S N) (view zero)) in *. destruct IH as (I1 & I2 & I3).
    destruct (c1_update s1 s s) as (A & B' & C & D). cbv zeta in *. unfold step. rewrite A, B', C, D. rewrite (proj1 (c1_x s1 s)).
    rewrite I2, I3, I1. split; [field | ]. split; [reflexivity | ]. cbn [pow]. field.
Qed.

(** The specification determines the iterates. *)
Lemma q1_unique : forall s1 X s s', is_step (q1 s1) X s s' ->
  let x := ((Y0 s 0 0 - U0 s 0 0 + (Y1 s 0 0 - U1 s 0 0)) / 2)%R in let v := (x + U0 s 0 0)%R in
  Y0 s' 0 0 = ((s1 + v) / 2)%R /\ U0 s' 0 0 = ((v - s1) / 2)%R /\ Y1 s' 0 0 = (x + U1 s 0 0)%R /\ U1 s' 0 0 = 0%R.
Proof.
  intros s1 X s s' [Hx H0 Hf H1 Hu0 Hu1] x v.
  assert (EX : X 0 0 = x).
  { specialize (Hx (fun _ _ => x)). unfold xobj, sumG, sumF in Hx. cbn [pn pM pP pD palpha q1 sumn] in Hx. unfold x in *.
    set (a := Y0 s 0 0) in *. set (b := U0 s 0 0) in *. set (d := Y1 s 0 0) in *. set (e := U1 s 0 0) in *. set (t := X 0 0) in *.
    assert (S : ((t - (a - b + (d - e)) / 2) ^ 2 <= 0)%R) by nra. nra. }
  assert (EY0 : Y0 s' 0 0 = ((s1 + v) / 2)%R).
  { specialize (H0 (fun _ _ => ((s1 + v) / 2)%R)). unfold y0obj, sumG, relaxed in H0. cbn [pn pP pD pW pS prho prlx q1 sumn] in H0.
    rewrite EX in H0. unfold v in *. set (t := Y0 s' 0 0) in *. set (u := U0 s 0 0) in *.
    assert (S : ((t - (s1 + (x + u)) / 2) ^ 2 <= 0)%R) by nra. nra. }
  assert (EY1 : Y1 s' 0 0 = (x + U1 s 0 0)%R).
  { specialize (H1 (fun _ _ => (x + U1 s 0 0)%R) (fun _ _ _ _ => I)). unfold y1obj, sumF, relaxed in H1. cbn [pM pP pw plmbda palpha prho prlx q1 sumn] in H1.
    rewrite EX in H1. set (t := Y1 s' 0 0) in *. set (u := U1 s 0 0) in *. assert (S : ((t - (x + u)) ^ 2 <= 0)%R) by nra. nra. }
  specialize (Hu0 0 0 ltac:(simpl; lia) ltac:(simpl; lia)). specialize (Hu1 0 0 ltac:(simpl; lia) ltac:(simpl; lia)).
  unfold relaxed in Hu0, Hu1. cbn [pD palpha prlx q1] in Hu0, Hu1. rewrite EX in Hu0, Hu1.
  split; [exact EY0 | ]. split; [rewrite Hu0, EY0; unfold v; field | ]. split; [exact EY1 | ]. rewrite Hu1, EY1. ring.
Qed.

Lemma q1_iterations : forall s1 N xsq sq, sq 0 = view zero -> iterations (q1 s1) (S N) xsq sq ->
  (Y0 (sq (S N)) 0 0 - U0 (sq (S N)) 0 0 = s1 /\ U1 (sq (S N)) 0 0 = 0 /\ Y1 (sq (S N)) 0 0 = s1 * (1 - (1 / 2) ^ N))%R.
Proof.
  intros s1 N xsq sq H0 Hs. induction N as [|N IH].
  - destruct (q1_unique s1 _ _ _ (Hs 0 ltac:(lia))) as (A & B' & C & D). cbv zeta in *. rewrite A, B', C, D, H0.
    cbn [view Y0 Y1 U0 U1]. unfold zero. simpl pow. split; [field | ]. split; [reflexivity | field].
  - destruct (q1_unique s1 _ _ _ (Hs (S N) ltac:(lia))) as (A & B' & C & D). cbv zeta in *. rewrite A, B', C, D.
    destruct IH as (I1 & I2 & I3); [intros k Hk; apply Hs; lia | ]. rewrite I1, I2, I3. split; [field | ]. split; [reflexivity | ]. cbn [pow]. field.
Qed.
