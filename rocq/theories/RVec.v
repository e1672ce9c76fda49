(** Finite sums and inner products of real vectors.  A vector of dimension [n] is a function [nat -> R] of which only the
    values below [n] matter.  This file is mathematical background: it models no code. *)
Require Import Reals Lra Lia Arith List.
Local Open Scope R_scope.

Fixpoint sumn (n : nat) (f : nat -> R) : R :=
  match n with O => 0 | S n' => sumn n' f + f n' end.

Lemma sumn_ext n f g : (forall i, (i < n)%nat -> f i = g i) -> sumn n f = sumn n g.
Proof.
  induction n as [|n IH]; intros H; simpl; [reflexivity|].
  rewrite IH by (intros; apply H; lia). rewrite H by lia. reflexivity.
Qed.

Lemma sumn_plus n f g : sumn n (fun i => f i + g i) = sumn n f + sumn n g.
Proof. induction n as [|n IH]; simpl; [lra|]. rewrite IH. lra. Qed.

Lemma sumn_minus n f g : sumn n (fun i => f i - g i) = sumn n f - sumn n g.
Proof. induction n as [|n IH]; simpl; [lra|]. rewrite IH. lra. Qed.

Lemma sumn_scal n c f : sumn n (fun i => c * f i) = c * sumn n f.
Proof. induction n as [|n IH]; simpl; [lra|]. rewrite IH. lra. Qed.

Lemma sumn_scal_r n c f : sumn n (fun i => f i * c) = sumn n f * c.
Proof. induction n as [|n IH]; simpl; [lra|]. rewrite IH. lra. Qed.

Lemma sumn_opp n f : sumn n (fun i => - f i) = - sumn n f.
Proof. induction n as [|n IH]; simpl; [lra|]. rewrite IH. lra. Qed.

Lemma sumn_const n c : sumn n (fun _ => c) = INR n * c.
Proof. induction n as [|n IH]; simpl sumn; [simpl; lra|]. rewrite IH, S_INR. lra. Qed.

Lemma sumn_0 n f : (forall i, (i < n)%nat -> f i = 0) -> sumn n f = 0.
Proof. intros H. rewrite (sumn_ext n f (fun _ => 0)) by exact H. rewrite sumn_const. lra. Qed.

Lemma sumn_le n f g : (forall i, (i < n)%nat -> f i <= g i) -> sumn n f <= sumn n g.
Proof.
  induction n as [|n IH]; intros H; simpl; [lra|].
  apply Rplus_le_compat; [apply IH; intros; apply H; lia|apply H; lia].
Qed.

Lemma sumn_nonneg n f : (forall i, (i < n)%nat -> 0 <= f i) -> 0 <= sumn n f.
Proof. intros H. rewrite <- (sumn_0 n (fun _ => 0)) by reflexivity. apply sumn_le. exact H. Qed.

Lemma sumn_nonneg_0 n f : (forall i, (i < n)%nat -> 0 <= f i) -> sumn n f = 0 -> forall i, (i < n)%nat -> f i = 0.
Proof.
  induction n as [|n IH]; intros H E i Hi; [lia|]. simpl in E.
  assert (H1 : 0 <= sumn n f) by (apply sumn_nonneg; intros; apply H; lia).
  assert (H2 : 0 <= f n) by (apply H; lia).
  destruct (Nat.eq_dec i n) as [->|Hn]; [lra|]. apply IH; [intros; apply H; lia|lra|lia].
Qed.

Lemma sumn_ge_term n f i : (forall j, (j < n)%nat -> 0 <= f j) -> (i < n)%nat -> f i <= sumn n f.
Proof.
  induction n as [|n IH]; intros H Hi; [lia|]. simpl.
  assert (H1 : 0 <= sumn n f) by (apply sumn_nonneg; intros; apply H; lia).
  assert (H2 : 0 <= f n) by (apply H; lia).
  destruct (Nat.eq_dec i n) as [->|Hn]; [lra|].
  assert (f i <= sumn n f) by (apply IH; [intros; apply H; lia|lia]). lra.
Qed.

Lemma sumn_split n m f : sumn (n + m) f = sumn n f + sumn m (fun i => f (n + i)%nat).
Proof.
  induction m as [|m IH]; simpl.
  - rewrite Nat.add_0_r. lra.
  - rewrite Nat.add_succ_r. simpl. rewrite IH. lra.
Qed.

Lemma sumn_first n f : sumn (S n) f = f O + sumn n (fun i => f (S i)).
Proof. change (S n) with (1 + n)%nat. rewrite sumn_split. simpl. lra. Qed.

Lemma sumn_swap n m f : sumn n (fun i => sumn m (fun j => f i j)) = sumn m (fun j => sumn n (fun i => f i j)).
Proof.
  induction n as [|n IH]; simpl.
  - rewrite sumn_0; [reflexivity|reflexivity].
  - rewrite IH. rewrite <- sumn_plus. reflexivity.
Qed.

Lemma sumn_delta n k f : (k < n)%nat -> sumn n (fun i => if Nat.eqb i k then f i else 0) = f k.
Proof.
  induction n as [|n IH]; intros Hk; [lia|]. simpl.
  destruct (Nat.eq_dec k n) as [->|Hn].
  - rewrite Nat.eqb_refl. rewrite sumn_0; [lra|].
    intros i Hi. destruct (Nat.eqb_spec i n); [lia|reflexivity].
  - rewrite IH by lia. destruct (Nat.eqb_spec n k); [lia|lra].
Qed.

Lemma sumn_le_lt n f g i : (forall j, (j < n)%nat -> f j <= g j) -> (i < n)%nat -> f i < g i -> sumn n f < sumn n g.
Proof.
  intros H Hi Hlt.
  assert (E : g i - f i <= sumn n (fun j => g j - f j)).
  { apply (sumn_ge_term n (fun j => g j - f j) i); [|exact Hi]. intros j Hj. specialize (H j Hj). lra. }
  rewrite sumn_minus in E. lra.
Qed.

Lemma sumn_rev n f : sumn n f = sumn n (fun i => f (n - 1 - i)%nat).
Proof.
  induction n as [|n IH]; [reflexivity|].
  rewrite (sumn_first n (fun i => f (S n - 1 - i)%nat)). replace (S n - 1 - 0)%nat with n by lia.
  rewrite (sumn_ext n (fun i => f (S n - 1 - S i)%nat) (fun i => f (n - 1 - i)%nat)) by (intros; f_equal; lia).
  rewrite <- IH. simpl. lra.
Qed.

Lemma sumn_abs n f : Rabs (sumn n f) <= sumn n (fun i => Rabs (f i)).
Proof.
  induction n as [|n IH]; simpl; [rewrite Rabs_R0; lra|].
  pose proof (Rabs_triang (sumn n f) (f n)). lra.
Qed.

(** Vectors. *)
Definition dot (n : nat) (x y : nat -> R) : R := sumn n (fun i => x i * y i).
Definition nrm2 (n : nat) (x : nat -> R) : R := dot n x x.
Definition nrm (n : nat) (x : nat -> R) : R := sqrt (nrm2 n x).
Definition nrm1 (n : nat) (x : nat -> R) : R := sumn n (fun i => Rabs (x i)).
Definition vadd (x y : nat -> R) : nat -> R := fun i => x i + y i.
Definition vsub (x y : nat -> R) : nat -> R := fun i => x i - y i.
Definition vscal (c : R) (x : nat -> R) : nat -> R := fun i => c * x i.

Lemma dot_comm n x y : dot n x y = dot n y x.
Proof. apply sumn_ext. intros. ring. Qed.
Lemma dot_ext n x y x' y' : (forall i, (i < n)%nat -> x i = x' i) -> (forall i, (i < n)%nat -> y i = y' i) ->
  dot n x y = dot n x' y'.
Proof. intros H1 H2. apply sumn_ext. intros i Hi. rewrite H1, H2 by exact Hi. reflexivity. Qed.
Lemma dot_add_l n x y z : dot n (vadd x y) z = dot n x z + dot n y z.
Proof. unfold dot, vadd. rewrite <- sumn_plus. apply sumn_ext. intros. ring. Qed.
Lemma dot_sub_l n x y z : dot n (vsub x y) z = dot n x z - dot n y z.
Proof. unfold dot, vsub. rewrite <- sumn_minus. apply sumn_ext. intros. ring. Qed.
Lemma dot_scal_l n c x z : dot n (vscal c x) z = c * dot n x z.
Proof. unfold dot, vscal. rewrite <- sumn_scal. apply sumn_ext. intros. ring. Qed.
Lemma dot_add_r n x y z : dot n z (vadd x y) = dot n z x + dot n z y.
Proof. rewrite dot_comm, dot_add_l, (dot_comm n x), (dot_comm n y). reflexivity. Qed.
Lemma dot_sub_r n x y z : dot n z (vsub x y) = dot n z x - dot n z y.
Proof. rewrite dot_comm, dot_sub_l, (dot_comm n x), (dot_comm n y). reflexivity. Qed.
Lemma dot_scal_r n c x z : dot n z (vscal c x) = c * dot n z x.
Proof. rewrite dot_comm, dot_scal_l, (dot_comm n x). reflexivity. Qed.

Lemma nrm2_nonneg n x : 0 <= nrm2 n x.
Proof. apply sumn_nonneg. intros. apply Rle_0_sqr. Qed.
Lemma nrm_nonneg n x : 0 <= nrm n x.
Proof. apply sqrt_pos. Qed.
Lemma nrm_sqr n x : nrm n x * nrm n x = nrm2 n x.
Proof. apply sqrt_sqrt. apply nrm2_nonneg. Qed.
Lemma nrm2_ext n x y : (forall i, (i < n)%nat -> x i = y i) -> nrm2 n x = nrm2 n y.
Proof. intros H. apply dot_ext; exact H. Qed.
Lemma nrm_ext n x y : (forall i, (i < n)%nat -> x i = y i) -> nrm n x = nrm n y.
Proof. intros H. unfold nrm. rewrite (nrm2_ext n x y H). reflexivity. Qed.
Lemma nrm2_0 n x : nrm2 n x = 0 -> forall i, (i < n)%nat -> x i = 0.
Proof.
  intros H i Hi. assert (E : x i * x i = 0).
  { apply (sumn_nonneg_0 n (fun i => x i * x i)); [intros; apply Rle_0_sqr|exact H|exact Hi]. }
  apply Rmult_integral in E. tauto.
Qed.
Lemma nrm_0 n x : nrm n x = 0 -> forall i, (i < n)%nat -> x i = 0.
Proof. intros H. apply nrm2_0. rewrite <- nrm_sqr, H. ring. Qed.
Lemma nrm2_scal n c x : nrm2 n (vscal c x) = c * c * nrm2 n x.
Proof. unfold nrm2. rewrite dot_scal_l, dot_scal_r. ring. Qed.
Lemma nrm_scal n c x : nrm n (vscal c x) = Rabs c * nrm n x.
Proof.
  unfold nrm. rewrite nrm2_scal. rewrite sqrt_mult; [|apply Rle_0_sqr|apply nrm2_nonneg].
  fold (Rsqr c). rewrite sqrt_Rsqr_abs. reflexivity.
Qed.
Lemma nrm2_add n x y : nrm2 n (vadd x y) = nrm2 n x + 2 * dot n x y + nrm2 n y.
Proof. unfold nrm2. rewrite dot_add_l, !dot_add_r, (dot_comm n y x). ring. Qed.
Lemma nrm2_sub n x y : nrm2 n (vsub x y) = nrm2 n x - 2 * dot n x y + nrm2 n y.
Proof. unfold nrm2. rewrite dot_sub_l, !dot_sub_r, (dot_comm n y x). ring. Qed.
Lemma nrm2_zero n : nrm2 n (fun _ => 0) = 0.
Proof. apply sumn_0. intros. ring. Qed.

Lemma cauchy_schwarz_sq n x y : dot n x y * dot n x y <= nrm2 n x * nrm2 n y.
Proof.
  destruct (Req_dec (nrm2 n y) 0) as [H0|H0].
  - assert (E : dot n x y = 0).
    { apply sumn_0. intros i Hi. rewrite (nrm2_0 n y H0 i Hi). ring. }
    rewrite E, H0. lra.
  - assert (Hp : 0 < nrm2 n y) by (pose proof (nrm2_nonneg n y); lra).
    pose proof (nrm2_nonneg n (vsub (vscal (nrm2 n y) x) (vscal (dot n x y) y))) as H.
    rewrite nrm2_sub, !nrm2_scal, dot_scal_l, dot_scal_r in H.
    set (a := nrm2 n x) in *. set (b := nrm2 n y) in *. set (c := dot n x y) in *.
    assert (E : 0 <= b * (a * b - c * c)) by lra.
    assert (0 <= a * b - c * c).
    { destruct (Rle_dec 0 (a * b - c * c)) as [L|L]; [exact L|]. exfalso.
      assert (0 < - (a * b - c * c)) by lra.
      pose proof (Rmult_lt_0_compat b _ Hp H1). lra. }
    lra.
Qed.

Lemma cauchy_schwarz n x y : Rabs (dot n x y) <= nrm n x * nrm n y.
Proof.
  apply Rsqr_incr_0_var.
  - unfold Rsqr. rewrite <- Rabs_mult. rewrite Rabs_pos_eq by apply Rle_0_sqr.
    replace (nrm n x * nrm n y * (nrm n x * nrm n y)) with ((nrm n x * nrm n x) * (nrm n y * nrm n y)) by ring.
    rewrite !nrm_sqr. apply cauchy_schwarz_sq.
  - apply Rmult_le_pos; apply nrm_nonneg.
Qed.

Lemma dot_le n x y : dot n x y <= nrm n x * nrm n y.
Proof. pose proof (cauchy_schwarz n x y). pose proof (Rle_abs (dot n x y)). lra. Qed.

Lemma nrm_triang n x y : nrm n (vadd x y) <= nrm n x + nrm n y.
Proof.
  apply Rsqr_incr_0_var.
  - unfold Rsqr. rewrite nrm_sqr, nrm2_add.
    pose proof (dot_le n x y). rewrite <- (nrm_sqr n x), <- (nrm_sqr n y). nra.
  - pose proof (nrm_nonneg n x). pose proof (nrm_nonneg n y). lra.
Qed.

Lemma nrm1_nonneg n x : 0 <= nrm1 n x.
Proof. apply sumn_nonneg. intros. apply Rabs_pos. Qed.
