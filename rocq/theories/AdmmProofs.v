Require Import Reals Lra Lia.
Require Import Verif.RVec Verif.AdmmModel Verif.AdmmSpec.
Local Open Scope R_scope.

Lemma limit_0 a b : (forall t, 0 < t <= 1 -> 0 <= a + t * b) -> 0 <= a.
Proof.
  intros H. destruct (Rle_or_lt 0 a) as [L|L]; [exact L|]. exfalso.
  destruct (Rle_or_lt b 0) as [Lb|Lb].
  - specialize (H 1 ltac:(lra)). nra.
  - set (t := Rmin 1 (- a / (2 * b))).
    assert (T0 : 0 < - a / (2 * b)) by (apply Rdiv_lt_0_compat; lra).
    assert (0 < t <= 1) by (unfold t; split; [apply Rmin_glb_lt; lra|apply Rmin_l]).
    specialize (H t H0). assert (t <= - a / (2 * b)) by apply Rmin_r.
    assert (t * b <= - a / 2). { replace (- a / 2) with (- a / (2 * b) * b) by (field; lra). apply Rmult_le_compat_r; lra. }
    lra.
Qed.

(** A minimiser of a convex function plus a quadratic satisfies a variational inequality. *)
Lemma argmin_vi m (D : (nat -> R) -> Prop) f A b rho p : convex_on D f -> affine m A -> 0 <= rho ->
  argmin D (fun x => f x + rho / 2 * nrm2 m (fun i => A x i + b i)) p ->
  forall x, D x -> 0 <= f x - f p + rho * dot m (fun i => A p i + b i) (fun i => A x i - A p i).
Proof.
  intros Cf Aa Hr [Hp Hm] x Hx. set (r := fun i => A p i + b i). set (h := fun i => A x i - A p i).
  apply (limit_0 _ (rho / 2 * nrm2 m h)). intros t Ht.
  destruct (Cf p x t Hp Hx ltac:(lra)) as [Hd Hf]. specialize (Hm _ Hd). cbv beta in Hm.
  rewrite (nrm2_ext m (fun i => A (seg p x t) i + b i) (vadd r (vscal t h))) in Hm.
  - rewrite nrm2_add, nrm2_scal, dot_scal_r in Hm. fold r in Hm.
    assert (0 <= t * (f x - f p + rho * dot m r h + t * (rho / 2 * nrm2 m h))) by nra.
    destruct Ht as [Ht _]. apply (Rmult_le_reg_l t); [exact Ht|]. lra.
  - intros i Hi. rewrite (Aa p x t i Hi). unfold vadd, vscal, r, h. ring.
Qed.
(** And conversely. *)
Lemma vi_argmin m (D : (nat -> R) -> Prop) f A b rho p : affine m A -> 0 <= rho -> D p ->
  (forall x, D x -> 0 <= f x - f p + rho * dot m (fun i => A p i + b i) (fun i => A x i - A p i)) ->
  argmin D (fun x => f x + rho / 2 * nrm2 m (fun i => A x i + b i)) p.
Proof.
  intros Aa Hr Hp H. split; [exact Hp|]. intros x Hx. specialize (H x Hx). set (r := fun i => A p i + b i) in *.
  set (h := fun i => A x i - A p i) in *.
  rewrite (nrm2_ext m (fun i => A x i + b i) (vadd r h)) by (intros; unfold vadd, r, h; ring). rewrite nrm2_add.
  pose proof (nrm2_nonneg m h). fold r. nra.
Qed.

Lemma relax_eq A B c rlx X Y i : relax_AX A B c rlx X Y i = rlx * A X i - (1 - rlx) * (B Y i - c i).
Proof. unfold relax_AX. destruct (Req_EM_T rlx 1) as [->|]; [ring|reflexivity]. Qed.

Section conv.
Variables (m : nat) (A B : (nat -> R) -> nat -> R) (c : nat -> R) (rlx rho : R).
Variables (D E : (nat -> R) -> Prop) (f g : (nat -> R) -> R).
Hypothesis HA : affine m A.
Hypothesis HB : affine m B.
Hypothesis Hf : convex_on D f.
Hypothesis Hg : convex_on E g.
Hypothesis Hrho : 0 < rho.

(** One iteration, as a relation: the sub-steps are minimisers. *)
Variables (x' y y' u u' ax : nat -> R).
Hypothesis Hx : argmin D (fun x => f x + rho / 2 * nrm2 m (fun i => A x i + (B y i - c i + u i))) x'.
Hypothesis Hax : forall i, (i < m)%nat -> ax i = rlx * A x' i - (1 - rlx) * (B y i - c i).
Hypothesis Hy : argmin E (fun v => g v + rho / 2 * nrm2 m (fun i => B v i + (ax i - c i + u i))) y'.
Hypothesis Hu : forall i, (i < m)%nat -> u' i = u i + (ax i + B y' i - c i).

Lemma x_vi x : D x -> 0 <= f x - f x' + rho * dot m (fun i => gap A B c x' y i + u i) (fun i => A x i - A x' i).
Proof.
  intros Hd. pose proof (argmin_vi m D f A _ rho x' Hf HA ltac:(lra) Hx x Hd) as H.
  rewrite (dot_ext m _ (fun i => A x i - A x' i) (fun i => gap A B c x' y i + u i) (fun i => A x i - A x' i)) in H; [exact H| |reflexivity].
  intros i _. unfold gap. ring.
Qed.
Lemma y_vi v : E v -> 0 <= g v - g y' + rho * dot m u' (fun i => B v i - B y' i).
Proof.
  intros He. pose proof (argmin_vi m E g B _ rho y' Hg HB ltac:(lra) Hy v He) as H.
  rewrite (dot_ext m _ (fun i => B v i - B y' i) u' (fun i => B v i - B y' i)) in H; [exact H| |reflexivity].
  intros i Hi. rewrite (Hu i Hi). ring.
Qed.

Lemma stationary_saddle : rlx <> 0 -> (forall i, (i < m)%nat -> B y' i = B y i) -> (forall i, (i < m)%nat -> u' i = u i) ->
  saddle m A B c rho D E f g x' y' u'.
Proof.
  intros Hr HY HU.
  assert (G : forall i, (i < m)%nat -> gap A B c x' y' i = 0).
  { intros i Hi. pose proof (Hu i Hi) as K. rewrite (HU i Hi), (Hax i Hi), (HY i Hi) in K. unfold gap. rewrite (HY i Hi).
    apply (Rmult_eq_reg_l rlx); [|exact Hr]. lra. }
  split; [split; [apply Hx|split; [apply Hy|exact G]]|].
  intros x2 y2 Hx2 Hy2. pose proof (x_vi x2 Hx2) as V1. pose proof (y_vi y2 Hy2) as V2.
  rewrite (dot_ext m (fun i => gap A B c x' y i + u i) (fun i => A x2 i - A x' i) u' (fun i => A x2 i - A x' i)) in V1.
  - assert (dot m u' (fun i => A x2 i - A x' i) + dot m u' (fun i => B y2 i - B y' i) = dot m u' (gap A B c x2 y2)).
    { rewrite <- dot_add_r. apply dot_ext; [reflexivity|]. intros i Hi. unfold vadd. pose proof (G i Hi) as Gi. unfold gap in *. lra. }
    nra.
  - intros i Hi. rewrite (HU i Hi). unfold gap. rewrite <- (HY i Hi). pose proof (G i Hi) as Gi. unfold gap in Gi. lra.
  - reflexivity.
Qed.

(** Fejer monotonicity without relaxation. *)
Lemma lyapunov xs ys us : rlx = 1 -> saddle m A B c rho D E f g xs ys us ->
  nrm2 m (fun i => u' i - us i) + nrm2 m (fun i => B y' i - B ys i) +
  nrm2 m (fun i => gap A B c x' y' i - (B y' i - B y i)) <=
  nrm2 m (fun i => u i - us i) + nrm2 m (fun i => B y i - B ys i).
Proof.
  intros Hr [(Sx & Sy & Sg) Hs].
  pose proof (x_vi xs Sx) as V1. pose proof (y_vi ys Sy) as V2. specialize (Hs x' y' (proj1 Hx) (proj1 Hy)).
  assert (S : 0 <= dot m (fun i => gap A B c x' y i + u i) (fun i => A xs i - A x' i) + dot m u' (fun i => B ys i - B y' i) + dot m us (gap A B c x' y')).
  { apply (Rmult_le_reg_l rho); [exact Hrho|]. lra. }
  set (P := fun i => u i - us i). set (Q := fun i => B y i - B ys i). set (p := gap A B c x' y'). set (q := fun i => B y' i - B y i).
  assert (E1 : forall i, (i < m)%nat -> u' i = u i + p i) by (intros i Hi; rewrite (Hu i Hi), (Hax i Hi), Hr; unfold p, gap; ring).
  assert (E2 : forall i, (i < m)%nat -> gap A B c x' y i = p i - q i) by (intros i Hi; unfold p, q, gap; ring).
  assert (E3 : forall i, (i < m)%nat -> A xs i - A x' i = - p i + (Q i + q i)) by (intros i Hi; pose proof (Sg i Hi) as Gi; unfold p, q, Q, gap in *; lra).
  assert (E4 : forall i, (i < m)%nat -> B ys i - B y' i = - (Q i + q i)) by (intros i Hi; unfold q, Q; ring).
  unfold dot in S. rewrite <- !sumn_plus in S.
  unfold nrm2, dot. rewrite <- !sumn_plus.
  assert (K : sumn m (fun i => (u' i - us i) * (u' i - us i) + (B y' i - B ys i) * (B y' i - B ys i) + (p i - (B y' i - B y i)) * (p i - (B y' i - B y i))) =
    sumn m (fun i => P i * P i + Q i * Q i) - 2 * sumn m (fun i => (gap A B c x' y i + u i) * (A xs i - A x' i) + u' i * (B ys i - B y' i) + us i * p i)).
  { rewrite <- sumn_scal, <- sumn_minus. apply sumn_ext. intros i Hi. rewrite (E1 i Hi), (E2 i Hi), (E3 i Hi), (E4 i Hi).
    replace (B y' i - B ys i) with (Q i + q i) by (unfold Q, q; ring). fold (q i). unfold P. ring. }
  match type of K with _ = ?a - 2 * ?b => set (t1 := a) in *; set (t2 := b) in * end.
  assert (S' : 0 <= t2) by exact S.
  match goal with |- ?l <= ?r => change (sumn m (fun i => (u' i - us i) * (u' i - us i) + (B y' i - B ys i) * (B y' i - B ys i) + (p i - (B y' i - B y i)) * (p i - (B y' i - B y i))) <= t1) end.
  rewrite K. lra.
Qed.

(** With relaxation: the quantity z = u - (B y - c). The current y is assumed to satisfy the optimality condition left by the
    previous iteration. *)
Lemma fejer_relaxed xs ys us : 0 <= rlx -> saddle m A B c rho D E f g xs ys us -> E y ->
  (forall v, E v -> 0 <= g v - g y + rho * dot m u (fun i => B v i - B y i)) ->
  nrm2 m (fun i => (u' i - (B y' i - c i)) - (us i - (B ys i - c i))) + rlx * (2 - rlx) * nrm2 m (gap A B c x' y) <=
  nrm2 m (fun i => (u i - (B y i - c i)) - (us i - (B ys i - c i))).
Proof.
  intros L [(Sx & Sy & Sg) Hs] Ey Hvy.
  pose proof (x_vi xs Sx) as V1. pose proof (Hvy ys Sy) as V2. specialize (Hs x' y (proj1 Hx) Ey).
  set (r := gap A B c x' y) in *. set (Z := fun i => (u i - (B y i - c i)) - (us i - (B ys i - c i))).
  assert (S : 0 <= dot m (fun i => r i + u i) (fun i => A xs i - A x' i) + dot m u (fun i => B ys i - B y i) + dot m us r).
  { apply (Rmult_le_reg_l rho); [exact Hrho|]. lra. }
  assert (S2 : dot m (fun i => r i + u i) (fun i => A xs i - A x' i) + dot m u (fun i => B ys i - B y i) + dot m us r = - dot m Z r - nrm2 m r).
  { unfold nrm2, dot. rewrite <- !sumn_plus. replace (- sumn m (fun i => Z i * r i)) with ((-1) * sumn m (fun i => Z i * r i)) by ring.
    rewrite <- sumn_scal, <- sumn_minus. apply sumn_ext. intros i Hi.
    assert (E3 : A xs i - A x' i = - r i + (B y i - B ys i)) by (pose proof (Sg i Hi) as Gi; unfold r, gap in *; lra).
    rewrite E3. unfold Z. ring. }
  rewrite (nrm2_ext m (fun i => (u' i - (B y' i - c i)) - (us i - (B ys i - c i))) (vadd Z (vscal rlx r))).
  - rewrite nrm2_add, nrm2_scal, dot_scal_r. nra.
  - intros i Hi. rewrite (Hu i Hi), (Hax i Hi). unfold vadd, vscal, Z, r, gap. ring.
Qed.

(** The change of B y is bounded by the change of z. *)
Lemma step_bound : E y -> (forall v, E v -> 0 <= g v - g y + rho * dot m u (fun i => B v i - B y i)) ->
  nrm2 m (fun i => B y' i - B y i) + nrm2 m (fun i => u' i - u i) <= rlx * rlx * nrm2 m (gap A B c x' y).
Proof.
  intros Ey Hvy. pose proof (Hvy y' (proj1 Hy)) as V1. pose proof (y_vi y Ey) as V2.
  set (q := fun i => B y' i - B y i) in *. set (w := fun i => u' i - u i).
  assert (S : 0 <= - dot m w q).
  { apply (Rmult_le_reg_l rho); [exact Hrho|]. 
    assert (E1 : dot m u' (fun i => B y i - B y' i) = - dot m u' q).
    { unfold dot. rewrite <- sumn_opp. apply sumn_ext. intros. unfold q. ring. }
    assert (E2 : dot m w q = dot m u' q - dot m u q) by (apply dot_sub_l). rewrite E1 in V2. rewrite E2. nra. }
  rewrite <- nrm2_scal.
  rewrite (nrm2_ext m (vscal rlx (gap A B c x' y)) (vsub w q)).
  - rewrite nrm2_sub. lra.
  - intros i Hi. unfold vscal, vsub, w, q. rewrite (Hu i Hi), (Hax i Hi). unfold gap. ring.
Qed.

(** Objective gap at the new iterate (no relaxation needed). *)
Lemma objective_upper xs ys us : saddle m A B c rho D E f g xs ys us ->
  f x' + g y' - (f xs + g ys) <= rho * (dot m (fun i => gap A B c x' y i + u i) (fun i => A xs i - A x' i) + dot m u' (fun i => B ys i - B y' i)).
Proof.
  intros [(Sx & Sy & Sg) Hs]. pose proof (x_vi xs Sx) as V1. pose proof (y_vi ys Sy) as V2. lra.
Qed.
Lemma objective_lower xs ys us : saddle m A B c rho D E f g xs ys us -> - rho * dot m us (gap A B c x' y') <= f x' + g y' - (f xs + g ys).
Proof. intros [_ Hs]. specialize (Hs x' y' (proj1 Hx) (proj1 Hy)). lra. Qed.
End conv.
