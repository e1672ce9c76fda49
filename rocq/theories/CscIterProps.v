(** C72: the ADMM iteration of convolutional sparse coding solves the problem it is documented to solve. *)
Require Import List Arith Reals Bool Lia Lra FunctionalExtensionality.
Require Import Verif.RVec Verif.Cplx Verif.FftModel Verif.FftInv Verif.CscModel Verif.CscSpec Verif.CscProofs Verif.CscProps Verif.CscIterModel Verif.CscIterProofs.
Require Import Verif.AdmmModel Verif.AdmmSpec Verif.AdmmProofs Verif.AdmmConv Verif.AdmmProps Verif.StepsModel Verif.StepsSpec Verif.StepsProofs.
Import ListNotations.
Local Open Scope R_scope.

(** The documented objective on one slice, in the spatial domain, of the coefficients [x] flattened in C order: data fidelity,
    quadratic term of the class and weighted l1 norm. *)
Definition csc_objective (s dsh : nat -> nat) (axes : list nat) (M Cd : nat) (D : nat -> nat -> index -> R) (S : nat -> index -> R) (q : quad)
    (base : index) (lmbda : R) (wl1 x : vec) : R :=
  let X := fun m p => x (m * size s axes + rank s axes p)%nat in
  datafit s dsh axes M Cd D S X base + quad_term s axes M q X base + lmbda * sumn (M * size s axes) (fun i => Rabs (wl1 i * x i)).
(** Arrays allowed by NonNegCoef and NoBndryCross. *)
Definition allowed (n : nat) (z : nat -> bool) (nonneg : bool) (x : vec) : Prop :=
  forall i, (i < n)%nat -> (nonneg = true -> 0 <= x i) /\ (z i = true -> x i = 0).

Section C72.
Variables (s dsh : nat -> nat) (axes : list nat) (M Cd : nat) (D : nat -> nat -> index -> R) (S : nat -> index -> R) (q : quad) (base : index).
Variables (rho rlx lmbda : R) (z : nat -> bool) (nonneg : bool) (wl1 : vec).
Hypothesis ND : NoDup axes.
Hypothesis Hne : axes <> [].
Hypothesis Hs : forall ax, In ax axes -> (0 < s ax)%nat.
Hypothesis HC : (0 < Cd)%nat.
Hypothesis Hq : quad_valid s axes M q.
Hypothesis Hrho : 0 < rho.
Hypothesis Hl : 0 <= lmbda.
Notation n := (M * size s axes)%nat.
Hypothesis Hw : forall i, (i < n)%nat -> 0 <= wl1 i.
Notation F := (csc_objective s dsh axes M Cd D S q base lmbda wl1).
Notation run := (cs_iterate s dsh axes M Cd D S q rho rlx base z nonneg lmbda wl1).

Lemma mu_nonneg72 : 0 <= q_mu q. Proof. unfold q_mu. destruct q as [|mu|mu wg]; simpl in Hq; lra. Qed.
Lemma x72 y u : argmin (fun _ => True) (fun x => auglag n eq_A eq_B eq_c rho (sc_f n ((Cd + nG axes M q) * size s axes) (Lop s dsh axes M Cd D q base) (sv s axes Cd S base) (q_mu q)) (l1reg n lmbda wl1) x y u)
  (cs_xstep s dsh axes M Cd D S q rho base y u).
Proof.
  destruct (cs_x s dsh axes M Cd D S q base ND Hne Hs rho (l1reg n lmbda wl1) y u HC Hrho Hq) as [_ H]. split; [exact I|]. intros x _. specialize (H x I). cbv beta in H.
  unfold auglag in *. rewrite <- !(prob_f_sc s dsh axes M Cd D S q base ND Hne Hs) by exact Hq. exact H.
Qed.
Lemma allowed72 x : masked n z nonneg x <-> allowed n z nonneg x.
Proof.
  split.
  - intros [H1 H2] i Hi. split; [intros E; apply H1; assumption|apply H2; exact Hi].
  - intros H. split; [intros E i Hi; apply (H i Hi); exact E|intros i Hi; apply (H i Hi)].
Qed.
Lemma obj72 x : sc_f n ((Cd + nG axes M q) * size s axes) (Lop s dsh axes M Cd D q base) (sv s axes Cd S base) (q_mu q) x + l1reg n lmbda wl1 x = F x.
Proof. rewrite <- (prob_f_sc s dsh axes M Cd D S q base ND Hne Hs) by exact Hq. reflexivity. Qed.

(** If an iteration leaves Y and U unchanged (on the slice) then X = Y, and Y minimises the documented objective. *)
Theorem C72_stationary st : rlx <> 0 ->
  (forall i, (i < n)%nat -> sY (run 1 st) i = sY st i) -> (forall i, (i < n)%nat -> sU (run 1 st) i = sU st i) ->
  (forall i, (i < n)%nat -> sX (run 1 st) i = sY (run 1 st) i) /\ argmin (allowed n z nonneg) F (sY (run 1 st)).
Proof.
  intros Hr H1 H2. destruct (Lop_adjoint s dsh axes M Cd D q base ND Hne Hs) as [LT HA].
  destruct (sc_stationary_min n ((Cd + nG axes M q) * size s axes) (Lop s dsh axes M Cd D q base) (sv s axes Cd S base) (q_mu q)
    (Lop_linear s dsh axes M Cd D q base) (Lop_local s dsh axes M Cd D q base ND Hne Hs) (masked n z nonneg) (l1reg n lmbda wl1) rlx rho
    (cs_xstep s dsh axes M Cd D S q rho base) (cs_ystep z nonneg lmbda rho wl1) mu_nonneg72 Hrho (l1reg_convex _ n lmbda wl1 Hl (masked_convex n z nonneg)) x72
    (fun ax u => cs_y n z nonneg lmbda rho wl1 ax u Hl Hrho Hw) st Hr H1 H2) as [P1 [P2 P3]].
  split; [exact P1|]. split; [apply allowed72; exact P2|]. intros x Hx. apply allowed72 in Hx. specialize (P3 x Hx). cbv beta in P3. rewrite !obj72 in P3. exact P3.
Qed.
(** From any start, with relaxation in (0,2): the primal and dual residuals tend to zero and the objective of the pair (X, Y) to
    its minimum. *)
Theorem C72_convergence st p : 0 < rlx < 2 -> argmin (allowed n z nonneg) F p ->
  Un_cv (fun k => nrm n (fun i => sX (run k st) i - sY (run k st) i)) 0 /\
  Un_cv (fun k => nrm n (fun i => rho * (sY (run (Datatypes.S k) st) i - sY (run k st) i))) 0 /\
  Un_cv (fun k => csc_objective s dsh axes M Cd D S q base 0 wl1 (sX (run k st)) + lmbda * sumn n (fun i => Rabs (wl1 i * sY (run k st) i))) (F p).
Proof.
  intros Hr [Hp1 Hp2]. destruct (Lop_adjoint s dsh axes M Cd D q base ND Hne Hs) as [LT HA].
  destruct (sc_convergence_min n ((Cd + nG axes M q) * size s axes) (Lop s dsh axes M Cd D q base) LT (sv s axes Cd S base) (q_mu q)
    (Lop_linear s dsh axes M Cd D q base) HA (masked n z nonneg) (l1reg n lmbda wl1) rlx rho
    (cs_xstep s dsh axes M Cd D S q rho base) (cs_ystep z nonneg lmbda rho wl1) mu_nonneg72 Hrho (l1reg_convex _ n lmbda wl1 Hl (masked_convex n z nonneg)) x72
    (fun ax u => cs_y n z nonneg lmbda rho wl1 ax u Hl Hrho Hw) st p Hr) as (P1 & P2 & P3).
  { split; [apply allowed72; exact Hp1|]. intros x Hx. apply allowed72 in Hx. rewrite !obj72. apply Hp2. exact Hx. }
  split; [exact P1|]. split; [exact P2|]. rewrite obj72 in P3. revert P3. apply cv_ext. intros k.
  rewrite <- (prob_f_sc s dsh axes M Cd D S q base ND Hne Hs) by exact Hq. unfold csc_objective, prob_f, arr, l1reg, cs_iterate. ring.
Qed.
(** The objective of Y, the array returned by solve, tends to the minimum. *)
Theorem C72_returned st p : 0 < rlx < 2 -> argmin (allowed n z nonneg) F p -> Un_cv (fun k => F (sY (run k st))) (F p).
Proof.
  intros Hr [Hp1 Hp2]. destruct (Lop_adjoint s dsh axes M Cd D q base ND Hne Hs) as [LT HA].
  pose proof (sc_objective_Y n ((Cd + nG axes M q) * size s axes) (Lop s dsh axes M Cd D q base) LT (sv s axes Cd S base) (q_mu q)
    (Lop_linear s dsh axes M Cd D q base) HA (Lop_local s dsh axes M Cd D q base ND Hne Hs) (masked n z nonneg) (l1reg n lmbda wl1) rlx rho
    (cs_xstep s dsh axes M Cd D S q rho base) (cs_ystep z nonneg lmbda rho wl1) mu_nonneg72 Hrho (l1reg_convex _ n lmbda wl1 Hl (masked_convex n z nonneg)) x72
    (fun ax u => cs_y n z nonneg lmbda rho wl1 ax u Hl Hrho Hw) st p Hr) as P3.
  cbv zeta in P3. rewrite obj72 in P3. revert P3. intros P3.
  apply (cv_ext _ (fun k => F (sY (run k st))) _ (fun k => obj72 (sY (run k st)))). apply P3.
  split; [apply allowed72; exact Hp1|]. intros x Hx. apply allowed72 in Hx. rewrite !obj72. apply Hp2. exact Hx.
Qed.
End C72.
Print Assumptions C72_stationary.
Print Assumptions C72_convergence.
Print Assumptions C72_returned.

(** The steps act on each slice separately, so that the iteration on a slice is the restriction of the iteration on the whole
    arrays: the x step at a position depends on Y and U at the positions with the same coordinates on the other axes. *)
Theorem C72_slices (s dsh : nat -> nat) (axes : list nat) (M Cd : nat) (D : nat -> nat -> index -> R) (S : nat -> index -> R) (q : quad) (rho : R)
    (Y U Y' U' : nat -> index -> R) (p : index) :
  NoDup axes -> axes <> [] -> (forall ax, In ax axes -> (p ax < s ax)%nat) ->
  (forall m i, (forall ax, In ax axes -> (i ax < s ax)%nat) -> (forall ax, ~ In ax axes -> i ax = p ax) -> Y m i = Y' m i /\ U m i = U' m i) ->
  forall m, xstep s dsh axes M Cd D S q rho Y U m p = xstep s dsh axes M Cd D S q rho Y' U' m p.
Proof.
  intros ND Hne Hp H m. unfold xstep. apply irfftn_slice; [exact ND|exact Hne|split; [exact Hp|reflexivity]|]. intros i [I1 I2]. unfold xstepf.
  replace (fun k => cadd (DSf s dsh axes Cd D S k i) (cmul (ofR rho) (rfftn s axes (fun p => Y k p - U k p) i)))
     with (fun k => cadd (DSf s dsh axes Cd D S k i) (cmul (ofR rho) (rfftn s axes (fun p => Y' k p - U' k p) i))); [reflexivity|].
  extensionality k. do 2 f_equal. symmetry. apply rfftn_slice; [exact Hne|]. intros j [J1 J2].
  destruct (H k j J1 ltac:(intros ax Ha; rewrite J2, I2 by exact Ha; reflexivity)) as [-> ->]. reflexivity.
Qed.
Print Assumptions C72_slices.
(** A concrete problem: the one of C71_ex with lmbda = 1/2; the minimiser is the signal reduced by 1/2. *)
Example C72_ex : argmin (allowed (1 * size ex_s [O]) (fun _ => false) true)
  (csc_objective ex_s (fun _ => 1%nat) [O] 1 1 (fun _ _ _ => 1) ex_S QNone (fun _ => O) (1 / 2) (fun _ => 1)) (fun i => match i with O => 5 / 2 | _ => 1 / 2 end).
Proof.
  split.
  - intros i Hi. split; [intros _; destruct i; lra|discriminate].
  - intros x Hx. change (1 * size ex_s [O])%nat with 2%nat in *. unfold csc_objective. change (1 * size ex_s [O])%nat with 2%nat.
    unfold datafit, sqn, quad_term. cbn [sumn total ex_s Nat.eqb]. rewrite !ex_synth by (unfold set_at; simpl; lia).
    unfold ex_S, set_at. cbn [rank size Nat.eqb Nat.mul Nat.add ex_s].
    destruct (Hx 0%nat ltac:(lia)) as [H0 _]. destruct (Hx 1%nat ltac:(lia)) as [H1 _]. specialize (H0 eq_refl). specialize (H1 eq_refl).
    rewrite !Rmult_1_l, (Rabs_pos_eq (x O)), (Rabs_pos_eq (x 1%nat)), (Rabs_pos_eq (5 / 2)), (Rabs_pos_eq (1 / 2)) by lra.
    pose proof (Rle_0_sqr (x O - 5 / 2)) as Q0. pose proof (Rle_0_sqr (x 1%nat - 1 / 2)) as Q1. unfold Rsqr in *. lra.
Qed.
