(** C73: the ADMM iterations of ConvBPDNMaskDcpl and ConvMinL1InL2Ball solve the problems they are documented to solve. *)
Require Import List Arith Reals Bool Lia Lra FunctionalExtensionality.
Require Import Verif.RVec Verif.Cplx Verif.FftModel Verif.FftInv Verif.CscModel Verif.CscSpec Verif.CscProofs Verif.CscProps Verif.CscIterModel Verif.CscIterProofs Verif.CscIterProps.
Require Import Verif.CscTwoModel Verif.CscTwoProofs.
Require Import Verif.AdmmModel Verif.AdmmSpec Verif.AdmmProofs Verif.AdmmConv Verif.AdmmProps Verif.StepsModel Verif.StepsSpec Verif.StepsProofs Verif.ProxModel Verif.ProxProofs.
Import ListNotations.
Local Open Scope R_scope.

(** Coefficients flattened in C order as arrays, the masked data fidelity, the weighted l1 norm and the constraint that the
    residual of each channel is in the ball. *)
Definition coefs (s : nat -> nat) (axes : list nat) (x : vec) : nat -> index -> R := fun m p => x (m * size s axes + rank s axes p)%nat.
Definition masked_fit (s dsh : nat -> nat) (axes : list nat) (M Cd : nat) (D : nat -> nat -> index -> R) (S W : nat -> index -> R) (base : index) (x : vec) : R :=
  / 2 * sumn Cd (fun c => sqn s axes (fun p => W c p * (synth s dsh axes M D (coefs s axes x) c p - S c p)) base).
Definition wl1norm (n : nat) (wl1 x : vec) : R := sumn n (fun i => Rabs (wl1 i * x i)).
Definition channel_residual (s dsh : nat -> nat) (axes : list nat) (M : nat) (D : nat -> nat -> index -> R) (S : nat -> index -> R) (base : index) (x : vec) (c : nat) : R :=
  sqrt (sqn s axes (fun p => synth s dsh axes M D (coefs s axes x) c p - S c p) base).

Section C73.
Variables (s dsh : nat -> nat) (axes : list nat) (M Cd : nat) (D : nat -> nat -> index -> R) (S W : nat -> index -> R) (base : index).
Variables (rho rlx lmbda epsilon : R) (z : nat -> bool) (nonneg : bool) (wl1 : vec).
Hypothesis ND : NoDup axes.
Hypothesis Hne : axes <> [].
Hypothesis Hs : forall ax, In ax axes -> (0 < s ax)%nat.
Hypothesis HC : (0 < Cd)%nat.
Hypothesis Hrho : 0 < rho.
Hypothesis Hl : 0 <= lmbda.
Hypothesis Heps : 0 <= epsilon.
Notation n := (M * size s axes)%nat.
Notation m0 := (Cd * size s axes)%nat.
Hypothesis Hw : forall i, (i < n)%nat -> 0 <= wl1 i.
Notation mrun := (mask_iterate s dsh axes M Cd D S base rlx rho z nonneg lmbda wl1 (cs_flat s axes base W)).
Notation brun := (ball_iterate s dsh axes M Cd D S base rlx rho z nonneg wl1 epsilon).
Notation L := (Lw s dsh axes M Cd D base).
Notation S0 := (s0 s axes S base).
Notation Wv := (cs_flat s axes base W).
Notation FM := (fun x => masked_fit s dsh axes M Cd D S W base x + lmbda * wl1norm n wl1 x).

Lemma iterate_A k st f : iterate (cs2_A s dsh axes M Cd D base) tb_B (cs2_c s axes Cd S base) rlx (cs2_xstep s dsh axes M Cd D S base) f k st =
  iterate (tA m0 L) tb_B (tc m0 S0) rlx (cs2_xstep s dsh axes M Cd D S base) f k st.
Proof.
  replace (cs2_A s dsh axes M Cd D base) with (tA m0 L); [reflexivity|]. extensionality x. symmetry. apply cs2_A_eq; assumption.
Qed.
Lemma obj_mask x : tobj L S0 (wfit m0 Wv) (l1reg n lmbda wl1) x = FM x.
Proof.
  unfold tobj, masked_fit, wfit, l1reg, wl1norm, nrm2, dot. f_equal. f_equal. rewrite sumn_flat by (apply P_pos'; exact Hs). apply sumn_ext. intros c Hc. unfold sqn.
  rewrite <- (sum_slice s axes base Hs). apply sumn_ext. intros k Hk. rewrite Lw_at, s0_at by assumption.
  replace (Wv (c * size s axes + k)%nat) with (W c (place s axes base k)) by (unfold cs_flat; rewrite div_at, mod_at by exact Hk; reflexivity). reflexivity.
Qed.
Lemma mask_ys ax u i : (i < m0)%nat -> mask_ystep s axes Cd S base z nonneg lmbda rho wl1 Wv ax u i = rho * (ax i + u i - S0 i) / (Wv i ^ 2 + rho).
Proof. intros Hi. unfold mask_ystep. rewrite cat_lt by exact Hi. reflexivity. Qed.
Lemma block1_y v w lam y : 0 <= lam -> block_sep1 m0 y = cs_ystep z nonneg lam rho wl1 v w ->
  masked n z nonneg (block_sep1 m0 y) /\ subgradient n (masked n z nonneg) (l1reg n lam wl1) (block_sep1 m0 y) (fun i => rho * (v i + w i - block_sep1 m0 y i)).
Proof. intros Hlam E. rewrite E. apply cs_y; assumption. Qed.
Lemma mask_y1 ax u : masked n z nonneg (block_sep1 m0 (mask_ystep s axes Cd S base z nonneg lmbda rho wl1 Wv ax u)) /\
  subgradient n (masked n z nonneg) (l1reg n lmbda wl1) (block_sep1 m0 (mask_ystep s axes Cd S base z nonneg lmbda rho wl1 Wv ax u))
    (fun i => rho * (block_sep1 m0 ax i + block_sep1 m0 u i - block_sep1 m0 (mask_ystep s axes Cd S base z nonneg lmbda rho wl1 Wv ax u) i)).
Proof. apply block1_y; [exact Hl|]. unfold mask_ystep. rewrite cat_sep1. reflexivity. Qed.
Lemma ball_y1 ax u : masked n z nonneg (block_sep1 m0 (ball_ystep s axes Cd S base z nonneg rho wl1 epsilon ax u)) /\
  subgradient n (masked n z nonneg) (l1reg n 1 wl1) (block_sep1 m0 (ball_ystep s axes Cd S base z nonneg rho wl1 epsilon ax u))
    (fun i => rho * (block_sep1 m0 ax i + block_sep1 m0 u i - block_sep1 m0 (ball_ystep s axes Cd S base z nonneg rho wl1 epsilon ax u) i)).
Proof.
  apply block1_y; [lra|]. unfold ball_ystep. rewrite cat_sep1. rewrite <- restrict_step. f_equal. f_equal. extensionality i. field. lra.
Qed.
Lemma l1_pos lam x : 0 <= lam -> 0 <= l1reg n lam wl1 x.
Proof. intros H. unfold l1reg. apply Rmult_le_pos; [exact H|]. apply sumn_nonneg. intros. apply Rabs_pos. Qed.
Lemma obj_ball x : tobj L S0 (fun _ => 0) (l1reg n 1 wl1) x = wl1norm n wl1 x.
Proof. unfold tobj, l1reg, wl1norm. lra. Qed.
Lemma feas_ball x : tfeas L S0 (balls s axes Cd epsilon) (masked n z nonneg) x <-> (forall c, (c < Cd)%nat -> channel_residual s dsh axes M D S base x c <= epsilon) /\ allowed n z nonneg x.
Proof.
  assert (R : forall c, (c < Cd)%nat -> nrm (size s axes) (row (size s axes) c (fun i => L x i - S0 i)) = channel_residual s dsh axes M D S base x c).
  { intros c Hc. unfold nrm, channel_residual, nrm2, dot, sqn. f_equal. rewrite <- (sum_slice s axes base Hs). apply sumn_ext. intros k Hk. unfold row. rewrite Lw_at, s0_at by assumption. reflexivity. }
  unfold tfeas, balls. rewrite allowed72. split; intros [H1 H2]; (split; [|exact H2]); intros c Hc; [rewrite <- R|rewrite R]; auto.
Qed.

(** ConvBPDNMaskDcpl: an iterate which the iteration leaves unchanged is a solution ... *)
Theorem C73_mask_stationary st : rlx <> 0 ->
  (forall i, (i < m0 + n)%nat -> sY (mrun 1%nat st) i = sY st i) -> (forall i, (i < m0 + n)%nat -> sU (mrun 1%nat st) i = sU st i) ->
  (forall i, (i < n)%nat -> sX (mrun 1%nat st) i = getcoef s axes Cd (mrun 1%nat st) i) /\ argmin (allowed n z nonneg) FM (getcoef s axes Cd (mrun 1%nat st)).
Proof.
  intros Hr H1 H2. unfold mask_iterate in *. rewrite iterate_A in *.
  destruct (mask_stationary n m0 L S0 Wv (masked n z nonneg) (l1reg n lmbda wl1) rlx rho _ (mask_ystep s axes Cd S base z nonneg lmbda rho wl1 Wv)
    (Lw_linear s dsh axes M Cd D base) (Lw_local s dsh axes M Cd D base ND Hne Hs HC) (l1reg_convex _ n lmbda wl1 Hl (masked_convex n z nonneg)) Hrho
    (cs2_x s dsh axes M Cd D S base ND Hne Hs HC) mask_ys mask_y1 st Hr H1 H2) as [P1 [P2 P3]].
  split; [exact P1|]. split; [apply allowed72; apply P2|]. intros x Hx. apply allowed72 in Hx. specialize (P3 x (Logic.conj Logic.I Hx)). rewrite !obj_mask in P3. exact P3.
Qed.
(** ... and from any start the primal residual tends to zero and the objective of the returned coefficients to its minimum. *)
Theorem C73_mask_convergence st p : 0 < rlx < 2 -> argmin (allowed n z nonneg) FM p ->
  Un_cv (fun k => nrm (m0 + n) (fun i => cs2_A s dsh axes M Cd D base (sX (mrun k st)) i - sY (mrun k st) i - cs2_c s axes Cd S base i)) 0 /\
  Un_cv (fun k => FM (getcoef s axes Cd (mrun k st))) (FM p).
Proof.
  intros Hr [Hp1 Hp2].
  destruct (mask_convergence n m0 L S0 Wv (masked n z nonneg) (l1reg n lmbda wl1) rlx rho _ (mask_ystep s axes Cd S base z nonneg lmbda rho wl1 Wv)
    (Lw_linear s dsh axes M Cd D base) (Lw_local s dsh axes M Cd D base ND Hne Hs HC) (l1reg_convex _ n lmbda wl1 Hl (masked_convex n z nonneg)) (fun x => l1_pos lmbda x Hl) Hrho
    (cs2_x s dsh axes M Cd D S base ND Hne Hs HC) mask_ys mask_y1 st p Hr) as [P1 P2].
  { split; [apply allowed72; exact Hp1|]. intros x Hx. apply allowed72 in Hx. rewrite !obj_mask. apply Hp2. exact Hx. }
  rewrite obj_mask in P2. split.
  - revert P1. apply cv_ext. intros k. unfold mask_iterate. rewrite iterate_A. apply nrm_ext. intros i _. rewrite cs2_A_eq by assumption. reflexivity.
  - revert P2. apply cv_ext. intros k. unfold mask_iterate. rewrite iterate_A. apply obj_mask.
Qed.
(** ConvMinL1InL2Ball: an iterate which the iteration leaves unchanged minimises the weighted l1 norm over the coefficients for
    which the residual of every channel is in the ball. *)
Theorem C73_ball_stationary st : rlx <> 0 ->
  (forall i, (i < m0 + n)%nat -> sY (brun 1%nat st) i = sY st i) -> (forall i, (i < m0 + n)%nat -> sU (brun 1%nat st) i = sU st i) ->
  (forall i, (i < n)%nat -> sX (brun 1%nat st) i = getcoef s axes Cd (brun 1%nat st) i) /\
  argmin (fun x => (forall c, (c < Cd)%nat -> channel_residual s dsh axes M D S base x c <= epsilon) /\ allowed n z nonneg x) (wl1norm n wl1) (getcoef s axes Cd (brun 1%nat st)).
Proof.
  intros Hr H1 H2. unfold ball_iterate in *. rewrite iterate_A in *.
  destruct (two_stationary n m0 L S0 (balls s axes Cd epsilon) (masked n z nonneg) (fun _ => 0) (l1reg n 1 wl1) rlx rho _ (ball_ystep s axes Cd S base z nonneg rho wl1 epsilon)
    (Lw_linear s dsh axes M Cd D base) (Lw_local s dsh axes M Cd D base ND Hne Hs HC) (balls_local s axes Cd HC epsilon) (fun _ _ _ => eq_refl) (balls_convex s axes Cd epsilon)
    (l1reg_convex _ n 1 wl1 ltac:(lra) (masked_convex n z nonneg)) Hrho
    (cs2_x s dsh axes M Cd D S base ND Hne Hs HC) (fun ax u => ball_Y0 s axes Cd S base Hs HC z nonneg rho wl1 epsilon ax u Hrho Heps) ball_y1 st Hr H1 H2) as [P1 [P2 P3]].
  split; [exact P1|]. split; [apply feas_ball; exact P2|]. intros x Hx. apply feas_ball in Hx. specialize (P3 x Hx). rewrite !obj_ball in P3. exact P3.
Qed.
(** Convergence when the problem has a Lagrange multiplier: the primal residual tends to zero and the objective of the returned
    coefficients to its minimum. *)
Theorem C73_ball_convergence st p u : 0 < rlx < 2 ->
  saddle (m0 + n) (cs2_A s dsh axes M Cd D base) tb_B (cs2_c s axes Cd S base) rho (fun _ => True)
    (fun y => balls s axes Cd epsilon (block_sep0 y) /\ allowed n z nonneg (block_sep1 m0 y)) (fun _ => 0) (fun y => wl1norm n wl1 (block_sep1 m0 y))
    p (fun i => cs2_A s dsh axes M Cd D base p i - cs2_c s axes Cd S base i) u ->
  Un_cv (fun k => nrm (m0 + n) (fun i => cs2_A s dsh axes M Cd D base (sX (brun k st)) i - sY (brun k st) i - cs2_c s axes Cd S base i)) 0 /\
  Un_cv (fun k => wl1norm n wl1 (getcoef s axes Cd (brun k st))) (wl1norm n wl1 p).
Proof.
  intros Hr Sd. set (py := fun i => cs2_A s dsh axes M Cd D base p i - cs2_c s axes Cd S base i) in *.
  assert (EA : cs2_A s dsh axes M Cd D base = tA m0 L) by (extensionality x; apply cs2_A_eq; assumption).
  assert (Sd' : saddle (m0 + n) (tA m0 L) tb_B (tc m0 S0) rho (fun _ => True) (tE m0 (balls s axes Cd epsilon) (masked n z nonneg)) (fun _ => 0) (tg m0 (fun _ => 0) (l1reg n 1 wl1)) p py u).
  { rewrite <- EA. assert (G : forall y, tg m0 (fun _ => 0) (l1reg n 1 wl1) y = wl1norm n wl1 (block_sep1 m0 y)) by (intros; unfold tg, l1reg, wl1norm; lra).
    destruct Sd as [(F1 & [F2 F3] & F4) Sd]. split.
    - split; [exact Logic.I|]. split; [split; [exact F2|apply allowed72; exact F3]|exact F4].
    - intros x y _ [Y0 Y1]. apply allowed72 in Y1. rewrite !G. exact (Sd x y Logic.I (Logic.conj Y0 Y1)). }
  destruct (C38_convergence (m0 + n) (tA m0 L) tb_B (tc m0 S0) rlx rho (fun _ => True) (tE m0 (balls s axes Cd epsilon) (masked n z nonneg)) (fun _ => 0) (tg m0 (fun _ => 0) (l1reg n 1 wl1))
    (cs2_xstep s dsh axes M Cd D S base) (ball_ystep s axes Cd S base z nonneg rho wl1 epsilon)
    (tA_affine n m0 L (Lw_linear s dsh axes M Cd D base)) (tB_affine n m0) tf_convex (tg_convex m0 _ _ _ _ (balls_convex s axes Cd epsilon) (l1reg_convex _ n 1 wl1 ltac:(lra) (masked_convex n z nonneg))) Hrho
    (tX n m0 L S0 _ _ rho _ Hrho (cs2_x s dsh axes M Cd D S base ND Hne Hs HC))
    (tY n m0 S0 _ _ _ _ rho _ Hrho (fun ax u => ball_Y0 s axes Cd S base Hs HC z nonneg rho wl1 epsilon ax u Hrho Heps) ball_y1) st p py u Hr Sd') as (P1 & _ & P3).
  split.
  - assert (Q : Un_cv (fun k => nrm (m0 + n) (rsdl_r tb_B (tc m0 S0) (tA m0 L (sX (iterate (tA m0 L) tb_B (tc m0 S0) rlx (cs2_xstep s dsh axes M Cd D S base) (ball_ystep s axes Cd S base z nonneg rho wl1 epsilon) k st)))
       (sY (iterate (tA m0 L) tb_B (tc m0 S0) rlx (cs2_xstep s dsh axes M Cd D S base) (ball_ystep s axes Cd S base z nonneg rho wl1 epsilon) k st)))) 0) by exact P1.
    revert Q. apply cv_ext. intros k. unfold ball_iterate. rewrite iterate_A, EA. apply nrm_ext. intros i _. unfold rsdl_r, tb_B, tc, cs2_c, s0. change (blk s axes Cd) with m0. ring.
  - assert (G : tg m0 (fun _ => 0) (l1reg n 1 wl1) py = wl1norm n wl1 p).
    { unfold tg, l1reg, wl1norm. rewrite Rplus_0_l, Rmult_1_l. apply sumn_ext. intros i _. unfold block_sep1, py, cs2_A, cs2_c. change (blk s axes Cd) with m0. rewrite !cat_ge. f_equal. ring. }
    rewrite G in P3. replace (0 + wl1norm n wl1 p) with (wl1norm n wl1 p) in P3 by ring. revert P3. apply cv_ext. intros k. unfold ball_iterate. rewrite iterate_A. unfold tg, l1reg, wl1norm, getcoef. change (blk s axes Cd) with m0. lra.
Qed.
End C73.
Print Assumptions C73_mask_stationary.
Print Assumptions C73_mask_convergence.
Print Assumptions C73_ball_stationary.
Print Assumptions C73_ball_convergence.

(** The documentation states one constraint on the norm of the whole residual.  With a dictionary of two channels this is not
    the problem solved: here, from any start, the l1 norm of the returned coefficients tends to 1/2, which is less than 6/10, a
    lower bound for the l1 norm of all coefficients which meet the documented constraint. *)
Definition w_s : nat -> nat := fun _ => 1%nat.
Lemma w_synth x c p : synth w_s w_s [O] 1 (fun _ _ _ => 1) (coefs w_s [O] x) c p = x O.
Proof.
  unfold synth, conv, ext, coefs. cbn [sumn total w_s]. unfold set_at. cbn [Nat.eqb forallb w_s Nat.ltb Nat.leb andb].
  replace (0 * size w_s [O] + rank w_s [O] (minus w_s [O] p (fun k => if k =? 0 then 0 else p k)))%nat with O; [ring|].
  unfold rank, size, minus. cbn [existsb Nat.eqb orb fold_right w_s]. change (w_s O) with 1%nat. rewrite Nat.mod_1_r. reflexivity.
Qed.
Theorem C73_ball_joint_refuted st rlx : 0 < rlx < 2 ->
  Un_cv (fun k => wl1norm 1 (fun _ => 1) (getcoef w_s [O] 2 (ball_iterate w_s w_s [O] 1 2 (fun _ _ _ => 1) (fun _ _ => 1) (fun _ => O) rlx 1 (fun _ => false) false (fun _ => 1) (1 / 2) k st))) (1 / 2) /\
  (forall x, sqrt (sumn 2 (fun c => sqn w_s [O] (fun p => synth w_s w_s [O] 1 (fun _ _ _ => 1) (coefs w_s [O] x) c p - 1) (fun _ => O))) <= 1 / 2 -> 6 / 10 <= wl1norm 1 (fun _ => 1) x).
Proof.
  intros Hr. split.
  - pose (p := fun _ : nat => 1 / 2).
    assert (HA : forall x i, (i < 3)%nat -> cs2_A w_s w_s [O] 1 2 (fun _ _ _ => 1) (fun _ => O) x i = x O).
    { intros x i Hi. rewrite cs2_A_eq by (try (constructor; [simpl; tauto|constructor]); try discriminate; try lia; intros; unfold w_s; lia).
      unfold tA. destruct (Nat.ltb_spec i 2).
      - rewrite cat_lt by (unfold blk; simpl; lia). replace i with (i * size w_s [O] + 0)%nat by (simpl; lia).
        rewrite Lw_at by (try (constructor; [simpl; tauto|constructor]); try discriminate; try (simpl; lia); intros; unfold w_s; lia).
        pose proof (w_synth x i (place w_s [O] (fun _ => O) 0)) as Q. exact Q.
      - replace i with (blk w_s [O] 2 + 0)%nat by (unfold blk; simpl; lia). rewrite cat_ge. reflexivity. }
    assert (HC' : forall i, (i < 3)%nat -> cs2_c w_s [O] 2 (fun _ _ => 1) (fun _ => O) i = if Nat.ltb i 2 then 1 else 0).
    { intros i Hi. unfold cs2_c, block_cat. change (blk w_s [O] 2) with 2%nat. destruct (Nat.ltb i 2); reflexivity. }
    destruct (C73_ball_convergence w_s w_s [O] 1 2 (fun _ _ _ => 1) (fun _ _ => 1) (fun _ => O) 1 rlx (1 / 2) (fun _ => false) false (fun _ => 1)
      ltac:(constructor; [simpl; tauto|constructor]) ltac:(discriminate) ltac:(intros; unfold w_s; lia) ltac:(lia) ltac:(lra) ltac:(lra) ltac:(intros; lra)
      st p (fun i => if Nat.ltb i 2 then - (1 / 2) else 1) Hr) as [_ P].
    + split.
      * split; [exact Logic.I|]. split; [split|].
        -- intros c Hc. change (size w_s [O]) with 1%nat. unfold nrm, nrm2, dot, row, block_sep0. cbn [sumn]. rewrite HA, HC' by (simpl; lia).
           replace (Nat.ltb (c * 1 + 0) 2) with true by (symmetry; apply Nat.ltb_lt; lia). unfold p.
           replace (0 + (1 / 2 - 1) * (1 / 2 - 1)) with (1 / 2 * (1 / 2)) by field. rewrite sqrt_square; lra.
        -- intros i _. split; discriminate.
        -- intros i _. unfold gap, tb_B. ring.
      * intros x y _ [Y0 _]. change (2 * size w_s [O] + 1 * size w_s [O])%nat with 3%nat. change (1 * size w_s [O])%nat with 1%nat. change (2 * size w_s [O])%nat with 2%nat.
        unfold dot, wl1norm, block_sep1, gap, tb_B. cbn [sumn]. rewrite !HA, !HC' by lia. cbn [Nat.ltb Nat.leb Nat.add].
        assert (B : forall c, (c < 2)%nat -> - (1 / 2) <= y c).
        { intros c Hc. specialize (Y0 c Hc). change (size w_s [O]) with 1%nat in Y0. unfold nrm, nrm2, dot, row, block_sep0 in Y0. cbn [sumn] in Y0.
          replace (c * 1 + 0)%nat with c in Y0 by lia. replace (0 + y c * y c) with (Rsqr (y c)) in Y0 by (unfold Rsqr; ring). rewrite sqrt_Rsqr_abs in Y0.
          pose proof (Rle_abs (- y c)) as Q. rewrite Rabs_Ropp in Q. lra. }
        pose proof (B 0%nat ltac:(lia)). pose proof (B 1%nat ltac:(lia)). pose proof (Rle_abs (1 * y 2%nat)). unfold p.
        rewrite (Rabs_pos_eq (1 * (1 / 2 - 0))) by lra. lra.
    + assert (E : wl1norm (1 * size w_s [O]) (fun _ => 1) p = 1 / 2) by (unfold wl1norm, p; cbn [sumn size w_s Nat.mul Nat.add]; rewrite Rabs_pos_eq; lra).
      rewrite E in P. exact P.
  - intros x Hx. unfold sqn in Hx. cbn [sumn total w_s] in Hx. rewrite !w_synth in Hx. unfold set_at in Hx. cbn [Nat.eqb Nat.ltb Nat.leb] in Hx.
    set (a := x O) in *. unfold wl1norm. cbn [sumn]. fold a.
    assert (Q : (a - 1) * (a - 1) <= 1 / 8).
    { assert (Z : 0 <= 0 + (0 + (a - 1) * (a - 1)) + (0 + (a - 1) * (a - 1))) by (pose proof (Rle_0_sqr (a - 1)) as Z; unfold Rsqr in Z; lra).
      pose proof (sqrt_pos (0 + (0 + (a - 1) * (a - 1)) + (0 + (a - 1) * (a - 1)))). pose proof (sqrt_sqrt _ Z). set (r := sqrt _) in *. clearbody r. nra. }
    pose proof (Rle_abs (1 * a)). assert (6 / 10 <= a) by nra. lra.
Qed.
Print Assumptions C73_ball_joint_refuted.

(** The hypotheses of C73_mask_convergence are met: one filter equal to 1, two samples, the second of which is masked. *)
Example C73_ex : argmin (allowed (1 * size ex_s [O]) (fun _ => false) false)
  (fun x => masked_fit ex_s (fun _ => 1%nat) [O] 1 1 (fun _ _ _ => 1) ex_S (fun _ p => match p O with O => 1 | _ => 0 end) (fun _ => O) x + 1 / 2 * wl1norm (1 * size ex_s [O]) (fun _ => 1) x)
  (fun i => match i with O => 5 / 2 | _ => 0 end).
Proof.
  split.
  - intros i Hi. split; discriminate.
  - intros x Hx. change (1 * size ex_s [O])%nat with 2%nat in *. unfold masked_fit, wl1norm, sqn. cbn [sumn total ex_s Nat.eqb].
    unfold coefs. rewrite !ex_synth by (unfold set_at; simpl; lia).
    unfold ex_S, set_at. cbn [rank size Nat.eqb Nat.mul Nat.add ex_s].
    rewrite !Rmult_1_l, (Rabs_pos_eq (5 / 2)), Rabs_R0 by lra. pose proof (Rle_abs (x O)). pose proof (Rabs_pos (x 1%nat)).
    pose proof (Rle_0_sqr (x O - 5 / 2)) as Q0. unfold Rsqr in *. lra.
Qed.
