(** C91: what the constrained dictionary update solvers without convolution compute. *)
Require Import List Arith Reals Bool Lia Lra Psatz.
Require Import Verif.RVec Verif.Compact Verif.AdmmModel Verif.AdmmProofs Verif.AdmmConv Verif.InhProofs Verif.CmdModel Verif.CmdSpec Verif.CmdProofs.
Local Open Scope R_scope.

Definition critical (Nc Nm Ns : nat) (Z S W : nat -> nat -> R) (zm nnc : bool) (b : R) (D : nat -> nat -> R) : Prop :=
  exists lam, (forall m, (m < Nm)%nat -> lam m < b) /\ first_order Nc Nm Ns Z S W zm nnc lam D.
Definition critical_le (Nc Nm Ns : nat) (Z S W : nat -> nat -> R) (zm nnc : bool) (b : R) (D : nat -> nat -> R) : Prop :=
  exists lam, (forall m, (m < Nm)%nat -> lam m <= b) /\ first_order Nc Nm Ns Z S W zm nnc lam D.

Section C91.
Variables (Nc Nm Ns : nat) (Z S : matrix) (zm nnc : bool) (Pc : matrix -> matrix).
Hypothesis Hn : (0 < Nc)%nat.
Hypothesis HP : getPcn Nc zm nnc = Some Pc.
Lemma flags : zm && nnc = false.
Proof. unfold getPcn in HP. destruct zm, nnc; try reflexivity. discriminate. Qed.
Lemma pcn_col V i m : (i < Nc)%nat -> Pc V i m = nz Nc (Pk Nc zm nnc (col V m)) i.
Proof.
  assert (N : forall v : matrix, normalise Nc v i m = nz Nc (col v m) i).
  { intros v. unfold normalise, nz, nrm. cbv zeta. replace (sumn Nc (fun j => v j m ^ 2)) with (nrm2 Nc (col v m)) by (unfold nrm2, dot, col; apply sumn_ext; intros; ring). reflexivity. }
  intros Hi. unfold getPcn in HP. unfold Pk. destruct zm; [destruct nnc; [discriminate|]|destruct nnc]; injection HP as <-; rewrite N; reflexivity.
Qed.
Notation cn := (cone Nc zm nnc).

(** The projection: the result is the nearest allowed column of norm one, except that a column whose projection onto the cone
    vanishes (constant columns with ZeroMean, columns without positive entry with NonNegCoef, zero columns) is sent to zero. *)
Theorem C91_pcn V m : let d := col (Pc V) m in
  cn d /\
  (nrm2 Nc d = 0 <-> (if zm then forall i j, (i < Nc)%nat -> (j < Nc)%nat -> V i m = V j m else if nnc then forall i, (i < Nc)%nat -> V i m <= 0 else forall i, (i < Nc)%nat -> V i m = 0)) /\
  (nrm2 Nc d <> 0 -> nrm2 Nc d = 1 /\ forall x, cn x -> nrm2 Nc x = 1 -> nrm2 Nc (fun i => d i - V i m) <= nrm2 Nc (fun i => x i - V i m)).
Proof.
  intros d. pose proof flags as Hz. set (p := Pk Nc zm nnc (col V m)). assert (E : forall i, (i < Nc)%nat -> nz Nc p i = d i) by (intros i Hi; symmetry; apply (pcn_col V i m Hi)).
  assert (Nd : nrm2 Nc d = if Req_EM_T (nrm Nc p) 0 then 0 else 1) by (rewrite <- nz_norm; apply nrm2_ext; intros; symmetry; apply E; assumption).
  split; [apply (cone_ext Nc zm nnc (nz Nc p)); [exact E|apply nz_cone, Pk_cone; assumption]|]. split.
  - transitivity (forall i, (i < Nc)%nat -> p i = 0).
    { rewrite Nd. destruct (Req_EM_T (nrm Nc p) 0) as [H|H].
      - split; [intros _; apply nrm_0; exact H|reflexivity].
      - split; [lra|]. intros Q. exfalso. apply H. unfold nrm. replace (nrm2 Nc p) with 0; [apply sqrt_0|]. symmetry. unfold nrm2, dot. apply sumn_0. intros i Hi. rewrite (Q i Hi). ring. }
    unfold p, Pk, col. destruct zm; [|destruct nnc].
    + split.
      * intros Q i j Hi Hj. pose proof (Q i Hi). pose proof (Q j Hj). lra.
      * intros Q i Hi. rewrite (sumn_ext Nc (fun i => V i m) (fun _ => V i m)) by (intros j Hj; apply Q; assumption). rewrite sumn_const. field. apply not_0_INR. lia.
    + split; intros Q i Hi; specialize (Q i Hi); unfold Rmax in *; destruct (Rle_dec (V i m) 0); lra.
    + reflexivity.
  - intros N. split; [rewrite Nd in *; destruct (Req_EM_T (nrm Nc p) 0); [contradiction|reflexivity]|]. intros x Cx Nx.
    pose proof (nz_nearest Nc zm nnc Hn Hz (col V m) x Cx Nx) as Q. fold p in Q. eapply Rle_trans; [|exact Q]. right. apply nrm2_ext. intros i Hi. unfold vsub. rewrite E by exact Hi. reflexivity.
Qed.
(** The statistic Cnstr is zero exactly for dictionaries whose columns are allowed and have norm one or ZERO. *)
Theorem C91_cnstr G : cnstr Nc Nm Pc G = 0 <-> in_cone Nc Nm zm nnc G /\ unit_or_zero Nc Nm G.
Proof.
  pose proof flags as Hz. unfold cnstr.
  transitivity (forall i m, (i < Nc)%nat -> (m < Nm)%nat -> Pc G i m = G i m).
  - split.
    + intros H. apply sqrt_eq_0 in H; [|apply sumn_nonneg; intros; apply sumn_nonneg; intros; apply pow2_ge_0]. intros i m Hi Hm.
      pose proof (sumn_nonneg_0 Nc _ ltac:(intros; apply sumn_nonneg; intros; apply pow2_ge_0) H i Hi) as Q. cbv beta in Q.
      pose proof (sumn_nonneg_0 Nm _ ltac:(intros; apply pow2_ge_0) Q m Hm) as R0. cbv beta in R0. replace ((Pc G i m - G i m) ^ 2) with ((Pc G i m - G i m) * (Pc G i m - G i m)) in R0 by ring. apply Rmult_integral in R0. lra.
    + intros H. rewrite sumn_0; [apply sqrt_0|]. intros i Hi. apply sumn_0. intros m Hm. rewrite H by assumption. ring.
  - assert (Q : forall m, (forall i, (i < Nc)%nat -> Pc G i m = G i m) <-> cn (col G m) /\ (nrm2 Nc (col G m) = 1 \/ nrm2 Nc (col G m) = 0)).
    { intros m. pose proof (fixed_vi Nc zm nnc Hn Hz 1 (col G m) (fun _ => 0) Rlt_0_1) as F.
      assert (T : forall i, (i < Nc)%nat -> nz Nc (Pk Nc zm nnc (fun i => col G m i - 1 / 1 * 0)) i = Pc G i m).
      { intros i Hi. rewrite pcn_col by exact Hi. apply nz_ext; [|exact Hi]. apply (Pk_ext Nc zm nnc flags). intros j Hj. unfold col, Rdiv. ring. }
      split.
      - intros H. destruct F as [F _]. destruct F as (A & B & _); [intros i Hi; rewrite T by exact Hi; apply H; exact Hi|]. split; assumption.
      - intros [A B] i Hi. rewrite <- T by exact Hi. destruct F as [_ F]. apply F; [|exact Hi]. split; [exact A|]. split; [exact B|]. exists 0. split; [lra|]. intros x _. right. symmetry. unfold dot. apply sumn_0. intros. ring. }
    split.
    + intros H. split; intros m Hm; apply (Q m); intros i Hi; apply H; assumption.
    + intros [A B] i m Hi Hm. apply (Q m); [split; [apply A|apply B]; exact Hm|exact Hi].
Qed.

Section weighted.
Variables (W : matrix).
Hypothesis HW : forall i n, (i < Nc)%nat -> (n < Ns)%nat -> 0 <= W i n.
Notation mf := (misfit Nc Nm Ns Z S W).
Notation G := (wgrad_f Nm Ns Z S W).
Notation crit := (critical Nc Nm Ns Z S W zm nnc).

(** The objective and its gradient. *)
Theorem C91_objective X : wobfn_f Nc Nm Ns Z S W X = mf X.
Proof.
  unfold wobfn_f, misfit, dotZ. replace 0.5 with (/ 2) by lra. f_equal. rewrite <- (sqrt_def (sumn Nc (fun i => sumn Ns (fun n => W i n * (sumn Nm (fun m => X i m * Z m n) - S i n) ^ 2)))).
  - replace (sumn Nc (fun i => sumn Ns (fun n => (sqrt (W i n) * (sumn Nm (fun m => X i m * Z m n) - S i n)) ^ 2))) with (sumn Nc (fun i => sumn Ns (fun n => W i n * (sumn Nm (fun m => X i m * Z m n) - S i n) ^ 2))); [ring|].
    apply sumn_ext. intros i Hi. apply sumn_ext. intros n Hn'. rewrite Rpow_mult_distr, pow2_sqrt by (apply HW; assumption). reflexivity.
  - apply sumn_nonneg. intros i Hi. apply sumn_nonneg. intros n Hn'. apply Rmult_le_pos; [apply HW; assumption|apply pow2_ge_0].
Qed.
Lemma crit_fixed b D : 0 < b -> ((forall i m, (i < Nc)%nat -> (m < Nm)%nat -> Pc (fun i m => D i m - 1 / b * G D i m) i m = D i m) <-> crit b D).
Proof.
  intros Hb. pose proof flags as Hz. split.
  - intros H.
    assert (F : forall m, (m < Nm)%nat -> cn (col D m) /\ (nrm2 Nc (col D m) = 1 \/ nrm2 Nc (col D m) = 0) /\ exists lam, lam < b /\ vi Nc zm nnc lam (col (G D) m) (col D m)).
    { intros m Hm. apply (fixed_vi Nc zm nnc Hn Hz b (col D m) (col (G D) m) Hb). intros i Hi. refine (eq_trans _ (H i m Hi Hm)). symmetry. apply (pcn_col (fun i m => D i m - 1 / b * G D i m) i m Hi). }
    destruct (finite_choice Nm (fun m lam => lam < b /\ vi Nc zm nnc lam (col (G D) m) (col D m))) as [lam HL]; [intros m Hm; apply (F m Hm)|].
    exists lam. split; [intros m Hm; apply (HL m Hm)|]. apply (vi_first_order Nc Nm Ns Z S W zm nnc HW); [intros m Hm; apply (F m Hm)|intros m Hm; apply (F m Hm)|intros m Hm; apply (HL m Hm)].
  - intros (lam & Hl & FO) i m Hi Hm. rewrite pcn_col by exact Hi. pose proof FO as (C1 & C2 & _).
    refine (proj2 (fixed_vi Nc zm nnc Hn Hz b (col D m) (col (G D) m) Hb) _ i Hi). split; [apply C1; exact Hm|]. split; [apply C2; exact Hm|]. exists (lam m). split; [apply Hl; exact Hm|].
    apply (vi_first_order Nc Nm Ns Z S W zm nnc HW lam D C1 C2); assumption.
Qed.
(** The stationary dictionaries of the proximal gradient solver with inverse step size L. *)
Theorem C91_pgm_stationary L D : 0 < L ->
  ((forall i m, (i < Nc)%nat -> (m < Nm)%nat -> pg_xstep Pc L G D i m = D i m) <-> crit L D).
Proof. intros HL. apply (crit_fixed L D HL). Qed.
(** If the X of the solver converge, for bounded momentum coefficients, the limit satisfies the first order condition. *)
Theorem C91_pgm_limit L (b : nat -> R) B X0 D : 0 < L -> (forall k, Rabs (b k) <= B) ->
  (forall i m, (i < Nc)%nat -> (m < Nm)%nat -> Un_cv (fun k => fst (pg_iterate Pc L G b X0 k) i m) (D i m)) -> critical_le Nc Nm Ns Z S W zm nnc L D.
Proof.
  intros HL Hb HX. pose proof flags as Hz. set (X := fun k => fst (pg_iterate Pc L G b X0 k)) in *. set (Y := fun k => snd (pg_iterate Pc L G b X0 k)).
  assert (ES : forall k, X (Datatypes.S k) = pg_xstep Pc L G (Y k)) by (intros k; unfold X, Y; cbn [pg_iterate]; destruct (pg_iterate Pc L G b X0 k); reflexivity).
  assert (EY : forall k i m, Y (Datatypes.S k) i m = X (Datatypes.S k) i m + b k * (X (Datatypes.S k) i m - X k i m)).
  { intros k i m. unfold X, Y. cbn [pg_iterate]. destruct (pg_iterate Pc L G b X0 k). reflexivity. }
  assert (HY : forall i m, (i < Nc)%nat -> (m < Nm)%nat -> Un_cv (fun k => Y k i m) (D i m)).
  { intros i m Hi Hm. apply cv_shift_S. apply (cv_ext (fun k => X (Datatypes.S k) i m + b k * (X (Datatypes.S k) i m - X k i m))); [intros; symmetry; apply EY|].
    replace (D i m) with (D i m + 0) by ring. assert (H1 : Un_cv (fun k => X (Datatypes.S k) i m) (D i m)) by (apply (cv_S (fun k => X k i m)); apply HX; assumption).
    apply CV_plus; [exact H1|]. apply (abs_squeeze _ (fun k => B * Rabs (X (Datatypes.S k) i m - X k i m))).
    - intros k. rewrite Rabs_mult. apply Rmult_le_compat_r; [apply Rabs_pos|apply Hb].
    - replace 0 with (B * Rabs (D i m - D i m)) by (rewrite Rminus_diag_eq, Rabs_R0 by reflexivity; ring). apply CV_mult; [apply cv_const|]. apply cv_cvabs. apply CV_minus; [exact H1|apply HX; assumption]. }
  assert (HG : forall i m, (i < Nc)%nat -> Un_cv (fun k => G (Y k) i m) (G D i m)).
  { intros i m Hi. unfold wgrad_f, dotZT. apply (cv_sumn Ns (fun k n => W i n * (dotZ Nm Z (Y k) i n - S i n) * Z m n) (fun n => W i n * (dotZ Nm Z D i n - S i n) * Z m n)). intros n _.
    apply CV_mult; [|apply cv_const]. apply CV_mult; [apply cv_const|]. apply CV_minus; [|apply cv_const]. unfold dotZ.
    apply (cv_sumn Nm (fun k m => Y k i m * Z m n) (fun m => D i m * Z m n)). intros m' Hm'. apply CV_mult; [apply HY; assumption|apply cv_const]. }
  assert (F : forall m, (m < Nm)%nat -> cn (col D m) /\ (nrm2 Nc (col D m) = 1 \/ nrm2 Nc (col D m) = 0) /\ exists lam, lam <= L /\ vi Nc zm nnc lam (col (G D) m) (col D m)).
  { intros m Hm. apply (limit_vi Nc zm nnc Hn Hz L (fun k i => Y k i m - 1 / L * G (Y k) i m) (fun k i => X (Datatypes.S k) i m) (fun i => D i m - 1 / L * G D i m) (col D m) (col (G D) m) HL).
    - intros k i Hi. rewrite ES. unfold pg_xstep. apply (pcn_col (fun i m => Y k i m - 1 / L * G (Y k) i m) i m Hi).
    - intros i Hi. apply CV_minus; [apply HY; assumption|]. apply CV_mult; [apply cv_const|apply HG; exact Hi].
    - intros i Hi. apply (cv_S (fun k => X k i m)). apply HX; assumption.
    - reflexivity. }
  destruct (finite_choice Nm (fun m lam => lam <= L /\ vi Nc zm nnc lam (col (G D) m) (col D m))) as [lam HLm]; [intros m Hm; apply (F m Hm)|].
  exists lam. split; [intros m Hm; apply (HLm m Hm)|]. apply (vi_first_order Nc Nm Ns Z S W zm nnc HW); [intros m Hm; apply (F m Hm)|intros m Hm; apply (F m Hm)|intros m Hm; apply (HLm m Hm)].
Qed.
(** A proximal gradient step from a feasible dictionary does not increase the misfit if L is at least the curvature, and decreases
    it in proportion to the squared length of the step if L is larger.  The second statement gives an explicit curvature bound. *)
Definition sq_dist (X Y : matrix) : R := sumn Nm (fun m => nrm2 Nc (fun i => X i m - Y i m)).
Theorem C91_descent L0 L D : (forall E, energy Nc Nm Ns Z W E <= L0 / 2 * sumn Nm (fun m => nrm2 Nc (col E m))) -> 0 < L -> in_cone Nc Nm zm nnc D -> unit_atoms Nc Nm D ->
  mf (pg_xstep Pc L G D) + (L - L0) / 2 * sq_dist (pg_xstep Pc L G D) D <= mf D.
Proof.
  intros HE HL CD UD. pose proof flags as Hz. set (X := pg_xstep Pc L G D). rewrite (misfit_expand Nc Nm Ns Z S W D X). pose proof (HE (fun i m => X i m - D i m)) as En. unfold col at 1 in En. fold (sq_dist X D) in En.
  assert (Q : sumn Nm (fun m => dot Nc (col (G D) m) (vsub (col X m) (col D m))) + L / 2 * sq_dist X D <= 0); [|change (sumn Nm (fun m => nrm2 Nc (col (fun i m => X i m - D i m) m))) with (sq_dist X D) in En; lra].
  unfold sq_dist. rewrite <- sumn_scal, <- sumn_plus. apply Rle_trans with (sumn Nm (fun _ => 0)); [|right; apply sumn_0; reflexivity]. apply sumn_le. intros m Hm.
  set (d := col D m). set (g := col (G D) m). set (v := fun i => d i - 1 / L * g i).
  pose proof (nz_nearest Nc zm nnc Hn Hz v d (CD m Hm) (UD m Hm)) as N.
  assert (EX : forall i, (i < Nc)%nat -> nz Nc (Pk Nc zm nnc v) i = col X m i) by (intros i Hi; symmetry; apply (pcn_col (fun i m => D i m - 1 / L * G D i m) i m Hi)).
  rewrite (nrm2_ext Nc (vsub (nz Nc (Pk Nc zm nnc v)) v) (vadd (vsub (col X m) d) (vscal (/ L) g))) in N by (intros i Hi; unfold vsub, vadd, vscal, v; rewrite EX by exact Hi; field; lra).
  rewrite (nrm2_ext Nc (vsub d v) (vscal (/ L) g)) in N by (intros i Hi; unfold vsub, vscal, v; field; lra).
  rewrite nrm2_add, dot_scal_r, (dot_comm Nc _ g) in N. change (nrm2 Nc (fun i => X i m - D i m)) with (nrm2 Nc (vsub (col X m) d)).
  assert (T : L * (nrm2 Nc (vsub (col X m) d) + 2 * (/ L * dot Nc g (vsub (col X m) d))) <= L * 0) by (apply Rmult_le_compat_l; lra).
  rewrite Rmult_0_r in T. replace (L * (nrm2 Nc (vsub (col X m) d) + 2 * (/ L * dot Nc g (vsub (col X m) d)))) with (L * nrm2 Nc (vsub (col X m) d) + 2 * dot Nc g (vsub (col X m) d)) in T by (field; lra). lra.
Qed.
Theorem C91_curvature wmax E : (forall i n, (i < Nc)%nat -> (n < Ns)%nat -> W i n <= wmax) ->
  energy Nc Nm Ns Z W E <= wmax * sumn Ns (fun n => sumn Nm (fun m => Z m n ^ 2)) / 2 * sumn Nm (fun m => nrm2 Nc (col E m)).
Proof. apply energy_bound. exact HW. Qed.
(** A solution of the documented problem is stationary as soon as L exceeds the curvature. *)
Theorem C91_minimiser L0 L D : (forall E, energy Nc Nm Ns Z W E <= L0 / 2 * sumn Nm (fun m => nrm2 Nc (col E m))) -> 0 < L -> L0 < L ->
  solution Nc Nm Ns Z S W zm nnc D -> unit_atoms Nc Nm (pg_xstep Pc L G D) -> crit L D.
Proof.
  intros HE HL HL0 (CD & UD & Hm) UX. apply (C91_pgm_stationary L D HL). set (X := pg_xstep Pc L G D) in *.
  assert (CX : in_cone Nc Nm zm nnc X) by (intros m _; apply (C91_pcn (fun i m => D i m - 1 / L * G D i m) m)).
  pose proof (Hm X CX UX) as Q. pose proof (C91_descent L0 L D HE HL CD UD) as Ds. fold X in Ds.
  assert (S0 : 0 <= sq_dist X D) by (apply sumn_nonneg; intros; apply nrm2_nonneg). assert (Z0 : sq_dist X D = 0) by nra.
  intros i m Hi Hm'. pose proof (sumn_nonneg_0 Nm _ ltac:(intros; apply nrm2_nonneg) Z0 m Hm') as Q0. cbv beta in Q0. pose proof (nrm2_0 Nc _ Q0 i Hi) as Q1. cbv beta in Q1. lra.
Qed.
(** Without NonNegCoef the last hypothesis holds: the step from a solution has no zero column. *)
Theorem C91_solution L0 L D : (forall E, energy Nc Nm Ns Z W E <= L0 / 2 * sumn Nm (fun m => nrm2 Nc (col E m))) -> 0 < L -> L0 < L -> nnc = false ->
  solution Nc Nm Ns Z S W zm nnc D -> crit L D.
Proof.
  intros HE HL HL0 Hc Hs. apply (C91_minimiser L0 L D HE HL HL0 Hs). destruct Hs as (CD & UD & Hmin). intros m Hm. set (V := fun i m => D i m - 1 / L * G D i m).
  destruct (C91_pcn V m) as (_ & Q0 & Q1). destruct (Req_dec (nrm2 Nc (col (Pc V) m)) 0) as [N0|N0]; [|apply Q1; exact N0]. exfalso. apply Q0 in N0.
  assert (E0 : dot Nc (col V m) (col D m) = 0).
  { rewrite Hc in N0. destruct zm eqn:Ez.
    - rewrite (dot_ext Nc _ (col D m) (fun _ => V O m) (col D m)); [|intros i Hi; apply N0; [exact Hi|lia]|reflexivity]. unfold dot. rewrite sumn_scal. destruct (CD m Hm) as [S0 _]. rewrite S0 by reflexivity. ring.
    - unfold dot. apply sumn_0. intros i Hi. unfold col. rewrite N0 by exact Hi. ring. }
  assert (Eg : dot Nc (col (G D) m) (col D m) = L).
  { assert (T : dot Nc (col V m) (col D m) = nrm2 Nc (col D m) - / L * dot Nc (col (G D) m) (col D m)) by (unfold nrm2; rewrite <- dot_scal_l, <- dot_sub_l; apply dot_ext; [intros; unfold col, V, vsub, vscal, Rdiv; ring|reflexivity]).
    rewrite E0, (UD m Hm) in T. apply (Rmult_eq_reg_l (/ L)); [|apply Rinv_neq_0_compat; lra]. rewrite Rinv_l by lra. lra. }
  set (X := fun i k => if Nat.eqb k m then - D i k else D i k).
  assert (CX : in_cone Nc Nm zm nnc X).
  { intros k Hk. destruct (CD k Hk) as [A _]. split; [|rewrite Hc; discriminate]. intros Ez. pose proof (A Ez) as A0. unfold col in *. unfold X. destruct (Nat.eqb k m); [rewrite sumn_opp|]; rewrite A0; ring. }
  assert (NX : forall k, nrm2 Nc (col X k) = nrm2 Nc (col D k)).
  { intros k. unfold nrm2, dot, col, X. apply sumn_ext. intros. destruct (Nat.eqb k m); ring. }
  assert (UX : unit_atoms Nc Nm X) by (intros k Hk; rewrite NX; apply UD; exact Hk).
  pose proof (Hmin X CX UX) as M. rewrite (misfit_expand Nc Nm Ns Z S W D X) in M. pose proof (HE (fun i k => X i k - D i k)) as En.
  assert (T1 : sumn Nm (fun k => nrm2 Nc (col (fun i k => X i k - D i k) k)) = 4).
  { rewrite (sumn_ext Nm _ (fun k => if Nat.eqb k m then 4 else 0)); [apply (sumn_delta Nm m (fun _ => 4) Hm)|]. intros k Hk. unfold col, X. destruct (Nat.eqb_spec k m) as [->|Ne].
    - transitivity (nrm2 Nc (vscal (-2) (col D m))); [apply nrm2_ext; intros; unfold vscal, col; ring|]. rewrite nrm2_scal, (UD m Hm). ring.
    - unfold nrm2, dot. apply sumn_0. intros. ring. }
  assert (T2 : sumn Nm (fun k => dot Nc (col (G D) k) (vsub (col X k) (col D k))) = -2 * L).
  { rewrite (sumn_ext Nm _ (fun k => if Nat.eqb k m then -2 * L else 0)); [apply (sumn_delta Nm m (fun _ => -2 * L) Hm)|]. intros k Hk. unfold X. destruct (Nat.eqb_spec k m) as [->|Ne].
    - rewrite <- Eg, <- dot_scal_r. apply dot_ext; [reflexivity|]. intros. unfold vsub, vscal, col. rewrite Nat.eqb_refl. ring.
    - unfold dot. apply sumn_0. intros. unfold vsub, col. destruct (Nat.eqb_spec k m); [contradiction|ring]. }
  rewrite T1 in En. rewrite T2 in M. lra.
Qed.
(** Conversely, a dictionary which satisfies the first order condition with multipliers that are not positive is a solution. *)
Theorem C91_optimal lam D : unit_atoms Nc Nm D -> first_order Nc Nm Ns Z S W zm nnc lam D -> (forall m, (m < Nm)%nat -> lam m <= 0) -> solution Nc Nm Ns Z S W zm nnc D.
Proof.
  intros UD (CD & _ & F) Hl. split; [exact CD|]. split; [exact UD|]. intros X CX UX. pose proof (F X CX) as Q.
  assert (0 <= sumn Nm (fun m => lam m * (dot Nc (col D m) (col X m) - nrm2 Nc (col D m)))); [|lra]. apply sumn_nonneg. intros m Hm. pose proof (Hl m Hm).
  pose proof (dot_le Nc (col D m) (col X m)) as CS. unfold nrm in CS. rewrite (UD m Hm), (UX m Hm), sqrt_1 in CS. rewrite (UD m Hm). nra.
Qed.
End weighted.

(** *** admm/cmod.py *)
Variables (solve : matrix -> matrix) (rho rlx : R).
Hypothesis Hrho : 0 < rho.
Hypothesis Hsolve : forall b i m, (i < Nc)%nat -> (m < Nm)%nat -> dotZT Ns Z (dotZ Nm Z (solve b)) i m + rho * solve b i m = b i m.
Definition ones : matrix := fun _ _ => 1.
Notation G1 := (wgrad_f Nm Ns Z S ones).
Notation step := (cm_iteration Ns Z S Pc solve rho rlx).
Notation run := (cm_iterate Ns Z S Pc solve rho rlx).
Definition sX (st : matrix * matrix * matrix) : matrix := fst (fst st).
Definition sYm (st : matrix * matrix * matrix) : matrix := snd (fst st).
Definition sUm (st : matrix * matrix * matrix) : matrix := snd st.
Lemma ones_nonneg : forall i n, (i < Nc)%nat -> (n < Ns)%nat -> 0 <= ones i n. Proof. intros. unfold ones. lra. Qed.
Lemma grad_ones V i m : G1 V i m = dotZT Ns Z (dotZ Nm Z V) i m - dotZT Ns Z S i m.
Proof. unfold wgrad_f, dotZT, ones. rewrite <- sumn_minus. apply sumn_ext. intros. ring. Qed.
Lemma sys_unique (E : matrix) : (forall i m, (i < Nc)%nat -> (m < Nm)%nat -> dotZT Ns Z (dotZ Nm Z E) i m + rho * E i m = 0) -> forall i m, (i < Nc)%nat -> (m < Nm)%nat -> E i m = 0.
Proof.
  intros H. assert (Q : sumn Nc (fun i => sumn Nm (fun m => E i m * E i m)) = 0).
  { assert (T : sumn Nc (fun i => sumn Nm (fun m => E i m * dotZT Ns Z (dotZ Nm Z E) i m)) = sumn Nc (fun i => sumn Ns (fun n => dotZ Nm Z E i n * dotZ Nm Z E i n))).
    { apply sumn_ext. intros i _. unfold dotZT. transitivity (sumn Nm (fun m => sumn Ns (fun n => dotZ Nm Z E i n * (E i m * Z m n)))); [apply sumn_ext; intros; rewrite <- sumn_scal; apply sumn_ext; intros; ring|].
      rewrite sumn_swap. apply sumn_ext. intros n _. rewrite sumn_scal. reflexivity. }
    assert (T2 : sumn Nc (fun i => sumn Nm (fun m => E i m * (dotZT Ns Z (dotZ Nm Z E) i m + rho * E i m))) = 0) by (apply sumn_0; intros i Hi; apply sumn_0; intros m Hm; rewrite H by assumption; ring).
    rewrite (sumn_ext Nc _ (fun i => sumn Nm (fun m => E i m * dotZT Ns Z (dotZ Nm Z E) i m) + rho * sumn Nm (fun m => E i m * E i m))) in T2 by (intros; rewrite <- sumn_scal, <- sumn_plus; apply sumn_ext; intros; ring).
    rewrite sumn_plus, sumn_scal, T in T2. assert (A : 0 <= sumn Nc (fun i => sumn Ns (fun n => dotZ Nm Z E i n * dotZ Nm Z E i n))) by (apply sumn_nonneg; intros; apply sumn_nonneg; intros; apply Rle_0_sqr).
    assert (B : 0 <= sumn Nc (fun i => sumn Nm (fun m => E i m * E i m))) by (apply sumn_nonneg; intros; apply sumn_nonneg; intros; apply Rle_0_sqr). nra. }
  intros i m Hi Hm. pose proof (sumn_nonneg_0 Nc _ ltac:(intros; apply sumn_nonneg; intros; apply Rle_0_sqr) Q i Hi) as Q1. cbv beta in Q1.
  pose proof (sumn_nonneg_0 Nm _ ltac:(intros; apply Rle_0_sqr) Q1 m Hm) as Q2. cbv beta in Q2. apply Rmult_integral in Q2. lra.
Qed.
(** The x step is the unique solution of X Z Z^T + rho X = S Z^T + rho (Y - U), that is gradient(X) + rho (X - Y + U) = 0. *)
Theorem C91_xstep Y U X : (forall i m, (i < Nc)%nat -> (m < Nm)%nat -> X i m = cm_xstep Ns Z S solve rho Y U i m) <->
  (forall i m, (i < Nc)%nat -> (m < Nm)%nat -> G1 X i m + rho * (X i m - Y i m + U i m) = 0).
Proof.
  set (x := cm_xstep Ns Z S solve rho Y U). assert (Hx : forall i m, (i < Nc)%nat -> (m < Nm)%nat -> dotZT Ns Z (dotZ Nm Z x) i m + rho * x i m = dotZT Ns Z S i m + rho * (Y i m - U i m)) by (intros; apply Hsolve; assumption).
  assert (DD : forall X i m, dotZT Ns Z (dotZ Nm Z (fun i m => X i m - x i m)) i m = dotZT Ns Z (dotZ Nm Z X) i m - dotZT Ns Z (dotZ Nm Z x) i m).
  { intros X' i m. unfold dotZT. rewrite <- sumn_minus. apply sumn_ext. intros n _. unfold dotZ. rewrite (sumn_ext Nm (fun m0 => (X' i m0 - x i m0) * Z m0 n) (fun m0 => X' i m0 * Z m0 n - x i m0 * Z m0 n)) by (intros; ring). rewrite sumn_minus. ring. }
  split.
  - intros H i m Hi Hm. rewrite grad_ones. specialize (Hx i m Hi Hm).
    assert (E : dotZT Ns Z (dotZ Nm Z X) i m = dotZT Ns Z (dotZ Nm Z x) i m) by (unfold dotZT; apply sumn_ext; intros n _; f_equal; unfold dotZ; apply sumn_ext; intros m' Hm'; rewrite H by assumption; reflexivity).
    rewrite E, (H i m Hi Hm). lra.
  - intros H i m Hi Hm. assert (E : X i m - x i m = 0); [|lra].
    apply (sys_unique (fun i m => X i m - x i m)); [|assumption|assumption]. intros i' m' Hi' Hm'. rewrite DD. specialize (H i' m' Hi' Hm'). rewrite grad_ones in H. specialize (Hx i' m' Hi' Hm'). lra.
Qed.
Lemma relax_val X Y i m : cm_relax rlx X Y i m = rlx * X i m + (1 - rlx) * Y i m.
Proof. unfold cm_relax. destruct (Req_EM_T rlx 1) as [->|_]; [ring|reflexivity]. Qed.
(** The stationary dictionaries of the ADMM solver. *)
Theorem C91_admm_stationary Y : rlx <> 0 ->
  ((exists U, forall i m, (i < Nc)%nat -> (m < Nm)%nat -> sYm (step (Y, Y, U)) i m = Y i m /\ sUm (step (Y, Y, U)) i m = U i m) <-> critical Nc Nm Ns Z S ones zm nnc rho Y).
Proof.
  intros Hr. rewrite <- (crit_fixed ones ones_nonneg rho Y Hrho). split.
  - intros [U H]. set (X := cm_xstep Ns Z S solve rho Y U). set (AX := cm_relax rlx X Y). set (V := fun i m => AX i m + U i m).
    assert (H1 : forall i m, (i < Nc)%nat -> (m < Nm)%nat -> Pc V i m = Y i m) by (intros i m Hi Hm; apply (H i m Hi Hm)).
    assert (H2 : forall i m, (i < Nc)%nat -> (m < Nm)%nat -> U i m + AX i m - Pc V i m = U i m) by (intros i m Hi Hm; apply (H i m Hi Hm)).
    assert (EX : forall i m, (i < Nc)%nat -> (m < Nm)%nat -> Y i m = X i m).
    { intros i m Hi Hm. specialize (H2 i m Hi Hm). rewrite H1 in H2 by assumption. unfold AX in H2. rewrite relax_val in H2. assert (Q : rlx * (X i m - Y i m) = 0) by lra. apply Rmult_integral in Q. destruct Q; [contradiction|lra]. }
    pose proof (proj1 (C91_xstep Y U Y) EX) as E. intros i m Hi Hm. rewrite <- (H1 i m Hi Hm). rewrite !pcn_col by exact Hi. apply nz_ext; [|exact Hi]. apply (Pk_ext Nc zm nnc flags). intros j Hj. unfold col, V, AX.
    rewrite relax_val, <- (EX j m Hj Hm). specialize (E j m Hj Hm). assert (U j m = - / rho * G1 Y j m); [|unfold Rdiv; lra]. apply (Rmult_eq_reg_l rho); [|lra]. rewrite <- Rmult_assoc, <- Ropp_mult_distr_r, Rinv_r by lra. lra.
  - intros H. set (U := fun i m => - / rho * G1 Y i m). exists U. set (X := cm_xstep Ns Z S solve rho Y U).
    assert (EX : forall i m, (i < Nc)%nat -> (m < Nm)%nat -> Y i m = X i m) by (apply C91_xstep; intros i m Hi Hm; unfold U; field; lra).
    assert (EV : forall i m, (i < Nc)%nat -> (m < Nm)%nat -> Pc (fun i m => cm_relax rlx X Y i m + U i m) i m = Y i m).
    { intros i m Hi Hm. rewrite <- (H i m Hi Hm). rewrite !pcn_col by exact Hi. apply nz_ext; [|exact Hi]. apply (Pk_ext Nc zm nnc flags). intros j Hj. unfold col. rewrite relax_val, <- (EX j m Hj Hm). unfold U, Rdiv. ring. }
    intros i m Hi Hm. unfold sYm, sUm, cm_iteration. cbn [fst snd]. cbv zeta. fold X. split; [apply EV; assumption|]. rewrite EV by assumption. rewrite relax_val, <- (EX i m Hi Hm). ring.
Qed.
(** If Y and U converge, X has the limit of Y, and it satisfies the first order condition. *)
Theorem C91_admm_limit st0 y u : rlx <> 0 ->
  (forall i m, (i < Nc)%nat -> (m < Nm)%nat -> Un_cv (fun k => sYm (run k st0) i m) (y i m)) -> (forall i m, (i < Nc)%nat -> (m < Nm)%nat -> Un_cv (fun k => sUm (run k st0) i m) (u i m)) ->
  (forall i m, (i < Nc)%nat -> (m < Nm)%nat -> Un_cv (fun k => sX (run k st0) i m) (y i m)) /\ critical_le Nc Nm Ns Z S ones zm nnc rho y.
Proof.
  intros Hr HY HU. pose proof flags as Hz. set (X := fun k => sX (run k st0)) in *. set (Y := fun k => sYm (run k st0)) in *. set (U := fun k => sUm (run k st0)) in *.
  set (AX := fun k => cm_relax rlx (X (Datatypes.S k)) (Y k)).
  assert (EX : forall k, X (Datatypes.S k) = cm_xstep Ns Z S solve rho (Y k) (U k)) by (intros k; unfold X, Y, U; cbn [cm_iterate]; destruct (run k st0) as [[a b] c]; reflexivity).
  assert (EY : forall k, Y (Datatypes.S k) = Pc (fun i m => AX k i m + U k i m)) by (intros k; unfold AX; rewrite EX; unfold X, Y, U; cbn [cm_iterate]; destruct (run k st0) as [[a b] c]; reflexivity).
  assert (EU : forall k i m, U (Datatypes.S k) i m = U k i m + AX k i m - Y (Datatypes.S k) i m).
  { intros k i m. rewrite EY. unfold AX. rewrite EX. unfold Y, U. cbn [cm_iterate]. destruct (run k st0) as [[a b] c]. reflexivity. }
  assert (HY1 : forall i m, (i < Nc)%nat -> (m < Nm)%nat -> Un_cv (fun k => Y (Datatypes.S k) i m) (y i m)) by (intros i m Hi Hm; apply (cv_S (fun k => Y k i m)); apply HY; assumption).
  assert (HU1 : forall i m, (i < Nc)%nat -> (m < Nm)%nat -> Un_cv (fun k => U (Datatypes.S k) i m) (u i m)) by (intros i m Hi Hm; apply (cv_S (fun k => U k i m)); apply HU; assumption).
  assert (HA : forall i m, (i < Nc)%nat -> (m < Nm)%nat -> Un_cv (fun k => AX k i m) (y i m)).
  { intros i m Hi Hm. apply (cv_ext (fun k => U (Datatypes.S k) i m - U k i m + Y (Datatypes.S k) i m)); [intros k; rewrite EU; ring|].
    replace (y i m) with (u i m - u i m + y i m) by ring. apply CV_plus; [apply CV_minus; [apply HU1|apply HU]|apply HY1]; assumption. }
  assert (HX1 : forall i m, (i < Nc)%nat -> (m < Nm)%nat -> Un_cv (fun k => X (Datatypes.S k) i m) (y i m)).
  { intros i m Hi Hm. apply (cv_ext (fun k => / rlx * (AX k i m - (1 - rlx) * Y k i m))); [intros k; unfold AX; rewrite relax_val; field; exact Hr|].
    replace (y i m) with (/ rlx * (y i m - (1 - rlx) * y i m)) by (field; exact Hr). apply CV_mult; [apply cv_const|]. apply CV_minus; [apply HA; assumption|]. apply CV_mult; [apply cv_const|apply HY; assumption]. }
  split; [intros i m Hi Hm; apply cv_shift_S; apply HX1; assumption|].
  assert (HG : forall i m, (i < Nc)%nat -> (m < Nm)%nat -> G1 y i m = - rho * u i m).
  { intros i m Hi Hm. assert (Q : G1 y i m + rho * (y i m - y i m + u i m) = 0); [|lra].
    apply (UL_sequence (fun k => G1 (X (Datatypes.S k)) i m + rho * (X (Datatypes.S k) i m - Y k i m + U k i m))).
    - apply CV_plus.
      + unfold wgrad_f, dotZT. apply (cv_sumn Ns (fun k n => ones i n * (dotZ Nm Z (X (Datatypes.S k)) i n - S i n) * Z m n) (fun n => ones i n * (dotZ Nm Z y i n - S i n) * Z m n)). intros n _.
        apply CV_mult; [|apply cv_const]. apply CV_mult; [apply cv_const|]. apply CV_minus; [|apply cv_const]. unfold dotZ.
        apply (cv_sumn Nm (fun k m => X (Datatypes.S k) i m * Z m n) (fun m => y i m * Z m n)). intros m' Hm'. apply CV_mult; [apply HX1; assumption|apply cv_const].
      + apply CV_mult; [apply cv_const|]. apply CV_plus; [apply CV_minus; [apply HX1|apply HY]|apply HU]; assumption.
    - apply (cv_ext (fun _ => 0)); [|apply cv_const]. intros k. symmetry. apply (C91_xstep (Y k) (U k) (X (Datatypes.S k))); [intros; rewrite EX; reflexivity|assumption|assumption]. }
  assert (F : forall m, (m < Nm)%nat -> cn (col y m) /\ (nrm2 Nc (col y m) = 1 \/ nrm2 Nc (col y m) = 0) /\ exists lam, lam <= rho /\ vi Nc zm nnc lam (col (G1 y) m) (col y m)).
  { intros m Hm. apply (limit_vi Nc zm nnc Hn Hz rho (fun k i => AX k i m + U k i m) (fun k i => Y (Datatypes.S k) i m) (fun i => y i m + u i m) (col y m) (col (G1 y) m) Hrho).
    - intros k i Hi. rewrite EY. apply (pcn_col (fun i m => AX k i m + U k i m) i m Hi).
    - intros i Hi. apply CV_plus; [apply HA|apply HU]; assumption.
    - intros i Hi. apply HY1; assumption.
    - intros i Hi. unfold col. rewrite HG by assumption. field. lra. }
  destruct (finite_choice Nm (fun m lam => lam <= rho /\ vi Nc zm nnc lam (col (G1 y) m) (col y m))) as [lam HL]; [intros m Hm; apply (F m Hm)|].
  exists lam. split; [intros m Hm; apply (HL m Hm)|]. apply (vi_first_order Nc Nm Ns Z S ones zm nnc ones_nonneg); [intros m Hm; apply (F m Hm)|intros m Hm; apply (F m Hm)|intros m Hm; apply (HL m Hm)].
Qed.
(** Without an initial dictionary an atom which is not used (a zero row of Z) stays zero for ever; Cnstr does not show it. *)
Theorem C91_unused_refuted m : (m < Nm)%nat -> (forall n, (n < Ns)%nat -> Z m n = 0) -> forall k i, (i < Nc)%nat -> sYm (run k cm_start) i m = 0.
Proof.
  intros Hm HZ. assert (I : forall k i, (i < Nc)%nat -> sYm (run k cm_start) i m = 0 /\ sUm (run k cm_start) i m = 0).
  { induction k as [|k IH]; [intros; split; reflexivity|]. cbn [cm_iterate]. destruct (run k cm_start) as [[x Y] U]. unfold sYm, sUm in IH. cbn [fst snd] in IH.
    set (X := cm_xstep Ns Z S solve rho Y U).
    assert (X0 : forall i, (i < Nc)%nat -> X i m = 0).
    { intros i Hi. pose proof (Hsolve (fun i m => dotZT Ns Z S i m + rho * (Y i m - U i m)) i m Hi Hm) as Q. fold (cm_xstep Ns Z S solve rho Y U) in Q. fold X in Q.
      assert (D0 : forall A : matrix, dotZT Ns Z A i m = 0) by (intros A; unfold dotZT; apply sumn_0; intros n Hn'; rewrite HZ by exact Hn'; ring).
      rewrite !D0 in Q. destruct (IH i Hi) as [Y0 U0]. rewrite Y0, U0 in Q. assert (T : rho * X i m = 0) by lra. apply Rmult_integral in T. destruct T; [lra|assumption]. }
    set (V := fun i m => cm_relax rlx X Y i m + U i m).
    assert (V0 : forall i, (i < Nc)%nat -> col V m i = 0) by (intros i Hi; unfold col, V; rewrite relax_val, X0 by exact Hi; destruct (IH i Hi) as [-> ->]; ring).
    assert (P0 : forall i, (i < Nc)%nat -> Pc V i m = 0).
    { apply nrm2_0. apply (C91_pcn V m). destruct zm; [intros; change (V i m) with (col V m i); change (V j m) with (col V m j); rewrite !V0 by assumption; reflexivity|].
      destruct nnc; intros i Hi; change (V i m) with (col V m i); rewrite V0 by exact Hi; lra. }
    intros i Hi. unfold sYm, sUm, cm_iteration. cbn [fst snd]. cbv zeta. fold X. fold V. split; [apply P0; exact Hi|]. rewrite P0, relax_val, X0 by exact Hi. destruct (IH i Hi) as [-> ->]. ring. }
  intros k i Hi. apply (I k i Hi).
Qed.
End C91.
Print Assumptions C91_pcn.
Print Assumptions C91_cnstr.
Print Assumptions C91_objective.
Print Assumptions C91_pgm_stationary.
Print Assumptions C91_pgm_limit.
Print Assumptions C91_descent.
Print Assumptions C91_curvature.
Print Assumptions C91_minimiser.
Print Assumptions C91_solution.
Print Assumptions C91_optimal.
Print Assumptions C91_xstep.
Print Assumptions C91_admm_stationary.
Print Assumptions C91_admm_limit.
Print Assumptions C91_unused_refuted.

(** hessian_f is the derivative of the gradient of CnstrMOD, and the gradient without weights is the one with weights 1. *)
Theorem C91_hessian Nm Ns Z S V E i m : grad_f Nm Ns Z S (fun i m => V i m + E i m) i m - grad_f Nm Ns Z S V i m = hessian_f Nm Ns Z E i m /\ grad_f Nm Ns Z S V i m = wgrad_f Nm Ns Z S ones V i m.
Proof.
  split.
  - unfold grad_f, hessian_f, dotZT. rewrite <- sumn_minus. apply sumn_ext. intros n _. unfold dotZ. rewrite (sumn_ext Nm (fun m0 => (V i m0 + E i m0) * Z m0 n) (fun m0 => V i m0 * Z m0 n + E i m0 * Z m0 n)) by (intros; ring). rewrite sumn_plus. ring.
  - unfold grad_f, wgrad_f, dotZT, ones. apply sumn_ext. intros. ring.
Qed.
Print Assumptions C91_hessian.
(** WeightedCnstrMOD inherits it: with a constant weight w the change of its gradient is w times hessian_f. *)
Theorem C91_weighted_hessian_refuted Nm Ns Z S w V E i m : w <> 1 -> hessian_f Nm Ns Z E i m <> 0 ->
  wgrad_f Nm Ns Z S (fun _ _ => w) (fun i m => V i m + E i m) i m - wgrad_f Nm Ns Z S (fun _ _ => w) V i m = w * hessian_f Nm Ns Z E i m /\
  wgrad_f Nm Ns Z S (fun _ _ => w) (fun i m => V i m + E i m) i m - wgrad_f Nm Ns Z S (fun _ _ => w) V i m <> hessian_f Nm Ns Z E i m.
Proof.
  intros Hw HE. assert (Q : wgrad_f Nm Ns Z S (fun _ _ => w) (fun i m => V i m + E i m) i m - wgrad_f Nm Ns Z S (fun _ _ => w) V i m = w * hessian_f Nm Ns Z E i m).
  { unfold wgrad_f, hessian_f, dotZT. rewrite <- sumn_minus, <- sumn_scal. apply sumn_ext. intros n _. unfold dotZ. rewrite (sumn_ext Nm (fun m0 => (V i m0 + E i m0) * Z m0 n) (fun m0 => V i m0 * Z m0 n + E i m0 * Z m0 n)) by (intros; ring). rewrite sumn_plus. ring. }
  split; [exact Q|]. rewrite Q. intros H. assert (T : (w - 1) * hessian_f Nm Ns Z E i m = 0) by lra. apply Rmult_integral in T. destruct T; [lra|contradiction].
Qed.
Print Assumptions C91_weighted_hessian_refuted.
(** The constraint set is not convex: a stationary dictionary need not be a solution (one sample, Z = S = 1, D = -1). *)
Theorem C91_stationary_refuted rho : 2 < rho ->
  critical 1 1 1 (fun _ _ => 1) (fun _ _ => 1) ones false false rho (fun _ _ => -1) /\ ~ solution 1 1 1 (fun _ _ => 1) (fun _ _ => 1) ones false false (fun _ _ => -1).
Proof.
  intros Hr. split.
  - exists (fun _ => 2). split; [intros; exact Hr|]. split; [intros m _; split; discriminate|]. split; [intros m _; left; unfold nrm2, dot, col; cbn [sumn]; ring|].
    intros X _. unfold misfit, ones, nrm2, dot, col. cbn [sumn]. pose proof (Rle_0_sqr (X O O + 1)) as Q. unfold Rsqr in Q. lra.
  - intros (_ & _ & H). specialize (H (fun _ _ => 1)). assert (A : in_cone 1 1 false false (fun _ _ : nat => 1)) by (intros m _; split; discriminate).
    assert (B : unit_atoms 1 1 (fun _ _ : nat => 1)) by (intros m _; unfold nrm2, dot, col; cbn [sumn]; ring). specialize (H A B). unfold misfit, ones in H. cbn [sumn] in H. lra.
Qed.
Print Assumptions C91_stationary_refuted.

(** An instance: one sample, Z = S = 1, rho = 3, with the exact solver. *)
Definition x91 : matrix -> matrix := fun b i m => b i m / 4.
Example C91_solver : forall b i m, (i < 1)%nat -> (m < 1)%nat -> dotZT 1 (fun _ _ => 1) (dotZ 1 (fun _ _ => 1) (x91 b)) i m + 3 * x91 b i m = b i m.
Proof. intros b i m Hi Hm. assert (m = O) by lia. subst. unfold dotZT, dotZ, x91. cbn [sumn]. field. Qed.
Example C91_instance : exists U, forall i m, (i < 1)%nat -> (m < 1)%nat ->
  sYm (cm_iteration 1 (fun _ _ => 1) (fun _ _ => 1) (normalise 1) x91 3 1.8 (fun _ _ => -1, fun _ _ => -1, U)) i m = -1 /\
  sUm (cm_iteration 1 (fun _ _ => 1) (fun _ _ => 1) (normalise 1) x91 3 1.8 (fun _ _ => -1, fun _ _ => -1, U)) i m = U i m.
Proof.
  apply (C91_admm_stationary 1 1 1 (fun _ _ => 1) (fun _ _ => 1) false false (normalise 1) ltac:(lia) eq_refl x91 3 1.8 ltac:(lra) C91_solver (fun _ _ => -1) ltac:(lra)).
  apply C91_stationary_refuted. lra.
Qed.
(** Descent: W = 4, Z = 1, S = 1, a step from D = -1 with L = 4. *)
Example C91_descent_instance : misfit 1 1 1 (fun _ _ => 1) (fun _ _ => 1) (fun _ _ => 4) (pg_xstep (normalise 1) 4 (wgrad_f 1 1 (fun _ _ => 1) (fun _ _ => 1) (fun _ _ => 4)) (fun _ _ => -1)) <= 8.
Proof.
  pose proof (C91_descent 1 1 1 (fun _ _ => 1) (fun _ _ => 1) false false (normalise 1) ltac:(lia) eq_refl (fun _ _ => 4) 4 4 (fun _ _ => -1)) as H.
  apply Rle_trans with (misfit 1 1 1 (fun _ _ => 1) (fun _ _ => 1) (fun _ _ => 4) (fun _ _ => -1)); [|right; unfold misfit; cbn [sumn]; lra].
  eapply Rle_trans; [|apply H]; [right; lra| |lra|intros m _; split; discriminate|intros m _; unfold nrm2, dot, col; cbn [sumn]; ring].
  intros E. pose proof (C91_curvature 1 1 1 (fun _ _ => 1) (fun _ _ => 4) ltac:(intros; lra) 4 E ltac:(intros; lra)) as Q. eapply Rle_trans; [exact Q|]. right. cbn [sumn]. lra.
Qed.
(** An unused atom next to a used one. *)
Definition y91 : matrix -> matrix := fun b i m => match m with O => b i m / 2 | _ => b i m end.
Example C91_unused_instance : forall k, sYm (cm_iterate 1 (fun m _ => match m with O => 1 | _ => 0 end) (fun _ _ => 1) (normalise 1) y91 1 1.8 k cm_start) O 1%nat = 0.
Proof.
  intros k. apply (C91_unused_refuted 1 2 1 (fun m _ => match m with O => 1 | _ => 0 end) (fun _ _ => 1) false false (normalise 1)); try lra; try lia; try reflexivity.
  intros b i m Hi Hm. unfold dotZT, dotZ, y91. cbn [sumn]. destruct m as [|[|m]]; [field|field|lia].
Qed.
