(** C36, C37, C38 and C67 for the solver classes of bpdn.py, rpca.py, cmod.py and for the consensus classes. *)
Require Import Reals Lra Lia Arith Bool FunctionalExtensionality.
Require Import Verif.RVec Verif.ProxModel Verif.ProxSpec Verif.ProxProofs Verif.L1ProjModel Verif.NucModel Verif.NucSpec Verif.NucProofs.
Require Import Verif.AdmmModel Verif.AdmmSpec Verif.AdmmProofs Verif.AdmmConv Verif.AdmmProps Verif.StepsModel Verif.StepsSpec Verif.StepsProofs Verif.StepsProofs2.
Local Open Scope R_scope.

(** What linalg.cho_solve_ATAI and lu_solve_AATI return, by C21: solutions of the linear systems. *)
Definition ATAI_contract (Nr Nc Nm : nat) (solve : mat -> R -> vec -> vec) : Prop :=
  forall D rho b p, 0 < rho -> (p < Nc * Nm)%nat -> mm Nr Nm (tr D) (mm Nc Nm D (solve D rho b)) p + rho * solve D rho b p = b p.
Definition AATI_contract (Nc Nm Ns : nat) (solve : mat -> R -> vec -> vec) : Prop :=
  forall Z rho b p, 0 < rho -> (p < Nc * Nm)%nat -> mmr Ns Nm (mmr Nm Ns (solve Z rho b) Z) (tr Z) p + rho * solve Z rho b p = b p.

Section bpdn.
Variables (Nr Nc Nm : nat) (solve : mat -> R -> vec -> vec) (D : mat) (S : vec).
Hypothesis HC : (0 < Nc)%nat.
Hypothesis HN : (0 < Nm)%nat.
Hypothesis Hsolve : ATAI_contract Nr Nc Nm solve.
Let n := (Nc * Nm)%nat.
Let f := lsq (Nr * Nm) (mm Nc Nm D) S.

(** *** C37, x steps: unconstrained minimisers of the augmented Lagrangian, for any regularisation term. *)
Lemma bpdn_X rho Y U : 0 < rho -> forall i, (i < n)%nat ->
  mm Nr Nm (tr D) (mm Nc Nm D (bpdn_xstep Nr Nm solve D S rho Y U)) i + (0 + rho) * bpdn_xstep Nr Nm solve D S rho Y U i = mm Nr Nm (tr D) S i + rho * (Y i - U i).
Proof. intros Hr i Hi. rewrite Rplus_0_l. apply (Hsolve D rho (bpdn_rhs Nr Nm D S rho Y U) i Hr Hi). Qed.
Lemma enet_X mu rho Y U : 0 <= mu -> 0 < rho -> forall i, (i < n)%nat ->
  mm Nr Nm (tr D) (mm Nc Nm D (enet_xstep Nr Nm solve D S mu rho Y U)) i + (mu + rho) * enet_xstep Nr Nm solve D S mu rho Y U i = mm Nr Nm (tr D) S i + rho * (Y i - U i).
Proof. intros Hm Hr i Hi. apply (Hsolve D (mu + rho) (bpdn_rhs Nr Nm D S rho Y U) i ltac:(lra) Hi). Qed.
Lemma sc_f0 x : sc_f n (Nr * Nm) (mm Nc Nm D) S 0 x = f x.
Proof. unfold sc_f, f, ridge. lra. Qed.
Theorem C37_bpdn_x rho g Y U : 0 < rho ->
  argmin (fun _ => True) (fun x => auglag n eq_A eq_B eq_c rho f g x Y U) (bpdn_xstep Nr Nm solve D S rho Y U).
Proof.
  intros Hr. pose proof (sc_x n (Nr * Nm) (mm Nc Nm D) (mm Nr Nm (tr D)) S 0 (mm_linear Nc Nm D) (mm_adjoint Nr Nc Nm D HN) rho g Y U (bpdn_xstep Nr Nm solve D S rho Y U) ltac:(lra) Hr (bpdn_X rho Y U Hr)) as [_ H].
  split; [exact I|]. intros x _. specialize (H x I). unfold auglag in *. rewrite !sc_f0 in H. exact H.
Qed.
Theorem C37_enet_x mu rho g Y U : 0 <= mu -> 0 < rho ->
  argmin (fun _ => True) (fun x => auglag n eq_A eq_B eq_c rho (fun x => f x + ridge n mu x) g x Y U) (enet_xstep Nr Nm solve D S mu rho Y U).
Proof.
  intros Hm Hr. exact (sc_x n (Nr * Nm) (mm Nc Nm D) (mm Nr Nm (tr D)) S mu (mm_linear Nc Nm D) (mm_adjoint Nr Nc Nm D HN) rho g Y U (enet_xstep Nr Nm solve D S mu rho Y U) Hm Hr (enet_X mu rho Y U Hm Hr)).
Qed.
Theorem C37_minl1_x rho g Y U : 0 < rho ->
  argmin (fun _ => True) (fun x => auglag (n + Nr * Nm) (tb_A n (fun x => x) (mm Nc Nm D)) tb_B (block_cat n (fun _ => 0) (fun _ => 0)) rho (fun _ => 0) g x Y U)
    (minl1_xstep Nr Nc Nm solve D Y U).
Proof. intros Hr. exact (ml_x Nr Nc Nm solve D HN (fun b p Hp => Hsolve D 1 b p ltac:(lra) Hp) rho g Y U Hr). Qed.

(** *** C37, y steps: minimisers over the constraint set. *)
Theorem C37_bpdn_y nonneg lmbda rho wl1 AX U : 0 <= lmbda -> 0 < rho -> (forall i, (i < n)%nat -> 0 <= wl1 i) ->
  argmin (nonneg_set nonneg n) (fun y => auglag n (fun _ => AX) eq_B eq_c rho (fun _ => 0) (l1reg n lmbda wl1) AX y U) (bpdn_ystep nonneg lmbda rho wl1 AX U).
Proof. intros Hl Hr Hw. destruct (bpdn_y n nonneg lmbda rho wl1 AX U Hl Hr Hw) as [H1 H2]. apply y_equal; [lra|exact H1|exact H2]. Qed.
Theorem C37_joint_y lmbda mu rho wl1 AX U : 0 <= lmbda -> 0 <= mu -> 0 < rho -> (forall i, (i < n)%nat -> 0 <= wl1 i) ->
  argmin (fun _ => True) (fun y => auglag n (fun _ => AX) eq_B eq_c rho (fun _ => 0) (fun y => l1reg n lmbda wl1 y + l21reg Nc Nm mu y) AX y U) (joint_ystep Nm false lmbda mu rho wl1 AX U).
Proof. intros Hl Hm Hr Hw. apply y_equal; [lra|exact I|]. apply joint_y; assumption. Qed.
Theorem C37_projl1_y gamma rho AX U : 0 <= gamma -> 0 < rho ->
  argmin (l1ball_cols Nc Nm gamma) (fun y => auglag n (fun _ => AX) eq_B eq_c rho (fun _ => 0) (fun _ => 0) AX y U) (projl1_ystep Nc Nm false gamma AX U).
Proof. intros Hg Hr. destruct (projl1_y Nc Nm gamma rho AX U HC HN Hg Hr) as [H1 H2]. apply y_equal; [lra|exact H1|exact H2]. Qed.
Theorem C37_minl1_y nonneg rho wl1 epsilon AX U : 0 < rho -> 0 <= epsilon -> (forall i, (i < n)%nat -> 0 <= wl1 i) ->
  argmin (fun y => nonneg_set nonneg n (block_sep0 y) /\ l2ball_cols Nr Nm S epsilon (block_sep1 n y))
    (fun y => auglag (n + Nr * Nm) (fun _ => AX) tb_B (block_cat n (fun _ => 0) (fun _ => 0)) rho (fun _ => 0) (fun y => l1reg n 1 wl1 (block_sep0 y)) AX y U)
    (minl1_ystep Nr Nc Nm S nonneg rho wl1 epsilon AX U).
Proof. intros Hr He Hw. exact (ml_y Nr Nc Nm S HN nonneg rho wl1 epsilon AX U Hr He Hw). Qed.

(** *** C36 and C38: the iterations of the sparse coding classes. *)
Section runs.
Variables (rlx rho : R).
Hypothesis Hrho : 0 < rho.
Definition stationary (st st' : state) : Prop := (forall i, (i < n)%nat -> sY st' i = sY st i) /\ (forall i, (i < n)%nat -> sU st' i = sU st i).
Definition mu_arg (mu : R) := sc_f n (Nr * Nm) (mm Nc Nm D) S mu.
Lemma argmin_f0 (E : vec -> Prop) g p : argmin E (fun x => sc_f n (Nr * Nm) (mm Nc Nm D) S 0 x + g x) p <-> argmin E (fun x => f x + g x) p.
Proof. split; intros [H1 H2]; (split; [exact H1|]); intros x Hx; specialize (H2 x Hx); cbv beta in *; rewrite ?sc_f0 in *; exact H2. Qed.
Lemma mm_loc : forall x y, (forall i, (i < n)%nat -> x i = y i) -> forall p, (p < Nr * Nm)%nat -> mm Nc Nm D x p = mm Nc Nm D y p.
Proof. intros x y H p _. apply mm_local; [exact HN|exact H]. Qed.

Theorem C36_bpdn nonneg lmbda wl1 st : 0 <= lmbda -> (forall i, (i < n)%nat -> 0 <= wl1 i) -> rlx <> 0 ->
  let st' := iteration eq_A eq_B eq_c rlx (bpdn_xstep Nr Nm solve D S rho) (bpdn_ystep nonneg lmbda rho wl1) st in
  stationary st st' ->
  (forall i, (i < n)%nat -> sX st' i = sY st' i) /\ argmin (nonneg_set nonneg n) (fun x => f x + l1reg n lmbda wl1 x) (sY st').
Proof.
  intros Hl Hw Hr st' [H1 H2].
  destruct (sc_stationary n (Nr * Nm) (mm Nc Nm D) (mm Nr Nm (tr D)) S 0 (mm_linear Nc Nm D) (mm_adjoint Nr Nc Nm D HN) mm_loc (nonneg_set nonneg n) (l1reg n lmbda wl1) rlx rho
    _ (bpdn_ystep nonneg lmbda rho wl1) ltac:(lra) Hrho (l1reg_convex _ n lmbda wl1 Hl (nonneg_convex nonneg n)) (fun Y U => bpdn_X rho Y U Hrho) (fun ax u => bpdn_y n nonneg lmbda rho wl1 ax u Hl Hrho Hw) st Hr H1 H2) as [P1 P2].
  split; [exact P1|]. apply argmin_f0. exact P2.
Qed.
Theorem C36_enet nonneg lmbda mu wl1 st : 0 <= lmbda -> 0 <= mu -> (forall i, (i < n)%nat -> 0 <= wl1 i) -> rlx <> 0 ->
  let st' := iteration eq_A eq_B eq_c rlx (enet_xstep Nr Nm solve D S mu rho) (bpdn_ystep nonneg lmbda rho wl1) st in
  stationary st st' ->
  (forall i, (i < n)%nat -> sX st' i = sY st' i) /\ argmin (nonneg_set nonneg n) (fun x => f x + ridge n mu x + l1reg n lmbda wl1 x) (sY st').
Proof.
  intros Hl Hm Hw Hr st' [H1 H2].
  exact (sc_stationary n (Nr * Nm) (mm Nc Nm D) (mm Nr Nm (tr D)) S mu (mm_linear Nc Nm D) (mm_adjoint Nr Nc Nm D HN) mm_loc (nonneg_set nonneg n) (l1reg n lmbda wl1) rlx rho
    _ (bpdn_ystep nonneg lmbda rho wl1) Hm Hrho (l1reg_convex _ n lmbda wl1 Hl (nonneg_convex nonneg n)) (fun Y U => enet_X mu rho Y U Hm Hrho) (fun ax u => bpdn_y n nonneg lmbda rho wl1 ax u Hl Hrho Hw) st Hr H1 H2).
Qed.
Theorem C36_joint lmbda mu wl1 st : 0 <= lmbda -> 0 <= mu -> (forall i, (i < n)%nat -> 0 <= wl1 i) -> rlx <> 0 ->
  let st' := iteration eq_A eq_B eq_c rlx (bpdn_xstep Nr Nm solve D S rho) (joint_ystep Nm false lmbda mu rho wl1) st in
  stationary st st' ->
  (forall i, (i < n)%nat -> sX st' i = sY st' i) /\ argmin (fun _ => True) (fun x => f x + (l1reg n lmbda wl1 x + l21reg Nc Nm mu x)) (sY st').
Proof.
  intros Hl Hm Hw Hr st' [H1 H2].
  destruct (sc_stationary n (Nr * Nm) (mm Nc Nm D) (mm Nr Nm (tr D)) S 0 (mm_linear Nc Nm D) (mm_adjoint Nr Nc Nm D HN) mm_loc (fun _ => True) (fun y => l1reg n lmbda wl1 y + l21reg Nc Nm mu y) rlx rho
    _ (joint_ystep Nm false lmbda mu rho wl1) ltac:(lra) Hrho (plus_convex _ _ _ (l1reg_convex _ n lmbda wl1 Hl true_convex) (l21reg_convex _ Nc Nm mu Hm true_convex))
    (fun Y U => bpdn_X rho Y U Hrho) (fun ax u => conj I (joint_y Nc Nm lmbda mu rho wl1 ax u HN Hl Hm Hrho Hw)) st Hr H1 H2) as [P1 P2].
  split; [exact P1|]. destruct P2 as [_ P2]. split; [exact I|]. intros x _. specialize (P2 x I). cbv beta in P2. rewrite !sc_f0 in P2. exact P2.
Qed.
Lemma ball_convex gamma : convex_on (l1ball_cols Nc Nm gamma) (fun _ => 0).
Proof. intros x y t Hx Hy Ht. split; [apply l1ball_convex; assumption|lra]. Qed.
Theorem C36_projl1 gamma st : 0 <= gamma -> rlx <> 0 ->
  let st' := iteration eq_A eq_B eq_c rlx (bpdn_xstep Nr Nm solve D S rho) (projl1_ystep Nc Nm false gamma) st in
  stationary st st' ->
  (forall i, (i < n)%nat -> sX st' i = sY st' i) /\ argmin (l1ball_cols Nc Nm gamma) f (sY st').
Proof.
  intros Hg Hr st' [H1 H2].
  destruct (sc_stationary n (Nr * Nm) (mm Nc Nm D) (mm Nr Nm (tr D)) S 0 (mm_linear Nc Nm D) (mm_adjoint Nr Nc Nm D HN) mm_loc (l1ball_cols Nc Nm gamma) (fun _ => 0) rlx rho
    _ (projl1_ystep Nc Nm false gamma) ltac:(lra) Hrho (ball_convex gamma) (fun Y U => bpdn_X rho Y U Hrho) (fun ax u => projl1_y Nc Nm gamma rho ax u HC HN Hg Hrho) st Hr H1 H2) as [P1 P2].
  split; [exact P1|]. destruct P2 as [P2 P3]. split; [exact P2|]. intros x Hx. specialize (P3 x Hx). cbv beta in P3. rewrite !sc_f0 in P3. fold st' in P3. lra.
Qed.
Theorem C36_minl1 nonneg wl1 epsilon st : 0 <= epsilon -> (forall i, (i < n)%nat -> 0 <= wl1 i) -> rlx <> 0 ->
  let st' := iteration (tb_A n (fun x => x) (mm Nc Nm D)) tb_B (block_cat n (fun _ => 0) (fun _ => 0)) rlx (minl1_xstep Nr Nc Nm solve D) (minl1_ystep Nr Nc Nm S nonneg rho wl1 epsilon) st in
  (forall i, (i < n + Nr * Nm)%nat -> sY st' i = sY st i) -> (forall i, (i < n + Nr * Nm)%nat -> sU st' i = sU st i) ->
  argmin (fun x => nonneg_set nonneg n x /\ l2ball_cols Nr Nm S epsilon (mm Nc Nm D x)) (l1reg n 1 wl1) (sX st').
Proof.
  intros He Hw Hr st' H1 H2.
  assert (HB : affine (n + Nr * Nm) tb_B) by (intros x y t i _; unfold tb_B, seg; ring).
  assert (C0 : convex_on (fun _ => True) (fun _ : vec => 0)) by (intros x y t _ _ Ht; split; [exact I|lra]).
  destruct (C36_stationary_optimal (n + Nr * Nm) (tb_A n (fun x => x) (mm Nc Nm D)) tb_B (block_cat n (fun _ => 0) (fun _ => 0)) rlx rho (fun _ => True) (ml_E Nr Nc Nm S nonneg epsilon)
    (fun _ => 0) (ml_g Nc Nm wl1) (minl1_xstep Nr Nc Nm solve D) (minl1_ystep Nr Nc Nm S nonneg rho wl1 epsilon)
    (linear_affine _ _ (ml_linear Nc Nm D)) HB C0 (ml_convex Nr Nc Nm S nonneg epsilon wl1) Hrho
    (fun Y U => C37_minl1_x rho _ Y U Hrho) (fun ax u => C37_minl1_y nonneg rho wl1 epsilon ax u Hrho He Hw) st Hr) as [[(_ & [E1 E2] & G) H] _].
  - intros i Hi. unfold tb_B. f_equal. apply H1. exact Hi.
  - exact H2.
  - assert (Z : forall i, block_cat n (fun _ => 0) (fun _ => 0) i = 0) by (intros i; unfold block_cat; destruct (Nat.ltb i n); reflexivity).
    assert (X0 : forall i, (i < n)%nat -> sX st' i = block_sep0 (sY st') i).
    { intros i Hi. assert (G' : block_cat n (sX st') (mm Nc Nm D (sX st')) i + - sY st' i - block_cat n (fun _ => 0) (fun _ => 0) i = 0) by exact (G i ltac:(lia)).
      rewrite Z in G'. unfold block_cat in G'. destruct (Nat.ltb_spec i n); [|lia]. unfold block_sep0. lra. }
    assert (X1 : forall i, (i < Nr * Nm)%nat -> mm Nc Nm D (sX st') i = block_sep1 n (sY st') i).
    { intros i Hi. assert (G' : block_cat n (sX st') (mm Nc Nm D (sX st')) (n + i)%nat + - sY st' (n + i)%nat - block_cat n (fun _ => 0) (fun _ => 0) (n + i)%nat = 0) by exact (G (n + i)%nat ltac:(lia)).
      rewrite Z in G'. unfold block_cat in G'. destruct (Nat.ltb_spec (n + i) n); [lia|]. replace (n + i - n)%nat with i in G' by lia. unfold block_sep1. lra. }
    split; [split|].
    + intros e i Hi. rewrite (X0 i Hi). apply E1; assumption.
    + intros k Hk. rewrite (nrm_ext Nr _ (fun i => col Nm k (block_sep1 n (sY st')) i - col Nm k S i)); [apply (E2 k Hk)|].
      intros i Hi. unfold col. rewrite X1 by nia. reflexivity.
    + intros x [Fx1 Fx2]. specialize (H x (block_cat n x (mm Nc Nm D x))).
      assert (F : feasible (n + Nr * Nm) (tb_A n (fun x => x) (mm Nc Nm D)) tb_B (block_cat n (fun _ => 0) (fun _ => 0)) (fun _ => True) (ml_E Nr Nc Nm S nonneg epsilon) x (block_cat n x (mm Nc Nm D x))).
      { split; [exact I|]. split; [split|].
        - intros e i Hi. unfold block_sep0, block_cat. destruct (Nat.ltb_spec i n) as [|Q]; [apply Fx1; assumption|unfold n in Q; lia].
        - intros k Hk. rewrite (nrm_ext Nr _ (fun i => col Nm k (mm Nc Nm D x) i - col Nm k S i)); [apply (Fx2 k Hk)|].
          intros i Hi. unfold col, block_sep1, block_cat. change (minl1_b Nc Nm) with n. destruct (Nat.ltb_spec (n + (i * Nm + k)) n); [lia|].
          replace (n + (i * Nm + k) - n)%nat with (i * Nm + k)%nat by lia. reflexivity.
        - intros i Hi. unfold gap, tb_A, tb_B. rewrite Z. ring. }
      specialize (H F). cbv beta in H. unfold ml_g in H.
      assert (L0 : l1reg n 1 wl1 (sX st') = l1reg (Nc * Nm) 1 wl1 (block_sep0 (sY st'))).
      { unfold l1reg. f_equal. apply sumn_ext. intros i Hi. rewrite (X0 i Hi). reflexivity. }
      assert (L1 : l1reg n 1 wl1 x = l1reg (Nc * Nm) 1 wl1 (block_sep0 (block_cat n x (mm Nc Nm D x)))).
      { unfold l1reg. f_equal. apply sumn_ext. intros i Hi. unfold block_sep0, block_cat. destruct (Nat.ltb_spec i n); [reflexivity|unfold n in *; lia]. }
      rewrite L0, L1. fold st' in H. lra.
Qed.
(** From any start, for a fixed penalty parameter and relaxation below 2: the gap between X and Y, the change of Y and the
    distance of the objective from its minimum tend to zero. *)
Theorem C38_bpdn nonneg lmbda wl1 st p : 0 <= lmbda -> (forall i, (i < n)%nat -> 0 <= wl1 i) -> 0 < rlx < 2 ->
  argmin (nonneg_set nonneg n) (fun x => f x + l1reg n lmbda wl1 x) p ->
  let s k := iterate eq_A eq_B eq_c rlx (bpdn_xstep Nr Nm solve D S rho) (bpdn_ystep nonneg lmbda rho wl1) k st in
  Un_cv (fun k => nrm n (fun i => sX (s k) i - sY (s k) i)) 0 /\
  Un_cv (fun k => nrm n (fun i => rho * (sY (s (Datatypes.S k)) i - sY (s k) i))) 0 /\
  Un_cv (fun k => f (sX (s k)) + l1reg n lmbda wl1 (sY (s k))) (f p + l1reg n lmbda wl1 p).
Proof.
  intros Hl Hw Hr Hp s.
  assert (Hp0 : argmin (nonneg_set nonneg n) (fun x => sc_f n (Nr * Nm) (mm Nc Nm D) S 0 x + l1reg n lmbda wl1 x) p) by (apply argmin_f0; exact Hp).
  destruct (sc_convergence n (Nr * Nm) (mm Nc Nm D) (mm Nr Nm (tr D)) S 0 (mm_linear Nc Nm D) (mm_adjoint Nr Nc Nm D HN) (nonneg_set nonneg n) (l1reg n lmbda wl1) rlx rho
    _ (bpdn_ystep nonneg lmbda rho wl1) ltac:(lra) Hrho (l1reg_convex _ n lmbda wl1 Hl (nonneg_convex nonneg n)) (fun Y U => bpdn_X rho Y U Hrho) (fun ax u => bpdn_y n nonneg lmbda rho wl1 ax u Hl Hrho Hw) st p Hr Hp0) as (P1 & P2 & P3).
  split; [exact P1|]. split; [exact P2|]. rewrite !sc_f0 in P3. revert P3. apply cv_ext. intros k. rewrite sc_f0. reflexivity.
Qed.
(** The objective at Y, the array that solve returns, tends to the minimum; likewise for the elastic net. *)
Theorem C38_bpdn_returned nonneg lmbda wl1 st p : 0 <= lmbda -> (forall i, (i < n)%nat -> 0 <= wl1 i) -> 0 < rlx < 2 ->
  argmin (nonneg_set nonneg n) (fun x => f x + l1reg n lmbda wl1 x) p ->
  let s k := iterate eq_A eq_B eq_c rlx (bpdn_xstep Nr Nm solve D S rho) (bpdn_ystep nonneg lmbda rho wl1) k st in
  Un_cv (fun k => f (sY (s k)) + l1reg n lmbda wl1 (sY (s k))) (f p + l1reg n lmbda wl1 p).
Proof.
  intros Hl Hw Hr Hp s.
  assert (Hp0 : argmin (nonneg_set nonneg n) (fun x => sc_f n (Nr * Nm) (mm Nc Nm D) S 0 x + l1reg n lmbda wl1 x) p) by (apply argmin_f0; exact Hp).
  pose proof (sc_objective_Y n (Nr * Nm) (mm Nc Nm D) (mm Nr Nm (tr D)) S 0 (mm_linear Nc Nm D) (mm_adjoint Nr Nc Nm D HN) mm_loc (nonneg_set nonneg n) (l1reg n lmbda wl1) rlx rho
    _ (bpdn_ystep nonneg lmbda rho wl1) ltac:(lra) Hrho (l1reg_convex _ n lmbda wl1 Hl (nonneg_convex nonneg n))
    (run_X n (Nr * Nm) (mm Nc Nm D) (mm Nr Nm (tr D)) S 0 (mm_linear Nc Nm D) (mm_adjoint Nr Nc Nm D HN) (l1reg n lmbda wl1) rho (bpdn_xstep Nr Nm solve D S rho) ltac:(lra) Hrho (fun Y U => bpdn_X rho Y U Hrho))
    (fun ax u => bpdn_y n nonneg lmbda rho wl1 ax u Hl Hrho Hw) st p Hr Hp0) as P. cbv zeta in P.
  rewrite sc_f0 in P. revert P. apply cv_ext. intros k. rewrite sc_f0. reflexivity.
Qed.
Theorem C38_enet_returned nonneg lmbda mu wl1 st p : 0 <= lmbda -> 0 <= mu -> (forall i, (i < n)%nat -> 0 <= wl1 i) -> 0 < rlx < 2 ->
  argmin (nonneg_set nonneg n) (fun x => f x + ridge n mu x + l1reg n lmbda wl1 x) p ->
  let s k := iterate eq_A eq_B eq_c rlx (enet_xstep Nr Nm solve D S mu rho) (bpdn_ystep nonneg lmbda rho wl1) k st in
  Un_cv (fun k => f (sY (s k)) + ridge n mu (sY (s k)) + l1reg n lmbda wl1 (sY (s k))) (f p + ridge n mu p + l1reg n lmbda wl1 p).
Proof.
  intros Hl Hm Hw Hr Hp s.
  exact (sc_objective_Y n (Nr * Nm) (mm Nc Nm D) (mm Nr Nm (tr D)) S mu (mm_linear Nc Nm D) (mm_adjoint Nr Nc Nm D HN) mm_loc (nonneg_set nonneg n) (l1reg n lmbda wl1) rlx rho
    _ (bpdn_ystep nonneg lmbda rho wl1) Hm Hrho (l1reg_convex _ n lmbda wl1 Hl (nonneg_convex nonneg n))
    (run_X n (Nr * Nm) (mm Nc Nm D) (mm Nr Nm (tr D)) S mu (mm_linear Nc Nm D) (mm_adjoint Nr Nc Nm D HN) (l1reg n lmbda wl1) rho (enet_xstep Nr Nm solve D S mu rho) Hm Hrho (fun Y U => enet_X mu rho Y U Hm Hrho))
    (fun ax u => bpdn_y n nonneg lmbda rho wl1 ax u Hl Hrho Hw) st p Hr Hp).
Qed.
End runs.
End bpdn.

(** *** Non-negativity by clipping is not the minimiser for the other two y steps. *)
Theorem C37_joint_nonneg_refuted : exists Nc Nm lmbda mu rho wl1 AX U y, (0 < Nm)%nat /\ 0 <= lmbda /\ 0 <= mu /\ 0 < rho /\ (forall i, 0 <= wl1 i) /\
  let g := fun y => l1reg (Nc * Nm) lmbda wl1 y + l21reg Nc Nm mu y in
  let F := fun y => auglag (Nc * Nm) (fun _ => AX) eq_B eq_c rho (fun _ => 0) g AX y U in
  nonneg_set true (Nc * Nm) y /\ F y < F (joint_ystep Nm true lmbda mu rho wl1 AX U).
Proof.
  exists 1%nat, 2%nat, 0, 1, 1, (fun _ => 1), (fun i => match i with O => 3 | _ => -4 end), (fun _ => 0), (fun i => match i with O => 2 | _ => 0 end).
  split; [lia|]. split; [lra|]. split; [lra|]. split; [lra|]. split; [intros; lra|]. cbv zeta.
  set (P := joint_ystep 2 true 0 1 1 (fun _ => 1) (fun i => match i with O => 3 | _ => -4 end) (fun _ => 0)).
  assert (Q : forall v, prox_l1 v (fun p => 0 / 1 * 1) 0%nat = v 0%nat /\ prox_l1 v (fun p => 0 / 1 * 1) 1%nat = v 1%nat).
  { intros v. assert (K : forall i, prox_l1 v (fun p => 0 / 1 * 1) i = v i).
    { intros i. unfold prox_l1. pose proof (Rabs_pos (v i)). rewrite Rmax_left by lra. replace (Rabs (v i) - 0 / 1 * 1) with (Rabs (v i)) by lra. apply sgn_abs. }
    split; apply K. }
  assert (E : P 0%nat = 12 / 5 /\ P 1%nat = 0).
  { unfold P, joint_ystep, clip, rows, prox_l2, norm_l2, norm_2l2. simpl Nat.div. simpl Nat.modulo. cbn [Nat.mul Nat.add sumn].
    set (v := fun p : nat => match p with O => 3 | _ => -4 end + 0). destruct (Q v) as [Q0 Q1]. rewrite !Q0, !Q1. unfold v.
    replace (0 + (3 + 0) ^ 2 + (-4 + 0) ^ 2) with (5 * 5) by ring. rewrite sqrt_square by lra.
    assert (M : Rmax 0 (5 - 1 / 1) = 4) by (rewrite Rmax_right; lra). rewrite M.
    unfold zdivide. assert (Z : eqb 5 0 = false) by (apply eqb_false; lra). rewrite Z. cbn [andb].
    assert (T1 : ltb (4 / 5 * (3 + 0)) 0 = false) by (apply ltb_false; lra). assert (T2 : ltb (4 / 5 * (-4 + 0)) 0 = true) by (apply ltb_true; lra).
    rewrite T1, T2. split; lra. }
  destruct E as [E0 E1]. split.
  - intros _ [|[|i]] Hi; simpl in Hi; try lia; lra.
  - unfold auglag, l1reg, l21reg, nrm, nrm2, dot, eq_B, eq_c, row. cbn [Nat.mul Nat.add sumn]. rewrite E0, E1.
    replace (0 + 2 * 2 + 0 * 0) with (2 * 2) by ring. replace (0 + 12 / 5 * (12 / 5) + 0 * 0) with ((12 / 5) * (12 / 5)) by ring. rewrite !sqrt_square by lra. lra.
Qed.
Theorem C37_projl1_nonneg_refuted : exists Nc Nm gamma rho AX U y, (0 < Nc)%nat /\ (0 < Nm)%nat /\ 0 <= gamma /\ 0 < rho /\
  let F := fun y => auglag (Nc * Nm) (fun _ => AX) eq_B eq_c rho (fun _ => 0) (fun _ => 0) AX y U in
  l1ball_cols Nc Nm gamma y /\ nonneg_set true (Nc * Nm) y /\ F y < F (projl1_ystep Nc Nm true gamma AX U).
Proof.
  exists 2%nat, 1%nat, 2, 1, (fun i => match i with O => 2 | _ => -2 end), (fun _ => 0), (fun i => match i with O => 2 | _ => 0 end).
  split; [lia|]. split; [lia|]. split; [lra|]. split; [lra|]. cbv zeta. split; [|split].
  - intros [|k] Hk; [|lia]. unfold nrm1, col. cbn [sumn Nat.mul Nat.add]. rewrite Rabs_R0, Rabs_pos_eq by lra. lra.
  - intros _ [|[|i]] Hi; simpl in Hi; try lia; lra.
  - set (P := projl1_ystep 2 1 true 2 (fun i => match i with O => 2 | _ => -2 end) (fun _ => 0)).
    (* the clipped projection still lies in the l1 ball after adding the discarded part, so its first component is below 2 *)
    set (v := fun i : nat => match i with O => 2 | _ => -2 end + 0).
    destruct (L1ProjProofs.sortsum_ok false 2 (col 1 0 v) 2 ltac:(lia) ltac:(lra)) as [Nn _].
    set (q := proj_l1_sortsum false 2 (col 1 0 v) 2) in *.
    assert (Cx : forall x y t, nrm1 2 x <= 2 -> nrm1 2 y <= 2 -> 0 <= t <= 1 -> nrm1 2 (seg x y t) <= 2).
    { intros x y t Hx Hy Ht. apply Rle_trans with (nrm1 2 x + t * (nrm1 2 y - nrm1 2 x)); [|nra].
      unfold nrm1. rewrite <- sumn_minus, <- sumn_scal, <- sumn_plus. apply sumn_le. intros i _. apply abs_convex. exact Ht. }
    destruct (nearest_vi 2 _ _ _ Cx Nn) as [Q1 Q2].
    specialize (Q2 (fun i => match i with O => 1 | _ => -1 end)).
    assert (Q3 : nrm1 2 (fun i => match i with O => 1 | _ => -1 end) <= 2).
    { unfold nrm1. cbn [sumn]. rewrite Rabs_R1. replace (Rabs (-1)) with 1 by (rewrite Rabs_left; lra). lra. }
    specialize (Q2 Q3). unfold dot, col, v in Q2. cbn [sumn Nat.mul Nat.add] in Q2. unfold nrm1 in Q1. cbn [sumn] in Q1.
    assert (A1 : q 0%nat = 1 /\ q 1%nat = -1).
    { pose proof (Rle_abs (q 0%nat)). pose proof (Rle_abs (- q 1%nat)). rewrite Rabs_Ropp in *.
      assert (S1 : q 0%nat - q 1%nat <= 2) by lra.
      pose proof (Rle_0_sqr (q 0%nat - 1)) as R1. pose proof (Rle_0_sqr (q 1%nat + 1)) as R2. unfold Rsqr in *. split; nra. }
    destruct A1 as [A0 A1].
    assert (E : P 0%nat = 1 /\ P 1%nat = 0).
    { unfold P, projl1_ystep, clip. cbn [andb].
      assert (c0 : cols 1 (fun v => proj_l1_sortsum false 2 v 2) (fun p => match p with O => 2 | _ => -2 end + 0) 0%nat = q 0%nat) by exact (cols_at 1 (fun v => proj_l1_sortsum false 2 v 2) v 0 0 ltac:(lia)).
      assert (c1 : cols 1 (fun v => proj_l1_sortsum false 2 v 2) (fun p => match p with O => 2 | _ => -2 end + 0) 1%nat = q 1%nat) by exact (cols_at 1 (fun v => proj_l1_sortsum false 2 v 2) v 1 0 ltac:(lia)).
      rewrite c0, c1, A0, A1. assert (T1 : ltb 1 0 = false) by (apply ltb_false; lra). assert (T2 : ltb (-1) 0 = true) by (apply ltb_true; lra). rewrite T1, T2. split; reflexivity. }
    destruct E as [E0 E1]. unfold auglag, nrm2, dot, eq_B, eq_c. cbn [sumn Nat.mul Nat.add]. rewrite E0, E1. lra.
Qed.

(** ** RobustPCA *)
Section rpca.
Variable svd : mat -> mat * (nat -> R) * mat.
Variables (M N : nat) (S : vec).
Hypothesis HN : (0 < N)%nat.
Hypothesis Hsvd : forall X, is_svd M N X (svd X).
Theorem C37_rpca_x rho g Y U : 0 < rho ->
  argmin (fun _ => True) (fun x => auglag (M * N) rpca_id rpca_id S rho (fun x => norm_nuclear svd M N (unvec N x)) g x Y U) (rpca_xstep svd M N S rho Y U).
Proof. exact (rpca_x svd M N S HN Hsvd rho g Y U). Qed.
Theorem C37_rpca_y lmbda rho AX U : 0 <= lmbda -> 0 < rho ->
  argmin (fun _ => True) (fun y => auglag (M * N) (fun _ => AX) rpca_id S rho (fun _ => 0) (l1reg (M * N) lmbda (fun _ => 1)) AX y U) (rpca_ystep S lmbda rho AX U).
Proof. exact (rpca_y M N S lmbda rho AX U). Qed.
Lemma id_affine k : affine k rpca_id. Proof. intros x y t i _. reflexivity. Qed.
Theorem C36_rpca lmbda rho rlx st : 0 <= lmbda -> 0 < rho -> rlx <> 0 ->
  let st' := iteration rpca_id rpca_id S rlx (rpca_xstep svd M N S rho) (rpca_ystep S lmbda rho) st in
  (forall i, (i < M * N)%nat -> sY st' i = sY st i) -> (forall i, (i < M * N)%nat -> sU st' i = sU st i) ->
  (forall i, (i < M * N)%nat -> sX st' i + sY st' i = S i) /\
  forall x vx v', is_nuclear M N (unvec N x) vx -> is_nuclear M N (unvec N (sX st')) v' ->
    v' + l1reg (M * N) lmbda (fun _ => 1) (sY st') <= vx + l1reg (M * N) lmbda (fun _ => 1) (fun i => S i - x i).
Proof.
  intros Hl Hr Hx st' H1 H2.
  destruct (C36_stationary_optimal (M * N) rpca_id rpca_id S rlx rho (fun _ => True) (fun _ => True) (nuc svd M N) (l1reg (M * N) lmbda (fun _ => 1))
    (rpca_xstep svd M N S rho) (rpca_ystep S lmbda rho) (id_affine _) (id_affine _) (nuc_convex svd M N Hsvd) (l1reg_convex _ _ _ _ Hl true_convex) Hr
    (fun Y U => C37_rpca_x rho _ Y U Hr) (fun ax u => C37_rpca_y lmbda rho ax u Hl Hr) st Hx H1 H2) as [[(_ & _ & G) H] _].
  split.
  - intros i Hi. assert (G' : sX st' i + sY st' i - S i = 0) by exact (G i Hi). lra.
  - intros x vx v' Hvx Hv'. rewrite (is_nuclear_fun M N _ _ _ Hvx (nuc_spec svd M N Hsvd x)), (is_nuclear_fun M N _ _ _ Hv' (nuc_spec svd M N Hsvd (sX st'))).
    apply H. split; [exact I|]. split; [exact I|]. intros i _. unfold gap, rpca_id. ring.
Qed.
End rpca.

(** ** CnstrMOD *)
Theorem C37_cmod_x Nc Nm Ns solve Z S rho g Y U : (0 < Nm)%nat -> (0 < Ns)%nat -> AATI_contract Nc Nm Ns solve -> 0 < rho ->
  argmin (fun _ => True) (fun x => auglag (Nc * Nm) eq_A eq_B eq_c rho (lsq (Nc * Ns) (fun X => mmr Nm Ns X Z) S) g x Y U) (cmod_xstep Nm Ns solve Z S rho Y U).
Proof.
  intros H1 H2 Hs Hr.
  pose proof (sc_x (Nc * Nm) (Nc * Ns) (fun X => mmr Nm Ns X Z) (fun Y => mmr Ns Nm Y (tr Z)) S 0 (mmr_linear Nm Ns Z) (mmr_adjoint Nc Nm Ns Z H1 H2) rho g Y U (cmod_xstep Nm Ns solve Z S rho Y U) ltac:(lra) Hr) as [_ H].
  - intros i Hi. rewrite Rplus_0_l. pose proof (Hs Z rho (fun p => mmr Ns Nm S (tr Z) p + rho * (Y p - U p)) i Hr Hi) as Q. exact Q.
  - split; [exact I|]. intros x _. specialize (H x I). unfold auglag, sc_f, ridge in *. lra.
Qed.
Theorem C37_cmod_y Nc Nm zm rho AX U : (0 < Nc)%nat -> (0 < Nm)%nat -> 0 <= rho ->
  (forall k, (k < Nm)%nat -> nrm Nc (if (zm : bool) then zeromean Nc (col Nm k (fun i => AX i + U i)) else col Nm k (fun i => AX i + U i)) <> 0) ->
  argmin (unit_cols Nc Nm zm) (fun y => auglag (Nc * Nm) (fun _ => AX) eq_B eq_c rho (fun _ => 0) (fun _ => 0) AX y U) (cmod_ystep Nc Nm zm AX U).
Proof. apply cmod_y. Qed.
(** A zero column (a constant one with ZeroMean) stays zero: the constraint is violated. *)
Theorem C37_cmod_zero_column_refuted : exists Nc Nm AX U, (0 < Nc)%nat /\ (0 < Nm)%nat /\
  ~ unit_cols Nc Nm false (cmod_ystep Nc Nm false AX U) /\ exists AX', ~ unit_cols Nc Nm true (cmod_ystep Nc Nm true AX' U).
Proof.
  exists 2%nat, 1%nat, (fun _ => 0), (fun _ => 0). split; [lia|]. split; [lia|].
  assert (N0 : forall v, (forall i, v i = 0) -> forall i, normalise 2 v i = 0) by (intros v Hv i; unfold normalise; rewrite Hv; unfold Rdiv; ring).
  split.
  - intros H. destruct (H 0%nat ltac:(lia)) as [H1 _]. rewrite (nrm_ext 2 _ (fun _ => 0)) in H1.
    + rewrite nrm_zero in H1. lra.
    + intros i Hi. unfold col, cmod_ystep, cmod_pcn. rewrite cols_at by lia. apply N0. intros j. unfold col. ring.
  - exists (fun _ => 1). intros H. destruct (H 0%nat ltac:(lia)) as [H1 _]. rewrite (nrm_ext 2 _ (fun _ => 0)) in H1.
    + rewrite nrm_zero in H1. lra.
    + intros i Hi. unfold col, cmod_ystep, cmod_pcn. rewrite cols_at by lia. apply N0. intros j. unfold zeromean, col. simpl. field.
Qed.

(** ** Consensus: the y step, and stationary points *)
Section consensus.
Variables (nb n : nat) (rho : R) (alpha : vec) (E : vec -> Prop) (g : vec -> R) (prox_g : vec -> R -> vec).
Hypothesis Hrho : 0 < rho.
Hypothesis Hnb : (0 < nb)%nat.
Hypothesis Halpha : forall j, (j < nb)%nat -> 0 < alpha j.
Hypothesis Cg : convex_on E g.
(** Contract of the method prox_g of the derived class. *)
Hypothesis Hprox : forall v r, 0 < r -> argmin E (fun y => g y + r / 2 * nrm2 n (fun i => y i - v i)) (prox_g v r).
Lemma alpha_sum : 0 < sumn nb alpha.
Proof.
  apply Rlt_le_trans with (alpha 0%nat); [apply Halpha; exact Hnb|]. apply sumn_ge_term; [|exact Hnb]. intros j Hj. apply Rlt_le, Halpha, Hj.
Qed.
(** The y step minimises the augmented Lagrangian of all the blocks together. *)
Theorem C37_weighted_y AX U :
  argmin E (fun y => g y + rho / 2 * sumn nb (fun j => nrm2 n (fun i => sqrt (alpha j) * (AX j i - y i + U j i)))) (wc_ystep nb rho alpha prox_g AX U).
Proof.
  pose proof alpha_sum as Ha. set (a := sumn nb alpha) in *. set (v := fun i => sumn nb (fun j => alpha j * (AX j i + U j i)) / a).
  destruct (Hprox v (a * rho) ltac:(nra)) as [H1 H2]. split; [exact H1|]. intros y Hy. specialize (H2 y Hy). cbv beta in H2.
  change (prox_g v (a * rho)) with (wc_ystep nb rho alpha prox_g AX U) in H2. set (p := wc_ystep nb rho alpha prox_g AX U) in *.
  assert (Q : forall z : vec, sumn nb (fun j => nrm2 n (fun i => sqrt (alpha j) * (AX j i - z i + U j i))) =
     a * nrm2 n (fun i => z i - v i) + (sumn n (fun i => sumn nb (fun j => alpha j * ((AX j i + U j i) * (AX j i + U j i))) - a * (v i * v i)))).
  { intros z. unfold nrm2, dot. rewrite sumn_swap, <- sumn_scal, <- sumn_plus. apply sumn_ext. intros i Hi.
    rewrite (sumn_ext nb _ (fun j => alpha j * ((AX j i + U j i) * (AX j i + U j i)) + (alpha j * (AX j i + U j i)) * (-2 * z i) + alpha j * (z i * z i))).
    - rewrite !sumn_plus, !sumn_scal_r. fold a. assert (V : sumn nb (fun j => alpha j * (AX j i + U j i)) = a * v i) by (unfold v; field; lra). rewrite V. ring.
    - intros j Hj. pose proof (sqrt_sqrt (alpha j) ltac:(apply Rlt_le, Halpha, Hj)) as Sq.
      replace (sqrt (alpha j) * (AX j i - z i + U j i) * (sqrt (alpha j) * (AX j i - z i + U j i))) with (sqrt (alpha j) * sqrt (alpha j) * ((AX j i - z i + U j i) * (AX j i - z i + U j i))) by ring.
      rewrite Sq. ring. }
  rewrite !Q. lra.
Qed.
(** A stationary iteration of the weighted consensus algorithm is optimal for  sum_j f_j(y) + g(y). *)
Variables (rlx : R) (f : nat -> vec -> R) (D : nat -> vec -> Prop) (xi : nat -> vec -> vec -> vec).
Hypothesis Hf : forall j, (j < nb)%nat -> convex_on (D j) (f j).
Hypothesis Hx : forall j y u, (j < nb)%nat -> argmin (D j) (fun x => f j x + (alpha j * rho) / 2 * nrm2 n (fun i => x i - y i + u i)) (xi j y u).
Theorem C36_weighted (Y : vec) (U : mvec) : rlx <> 0 ->
  let X' := fun j => xi j Y (U j) in let AX := cn_relax_AX rlx X' Y in
  let Y' := wc_ystep nb rho alpha prox_g AX U in let U' := wc_ustep AX Y' U in
  (forall i, (i < n)%nat -> Y' i = Y i) -> (forall j i, (j < nb)%nat -> (i < n)%nat -> U' j i = U j i) ->
  (forall j i, (j < nb)%nat -> (i < n)%nat -> X' j i = Y' i) /\ E Y' /\
  forall x y, E y -> (forall j, (j < nb)%nat -> D j (x j)) -> (forall j i, (j < nb)%nat -> (i < n)%nat -> x j i = y i) ->
    sumn nb (fun j => f j (X' j)) + g Y' <= sumn nb (fun j => f j (x j)) + g y.
Proof.
  intros Hr X' AX Y' U' H1 H2.
  assert (EA : forall j i, AX j i = rlx * X' j i + (1 - rlx) * Y i).
  { intros j i. unfold AX, cn_relax_AX. destruct (Req_EM_T rlx 1) as [->|]; [ring|reflexivity]. }
  assert (XY : forall j i, (j < nb)%nat -> (i < n)%nat -> X' j i = Y' i).
  { intros j i Hj Hi. specialize (H2 j i Hj Hi). unfold U', wc_ustep in H2. rewrite EA in H2. rewrite (H1 i Hi) in *.
    apply (Rmult_eq_reg_l rlx); [|exact Hr]. lra. }
  split; [exact XY|]. pose proof alpha_sum as Ha. set (a := sumn nb alpha) in *.
  set (v := fun i => sumn nb (fun j => alpha j * (AX j i + U j i)) / a).
  assert (Pa : 0 < a * rho) by nra. pose proof (Hprox v (a * rho) Pa) as Pm. change (prox_g v (a * rho)) with Y' in Pm. split; [apply Pm|].
  intros x y Ey Dx Hxy.
  assert (Af : affine n (fun z : vec => z)) by (intros p q t i _; reflexivity).
  pose proof (argmin_vi n E g (fun z : vec => z) (fun i => - v i) (a * rho) Y' Cg Af ltac:(lra) Pm y Ey) as V.
  assert (EV : forall i, (i < n)%nat -> a * (Y' i + - v i) = - sumn nb (fun j => alpha j * U j i)).
  { intros i Hi. assert (EVi : a * v i = a * Y' i + sumn nb (fun j => alpha j * U j i)).
    { unfold v. replace (a * (sumn nb (fun j => alpha j * (AX j i + U j i)) / a)) with (sumn nb (fun j => alpha j * (AX j i + U j i))) by (field; lra).
      unfold a. rewrite <- sumn_scal_r, <- sumn_plus. apply sumn_ext. intros j Hj. rewrite EA, (XY j i Hj Hi), (H1 i Hi). ring. }
    lra. }
  assert (F : forall j, (j < nb)%nat -> 0 <= f j (x j) - f j (X' j) + alpha j * rho * dot n (U j) (fun i => y i - Y' i)).
  { intros j Hj. assert (Am : argmin (D j) (fun x => f j x + (alpha j * rho) / 2 * nrm2 n (fun i => (fun z : vec => z) x i + (U j i - Y i))) (X' j)).
    { destruct (Hx j Y (U j) Hj) as [A1 A2]. split; [exact A1|]. intros z Hz. specialize (A2 z Hz). cbv beta in *.
      assert (Ez : forall w : vec, nrm2 n (fun i => w i + (U j i - Y i)) = nrm2 n (fun i => w i - Y i + U j i)) by (intros; apply nrm2_ext; intros; ring).
      rewrite !Ez. exact A2. }
    assert (Par : 0 <= alpha j * rho) by (specialize (Halpha j Hj); nra).
    pose proof (argmin_vi n (D j) (f j) (fun z : vec => z) (fun i => U j i - Y i) (alpha j * rho) (X' j) (Hf j Hj) Af Par Am (x j) (Dx j Hj)) as W. cbv beta in W.
    rewrite (dot_ext n _ _ (U j) (fun i => y i - Y' i)) in W; [exact W| |].
    - intros i Hi. rewrite (XY j i Hj Hi), (H1 i Hi). ring.
    - intros i Hi. rewrite (XY j i Hj Hi), (Hxy j i Hj Hi). reflexivity. }
  assert (Fs : 0 <= sumn nb (fun j => f j (x j) - f j (X' j) + alpha j * rho * dot n (U j) (fun i => y i - Y' i))) by (apply sumn_nonneg; exact F).
  rewrite sumn_plus, sumn_minus in Fs.
  assert (Z : sumn nb (fun j => alpha j * rho * dot n (U j) (fun i => y i - Y' i)) + a * rho * dot n (fun i => Y' i + - v i) (fun i => y i - Y' i) = 0).
  { assert (S1 : sumn nb (fun j => alpha j * rho * dot n (U j) (fun i => y i - Y' i)) = rho * sumn n (fun i => sumn nb (fun j => alpha j * U j i) * (y i - Y' i))).
    { unfold dot. rewrite <- sumn_scal. transitivity (sumn n (fun i => sumn nb (fun j => alpha j * rho * (U j i * (y i - Y' i))))).
      - rewrite sumn_swap. apply sumn_ext. intros j _. symmetry. apply sumn_scal.
      - apply sumn_ext. intros i _. rewrite <- sumn_scal_r, <- sumn_scal. apply sumn_ext. intros. ring. }
    assert (S2 : a * rho * dot n (fun i => Y' i + - v i) (fun i => y i - Y' i) = - (rho * sumn n (fun i => sumn nb (fun j => alpha j * U j i) * (y i - Y' i)))).
    { unfold dot. rewrite <- !sumn_scal, <- sumn_opp. apply sumn_ext. intros i Hi.
      replace (a * rho * ((Y' i + - v i) * (y i - Y' i))) with (rho * (a * (Y' i + - v i)) * (y i - Y' i)) by ring. rewrite (EV i Hi). ring. }
    rewrite S1, S2. ring. }
  cbv beta in V. lra.
Qed.
End consensus.
(** The unweighted class is the case of unit weights. *)
Theorem C37_consensus_is_weighted nb rho prox_g AX U : cn_ystep nb rho prox_g AX U = wc_ystep nb rho (fun _ => 1) prox_g AX U.
Proof.
  unfold cn_ystep, wc_ystep. rewrite sumn_const, Rmult_1_r. f_equal. extensionality i. f_equal. apply sumn_ext. intros. ring.
Qed.

(** ** C67: the initial dual variable chosen when Y0 is given. The criterion, (3.10) in Boyd et al., is
    0 in dg(Y) + rho B^T U; with B = -I it says that rho U is a subgradient of g at Y. *)
Lemma l1_subgradient n lmbda w y : 0 <= lmbda -> (forall i, (i < n)%nat -> 0 <= w i) ->
  subgradient n (fun _ => True) (l1reg n lmbda w) y (fun i => lmbda * (w i * sgn (y i))).
Proof.
  intros Hl Hw z _. unfold l1reg, dot. rewrite <- !sumn_scal, <- sumn_plus. apply sumn_le. intros i Hi. specialize (Hw i Hi).
  rewrite !Rabs_mult, (Rabs_pos_eq (w i)) by exact Hw.
  assert (K : Rabs (y i) + sgn (y i) * (z i - y i) <= Rabs (z i)).
  { rewrite abs_sgn. pose proof (Rle_abs (z i)). pose proof (Rle_abs (- z i)). rewrite Rabs_Ropp in *.
    destruct (Rtotal_order (y i) 0) as [Hy|[Hy|Hy]].
    - rewrite (sgn_neg _ Hy). lra.
    - rewrite Hy, sgn_0. pose proof (Rabs_pos (z i)). lra.
    - rewrite (sgn_pos _ Hy). lra. }
  apply (Rmult_le_compat_l (lmbda * w i)) in K; [|nra]. lra.
Qed.
Lemma subgradient_ext n (E : vec -> Prop) g y w w' : (forall i, (i < n)%nat -> w i = w' i) -> subgradient n E g y w -> subgradient n E g y w'.
Proof. intros H H1 z Hz. rewrite (dot_ext n w' (fun i => z i - y i) w (fun i => z i - y i)); [apply H1; exact Hz| |reflexivity]. intros i Hi. symmetry. apply H, Hi. Qed.
Lemma subgradient_restrict n (E E' : vec -> Prop) g y w : (forall z, E z -> E' z) -> subgradient n E' g y w -> subgradient n E g y w.
Proof. intros H H1 z Hz. apply H1, H, Hz. Qed.
Theorem C67_bpdn n nonneg lmbda rho Y : 0 <= lmbda -> 0 < rho ->
  subgradient n (nonneg_set nonneg n) (l1reg n lmbda (fun _ => 1)) Y (fun i => rho * bpdn_uinit lmbda rho Y i).
Proof.
  intros Hl Hr. apply (subgradient_restrict n _ (fun _ => True)); [trivial|]. apply (subgradient_ext n _ _ _ (fun i => lmbda * (1 * sgn (Y i)))).
  - intros i Hi. unfold bpdn_uinit. field. lra.
  - apply l1_subgradient; [exact Hl|intros; lra].
Qed.
Theorem C67_spline n wdf rho Y : 0 < rho -> (forall i, (i < n)%nat -> 0 <= wdf i) ->
  subgradient n (fun _ => True) (l1reg n 1 wdf) Y (fun i => rho * spline_uinit wdf rho Y i).
Proof.
  intros Hr Hw. apply (subgradient_ext n _ _ _ (fun i => 1 * (wdf i * sgn (Y i)))); [|apply l1_subgradient; [lra|exact Hw]].
  intros i Hi. unfold spline_uinit. field. lra.
Qed.
(** BPDNProjL1 and ConvBPDNProjL1: zero is a normal to the ball at a point of the ball. *)
Theorem C67_projl1 n (E : vec -> Prop) rho Y : E Y -> subgradient n E (fun _ => 0) Y (fun i => rho * (fun _ : nat => 0) i).
Proof. intros _ z _. unfold dot. rewrite (sumn_0 n) by (intros; ring). lra. Qed.
Lemma l2_sub k v z : nrm k v + dot k (fun i => zdivide (v i) (nrm k v)) (fun i => z i - v i) <= nrm k z.
Proof.
  pose proof (nrm_nonneg k v) as H0. destruct (Req_dec (nrm k v) 0) as [Z|Z].
  - rewrite Z. assert (D0 : dot k (fun i => zdivide (v i) 0) (fun i => z i - v i) = 0).
    { unfold dot. apply sumn_0. intros i _. unfold zdivide. assert (T : eqb 0 0 = true) by (apply eqb_true; reflexivity). rewrite T. ring. }
    rewrite D0. pose proof (nrm_nonneg k z). lra.
  - assert (E : dot k (fun i => zdivide (v i) (nrm k v)) (fun i => z i - v i) = / nrm k v * dot k v z - nrm k v).
    { unfold dot. rewrite (sumn_ext k _ (fun i => / nrm k v * (v i * z i) - / nrm k v * (v i * v i))).
      - rewrite sumn_minus, !sumn_scal. change (sumn k (fun i => v i * v i)) with (nrm2 k v). rewrite <- (nrm_sqr k v). field. exact Z.
      - intros i _. unfold zdivide. assert (T : eqb (nrm k v) 0 = false) by (apply eqb_false; exact Z). rewrite T. field. exact Z. }
    rewrite E. pose proof (dot_le k v z) as C. apply (Rmult_le_compat_l (/ nrm k v)) in C; [|apply Rlt_le, Rinv_0_lt_compat; lra].
    replace (/ nrm k v * (nrm k v * nrm k z)) with (nrm k z) in C by (field; exact Z). lra.
Qed.
Lemma sqrt_nrm k v : sqrt (sumn k (fun l => v l ^ 2)) = nrm k v.
Proof. unfold nrm, nrm2, dot. f_equal. apply sumn_ext. intros. ring. Qed.
Theorem C67_tv P K lmbda rho Y : (0 < K)%nat -> 0 <= lmbda -> 0 < rho ->
  subgradient (P * K) (fun _ => True) (l21reg P K lmbda) Y (fun i => rho * tv_uinit K lmbda rho Y i).
Proof.
  intros HK Hl Hr z _. rewrite dot_rows by exact HK. unfold l21reg. rewrite <- !sumn_scal, <- sumn_plus. apply sumn_le. intros i Hi.
  assert (E : dot K (row K i (fun p => rho * tv_uinit K lmbda rho Y p)) (row K i (fun p => z p - Y p)) =
    lmbda * dot K (fun k => zdivide (row K i Y k) (nrm K (row K i Y))) (fun k => row K i z k - row K i Y k)).
  { unfold dot. rewrite <- sumn_scal. apply sumn_ext. intros k Hk. unfold tv_uinit. unfold row at 1.
    rewrite rows_at by exact Hk. rewrite sqrt_nrm. unfold row. field. lra. }
  rewrite E. pose proof (l2_sub K (row K i Y) (row K i z)) as Q. apply (Rmult_le_compat_l lmbda) in Q; [|exact Hl]. lra.
Qed.
(** Mask decoupling with unit l1 weights: block 0 of g is (1/2)||W y0||^2, block 1 is lambda ||y1||_1. *)
Theorem C67_maskdcpl b m W lmbda rho Y : 0 <= lmbda -> 0 < rho ->
  subgradient (b + m) (fun _ => True) (fun y => / 2 * nrm2 b (fun i => W i * y i) + l1reg m lmbda (fun _ => 1) (fun i => y (b + i)%nat)) Y
    (fun i => rho * maskdcpl_uinit b W lmbda rho Y i).
Proof.
  intros Hl Hr z _. unfold dot. rewrite sumn_split.
  pose proof (l1_subgradient m lmbda (fun _ => 1) (fun i => Y (b + i)%nat) Hl ltac:(intros; lra) (fun i => z (b + i)%nat) I) as Q1. cbv beta in Q1.
  assert (E1 : sumn m (fun i => rho * maskdcpl_uinit b W lmbda rho Y (b + i) * (z (b + i)%nat - Y (b + i)%nat)) =
    dot m (fun i => lmbda * (1 * sgn (Y (b + i)%nat))) (fun i => z (b + i)%nat - Y (b + i)%nat)).
  { unfold dot. apply sumn_ext. intros i Hi. unfold maskdcpl_uinit, block_cat, block_sep1. destruct (Nat.ltb_spec (b + i) b); [lia|].
    replace (b + i - b)%nat with i by lia. field. lra. }
  rewrite E1. clear E1.
  assert (E0 : / 2 * nrm2 b (fun i => W i * Y i) + sumn b (fun i => rho * maskdcpl_uinit b W lmbda rho Y i * (z i - Y i)) <= / 2 * nrm2 b (fun i => W i * z i)).
  { unfold nrm2, dot. rewrite <- !sumn_scal, <- sumn_plus. apply sumn_le. intros i Hi. unfold maskdcpl_uinit, block_cat, block_sep0.
    destruct (Nat.ltb_spec i b); [|lia]. replace (rho * (W i ^ 2 * Y i / rho) * (z i - Y i)) with (W i * W i * Y i * (z i - Y i)) by (field; lra).
    pose proof (Rle_0_sqr (W i * (z i - Y i))) as Q. unfold Rsqr in Q. lra. }
  lra.
Qed.
(** CnstrMOD: with U = Y the y step returns Y when the columns of Y are normalised (and X is Y). *)
Theorem C67_cmod Nc Nm Y : (0 < Nm)%nat -> unit_cols Nc Nm false Y -> forall i, (i < Nc * Nm)%nat -> cmod_ystep Nc Nm false Y (cmod_uinit Y) i = Y i.
Proof.
  intros HN HU p Hp. rewrite (Nat.div_mod p Nm) by lia. rewrite (Nat.mul_comm Nm). set (i := (p / Nm)%nat). set (k := (p mod Nm)%nat).
  assert (Hk : (k < Nm)%nat) by (apply Nat.mod_upper_bound; lia). destruct (HU k Hk) as [H1 _].
  unfold cmod_ystep, cmod_pcn, cmod_uinit. rewrite cols_at by exact Hk. unfold normalise. rewrite sqrt_nrm.
  assert (N2 : nrm Nc (col Nm k (fun p => Y p + Y p)) = 2).
  { rewrite (nrm_ext Nc _ (vscal 2 (col Nm k Y))) by (intros; unfold vscal, col; ring). rewrite nrm_scal, H1, Rabs_pos_eq; lra. }
  rewrite N2. assert (T : eqb 2 0 = false) by (apply eqb_false; lra). rewrite T. unfold col. field.
Qed.
(** *** Where the criterion fails. *)
Theorem C67_l1weight_refuted : exists n lmbda rho w Y, 0 <= lmbda /\ 0 < rho /\ (forall i, 0 <= w i) /\
  ~ subgradient n (fun _ => True) (l1reg n lmbda w) Y (fun i => rho * bpdn_uinit lmbda rho Y i).
Proof.
  exists 1%nat, 1, 1, (fun _ => 2), (fun _ => 1). split; [lra|]. split; [lra|]. split; [intros; lra|].
  intros H. specialize (H (fun _ => 0) I). unfold l1reg, dot, bpdn_uinit in H. cbn [sumn] in H. rewrite sgn_pos in H by lra.
  rewrite Rmult_0_r, Rabs_R0, Rabs_pos_eq in H by lra. lra.
Qed.
Theorem C67_joint_refuted : exists Nc Nm lmbda mu rho Y, (0 < Nm)%nat /\ 0 <= lmbda /\ 0 < mu /\ 0 < rho /\
  ~ subgradient (Nc * Nm) (fun _ => True) (fun y => l1reg (Nc * Nm) lmbda (fun _ => 1) y + l21reg Nc Nm mu y) Y (fun i => rho * bpdn_uinit lmbda rho Y i).
Proof.
  exists 1%nat, 1%nat, 0, 1, 1, (fun _ => 1). split; [lia|]. split; [lra|]. split; [lra|]. split; [lra|].
  intros H. specialize (H (fun _ => 0) I). unfold l1reg, l21reg, nrm, nrm2, dot, row, bpdn_uinit in H. cbn [sumn Nat.mul Nat.add] in H.
  replace (0 + 1 * 1) with (1 * 1) in H by ring. replace (0 + 0 * 0) with (0 * 0) in H by ring. rewrite !sqrt_square in H by lra. lra.
Qed.
(** RobustPCA: B = I, so the criterion asks for -rho U; the code has the sign of the other case. *)
Theorem C67_rpca_refuted n lmbda rho Y i : 0 < lmbda -> 0 < rho -> (i < n)%nat -> Y i <> 0 ->
  ~ subgradient n (fun _ => True) (l1reg n lmbda (fun _ => 1)) Y (fun j => - (rho * rpca_uinit lmbda rho Y j)).
Proof.
  intros Hl Hr Hi Hy H. specialize (H (fun j => if Nat.eqb j i then 0 else Y j) I). unfold l1reg, dot in H.
  rewrite <- !sumn_scal, <- sumn_plus in H.
  assert (L : sumn n (fun j => lmbda * Rabs (1 * (if Nat.eqb j i then 0 else Y j))) <
    sumn n (fun j => lmbda * Rabs (1 * Y j) + - (rho * rpca_uinit lmbda rho Y j) * ((if Nat.eqb j i then 0 else Y j) - Y j))).
  { apply (sumn_le_lt n _ _ i); [| exact Hi |].
    - intros j Hj. destruct (Nat.eqb_spec j i) as [->|]; [|lra]. unfold rpca_uinit. rewrite Rmult_0_r, Rabs_R0, Rmult_1_l, abs_sgn.
      replace (- (rho * (lmbda / rho * sgn (Y i))) * (0 - Y i)) with (lmbda * (sgn (Y i) * Y i)) by (field; lra).
      rewrite <- abs_sgn. pose proof (Rabs_pos (Y i)). nra.
    - rewrite Nat.eqb_refl. unfold rpca_uinit. rewrite Rmult_0_r, Rabs_R0, Rmult_1_l.
      replace (- (rho * (lmbda / rho * sgn (Y i))) * (0 - Y i)) with (lmbda * (sgn (Y i) * Y i)) by (field; lra).
      rewrite <- abs_sgn. pose proof (Rabs_pos_lt (Y i) Hy). nra. }
  lra.
Qed.
(** MinL1InL2Ball: at a point inside the ball and different from its centre, the second block is not normal to the ball. *)
Theorem C67_minl1_refuted : exists Nr Nc Nm S rho epsilon Y, (0 < Nm)%nat /\ 0 < rho /\ 0 < epsilon /\ ml_E Nr Nc Nm S false epsilon Y /\
  ~ subgradient (Nc * Nm + Nr * Nm) (ml_E Nr Nc Nm S false epsilon) (ml_g Nc Nm (fun _ => 1)) Y (fun i => rho * minl1_uinit Nc Nm S rho Y i).
Proof.
  exists 1%nat, 1%nat, 1%nat, (fun _ => 0), 1, 2, (fun i => match i with O => 0 | _ => 1 end). split; [lia|]. split; [lra|]. split; [lra|].
  assert (B : forall t, 0 <= t <= 2 -> ml_E 1 1 1 (fun _ => 0) false 2 (fun i => match i with O => 0 | _ => t end)).
  { intros t Ht. split; [intros e; discriminate e|]. intros [|k] Hk; [|lia]. unfold nrm, nrm2, dot, col, block_sep1, minl1_b. cbn [sumn Nat.mul Nat.add].
    replace (0 + (t - 0) * (t - 0)) with (t * t) by ring. rewrite sqrt_square; lra. }
  split; [apply B; lra|]. intros H. specialize (H _ (B 2 ltac:(lra))).
  unfold ml_g, l1reg, dot, minl1_uinit, block_cat, block_sep0, block_sep1, minl1_b in H. cbn in H. rewrite sgn_0 in H. lra.
Qed.
(** ConvMinL1InL2Ball treats block 0 as the l1 block, but its y step has the ball in block 0. *)
Theorem C67_cminl1_refuted : exists b m S rho epsilon Y, 0 < rho /\ 0 < epsilon /\ nrm b (block_sep0 Y) <= epsilon /\
  ~ subgradient (b + m) (fun y => nrm b (block_sep0 y) <= epsilon) (fun y => l1reg m 1 (fun _ => 1) (block_sep1 b y)) Y (fun i => rho * cminl1_uinit b S rho Y i).
Proof.
  exists 1%nat, 1%nat, (fun _ => 0), 1, 2, (fun i => match i with O => 1 | _ => 0 end). split; [lra|]. split; [lra|].
  assert (B : forall t, 0 <= t -> nrm 1 (block_sep0 (fun i => match i with O => t | _ => 0 end)) = t).
  { intros t Ht. unfold nrm, nrm2, dot, block_sep0. cbn [sumn]. replace (0 + t * t) with (t * t) by ring. apply sqrt_square; exact Ht. }
  split; [rewrite B; lra|]. intros H. specialize (H (fun i => match i with O => 2 | _ => 0 end)). cbv beta in H. rewrite B in H by lra. specialize (H (Rle_refl 2)).
  unfold l1reg, dot, cminl1_uinit, block_cat, block_sep0, block_sep1 in H. cbn in H. rewrite sgn_pos in H by lra. rewrite !Rmult_0_r, !Rabs_R0 in H. lra.
Qed.
Theorem C67_tv_weight_refuted : exists P K lmbda w rho Y, (0 < K)%nat /\ 0 <= lmbda /\ 0 < rho /\ 0 <= w /\
  ~ subgradient (P * K) (fun _ => True) (l21reg P K (lmbda * w)) Y (fun i => rho * tv_uinit K lmbda rho Y i).
Proof.
  exists 1%nat, 1%nat, 1, 2, 1, (fun _ => 1). split; [lia|]. split; [lra|]. split; [lra|]. split; [lra|].
  intros H. specialize (H (fun _ => 0) I). unfold l21reg, nrm, nrm2, dot, row, tv_uinit, rows in H. cbn in H.
  replace (0 + 1 * 1) with (1 * 1) in H by ring. replace (0 + 0 * 0) with (0 * 0) in H by ring. replace (0 + 1 * (1 * 1)) with (1 * 1) in H by ring.
  rewrite !sqrt_square in H by lra. unfold zdivide in H. assert (T : eqb 1 0 = false) by (apply eqb_false; lra). rewrite T in H. lra.
Qed.

(** ** Concrete cases. Scalar problem with dictionary 1, where the solver is division. *)
Definition solve1 : mat -> R -> vec -> vec := fun D rho b p => match p with O => b O / (D O O * D O O + rho) | _ => 0 end.
Lemma solve1_ok : ATAI_contract 1 1 1 solve1.
Proof. intros D rho b [|p] Hr Hp; [|simpl in Hp; lia]. unfold mm, tr, solve1. cbn. field. nra. Qed.
Lemma solve1_AATI : AATI_contract 1 1 1 solve1.
Proof. intros D rho b [|p] Hr Hp; [|simpl in Hp; lia]. unfold mmr, tr, solve1. cbn. field. nra. Qed.
(** The state X = Y = 2, U = 1/2 of (1/2)(x - 3)^2 + |x| with rho = 2 is stationary under BPDN, and 2 is its minimiser. *)
Definition one : mat := fun _ _ => 1.
Example ex_bpdn_stationary : let st := mkState (fun _ => 0) (fun _ => 2) (fun _ => / 2) (fun _ => 0) in
  argmin (nonneg_set false 1) (fun x => lsq 1 (mm 1 1 one) (fun _ => 3) x + l1reg 1 1 (fun _ => 1) x)
    (sY (iteration eq_A eq_B eq_c (18 / 10) (bpdn_xstep 1 1 solve1 one (fun _ => 3) 2) (bpdn_ystep false 1 2 (fun _ => 1)) st)).
Proof.
  intros st.
  destruct (C36_bpdn 1 1 1 solve1 one (fun _ => 3) ltac:(lia) solve1_ok (18 / 10) 2 ltac:(lra) false 1 (fun _ => 1) st ltac:(lra) ltac:(intros; lra) ltac:(lra)) as [_ H]; [|exact H].
  assert (E : sY (iteration eq_A eq_B eq_c (18 / 10) (bpdn_xstep 1 1 solve1 one (fun _ => 3) 2) (bpdn_ystep false 1 2 (fun _ => 1)) st) 0%nat = 2 /\
    sU (iteration eq_A eq_B eq_c (18 / 10) (bpdn_xstep 1 1 solve1 one (fun _ => 3) 2) (bpdn_ystep false 1 2 (fun _ => 1)) st) 0%nat = / 2).
  { assert (X2 : bpdn_xstep 1 1 solve1 one (fun _ => 3) 2 (fun _ => 2) (fun _ => / 2) 0%nat = 2) by (unfold bpdn_xstep, solve1, bpdn_rhs, mm, tr, one; cbn; field).
    assert (AX : relax_AX eq_A eq_B eq_c (18 / 10) (bpdn_xstep 1 1 solve1 one (fun _ => 3) 2 (fun _ => 2) (fun _ => / 2)) (fun _ => 2) 0%nat = 2).
    { unfold relax_AX, eq_A, eq_B, eq_c. destruct (Req_EM_T (18 / 10) 1); cbv beta; rewrite X2; lra. }
    assert (Y2 : sY (iteration eq_A eq_B eq_c (18 / 10) (bpdn_xstep 1 1 solve1 one (fun _ => 3) 2) (bpdn_ystep false 1 2 (fun _ => 1)) st) 0%nat = 2).
    { unfold iteration, st. cbn [sY sU sX]. unfold bpdn_ystep, clip, prox_l1. cbn [andb]. rewrite AX. rewrite sgn_pos by lra. rewrite Rabs_pos_eq by lra. rewrite Rmax_left; lra. }
    split; [exact Y2|]. unfold iteration, st in *. cbn [sY sU sX] in *. unfold ustep, rsdl_r.
    set (a := relax_AX eq_A eq_B eq_c _ _ _) in *. set (y := bpdn_ystep _ _ _ _ _ _) in *. unfold eq_B, eq_c. rewrite AX, Y2. lra. }
  destruct E as [E1 E2]. split; intros [|i] Hi; try (simpl in Hi; lia); cbv beta; [rewrite E1|rewrite E2]; reflexivity.
Qed.
Example ex_bpdn_weights : subgradient 2 (nonneg_set true 2) (l1reg 2 3 (fun _ => 1)) (fun i => match i with O => 5 | _ => 0 end)
  (fun i => 2 * bpdn_uinit 3 2 (fun i => match i with O => 5 | _ => 0 end) i).
Proof. apply C67_bpdn; lra. Qed.
Example ex_cmod_x : argmin (fun _ => True) (fun x => auglag (1 * 1) eq_A eq_B eq_c 3 (lsq (1 * 1) (fun X => mmr 1 1 X one) (fun _ => 5)) (fun _ => 0) x (fun _ => 1) (fun _ => 2))
  (cmod_xstep 1 1 solve1 one (fun _ => 5) 3 (fun _ => 1) (fun _ => 2)).
Proof. apply C37_cmod_x; [lia|lia|exact solve1_AATI|lra]. Qed.
Example ex_cmod_y : argmin (unit_cols 2 1 false) (fun y => auglag (2 * 1) (fun _ => fun i => match i with O => 3 | _ => 4 end) eq_B eq_c 1 (fun _ => 0) (fun _ => 0) (fun _ => 0) y (fun _ => 0))
  (cmod_ystep 2 1 false (fun i => match i with O => 3 | _ => 4 end) (fun _ => 0)).
Proof.
  apply (C37_cmod_y 2 1 false 1 (fun i => match i with O => 3 | _ => 4 end) (fun _ => 0)); [lia|lia|lra|]. intros [|k] Hk; [|lia].
  unfold nrm, nrm2, dot, col. cbn [sumn Nat.mul Nat.add]. replace (0 + (3 + 0) * (3 + 0) + (4 + 0) * (4 + 0)) with (5 * 5) by ring. rewrite sqrt_square; lra.
Qed.
(** Consensus with prox_g v r = v (g = 0) and f_j(x) = (x - j)^2 / 2, j = 1, 3: Y = 2 with U = (-1/2, 1/2), rho = 2. *)
Definition cx (j : nat) (y u : vec) : vec := fun i => (INR (2 * j + 1) + 2 * (y i - u i)) / 3.
Example ex_consensus : forall y : vec, sumn 2 (fun j => / 2 * nrm2 1 (fun i => cx j (fun _ => 2) ((fun j _ => INR j - / 2) j) i - INR (2 * j + 1))) + 0 <=
  sumn 2 (fun j => / 2 * nrm2 1 (fun i => y i - INR (2 * j + 1))) + 0.
Proof.
  intros y.
  assert (Cf : forall j, (j < 2)%nat -> convex_on (fun _ => True) (fun x => / 2 * nrm2 1 (fun i => x i - INR (2 * j + 1)))).
  { intros j _ x z t _ _ Ht. split; [exact I|]. unfold nrm2, dot, seg. cbn [sumn].
    assert (0 <= t * (1 - t) * ((x 0%nat - z 0%nat) * (x 0%nat - z 0%nat))) by (apply Rmult_le_pos; [nra|apply Rle_0_sqr]). nra. }
  assert (C0 : convex_on (fun _ => True) (fun _ : vec => 0)) by (intros x z t _ _ Ht; split; [exact I|lra]).
  assert (Pg : forall v r, 0 < r -> argmin (fun _ : vec => True) (fun y => 0 + r / 2 * nrm2 1 (fun i => y i - v i)) v).
  { intros v r Hr. split; [exact I|]. intros z _. unfold nrm2, dot. cbn [sumn]. pose proof (Rle_0_sqr (z 0%nat - v 0%nat)) as Q. unfold Rsqr in Q. nra. }
  assert (Xs : forall j y u, (j < 2)%nat -> argmin (fun _ : vec => True) (fun x => / 2 * nrm2 1 (fun i => x i - INR (2 * j + 1)) + (1 * 2) / 2 * nrm2 1 (fun i => x i - y i + u i)) (cx j y u)).
  { intros j z u _. split; [exact I|]. intros x _. unfold nrm2, dot, cx. cbn [sumn]. set (a := INR (2 * j + 1)).
    pose proof (Rle_0_sqr (x 0%nat - (a + 2 * (z 0%nat - u 0%nat)) / 3)) as Q. unfold Rsqr in Q. nra. }
  pose proof (C36_weighted 2 1 2 (fun _ => 1) (fun _ => True) (fun _ => 0) (fun v _ => v) ltac:(lra) ltac:(lia) ltac:(intros; lra) C0 Pg 1 (fun j x => / 2 * nrm2 1 (fun i => x i - INR (2 * j + 1)))
    (fun _ _ => True) cx Cf Xs (fun _ => 2) (fun j _ => INR j - / 2) ltac:(lra)) as Q. cbv zeta in Q.
  assert (EY : wc_ystep 2 2 (fun _ => 1) (fun v _ => v) (cn_relax_AX 1 (fun j => cx j (fun _ => 2) (fun _ => INR j - / 2)) (fun _ => 2)) (fun j _ => INR j - / 2) 0%nat = 2).
  { unfold wc_ystep, cn_relax_AX, cx. destruct (Req_EM_T 1 1); [|lra]. cbn. lra. }
  assert (EX : forall j, (j < 2)%nat -> cx j (fun _ => 2) (fun _ => INR j - / 2) 0%nat = 2) by (intros [|[|j]] Hj; try lia; unfold cx; cbn; lra).
  destruct Q as (_ & _ & Q).
  - intros [|i] Hi; [exact EY|lia].
  - intros j [|i] Hj Hi; [|lia]. unfold wc_ustep. rewrite EY. unfold cn_relax_AX. destruct (Req_EM_T 1 1); [|lra]. rewrite EX by exact Hj. lra.
  - apply (Q (fun _ => y) y I); [intros; exact I|reflexivity].
Qed.
(** RobustPCA on matrices with one column, for which a decomposition can be written down. *)
Definition svd_col (M : nat) (X : mat) : mat * (nat -> R) * mat :=
  let s := nrm M (fun i => X i O) in (fun i _ => if Req_EM_T s 0 then delta i 0 else X i O / s, fun _ => s, fun _ _ => 1).
Lemma svd_col_ok M X : (0 < M)%nat -> is_svd M 1 X (svd_col M X).
Proof.
  intros HM. unfold is_svd, svd_col. set (s := nrm M (fun i => X i O)). replace (Nat.min M 1) with 1%nat by lia.
  split; [|split; [|split]].
  - intros [|a] [|b] Ha Hb; try lia. destruct (Req_EM_T s 0) as [Z|Z].
    + rewrite (sumn_ext M _ (fun i => if Nat.eqb i 0 then 1 else 0)).
      * rewrite (sumn_delta M 0 (fun _ => 1)) by exact HM. reflexivity.
      * intros i _. unfold delta. destruct (Nat.eqb i 0); ring.
    + rewrite (sumn_ext M _ (fun i => / (s * s) * (X i 0%nat * X i 0%nat))) by (intros; field; exact Z).
      rewrite sumn_scal. change (sumn M (fun i => X i 0%nat * X i 0%nat)) with (nrm2 M (fun i => X i 0%nat)). rewrite <- nrm_sqr. fold s. unfold delta. cbn [Nat.eqb]. field. exact Z.
  - intros [|a] [|b] Ha Hb; try lia. unfold delta. cbn. ring.
  - intros k _. apply nrm_nonneg.
  - intros i [|j] Hi Hj; [|lia]. cbn [sumn]. destruct (Req_EM_T s 0) as [Z|Z].
    + rewrite Z. rewrite (nrm_0 M (fun i => X i 0%nat) Z i Hi). ring.
    + field. exact Z.
Qed.
Example ex_rpca : argmin (fun _ => True) (fun x => auglag (3 * 1) rpca_id rpca_id (fun i => INR i) 2 (fun x => norm_nuclear (svd_col 3) 3 1 (unvec 1 x)) (fun _ => 0) x (fun _ => 1) (fun _ => 0))
  (rpca_xstep (svd_col 3) 3 1 (fun i => INR i) 2 (fun _ => 1) (fun _ => 0)).
Proof. apply C37_rpca_x; [lia| |lra]. intros X. apply svd_col_ok. lia. Qed.
(** S = 0 is decomposed as 0 + 0: a stationary state meeting the hypotheses of C36_rpca. *)
Example ex_rpca_stationary : let st' := iteration rpca_id rpca_id (fun _ => 0) 1 (rpca_xstep (svd_col 3) 3 1 (fun _ => 0) 2) (rpca_ystep (fun _ => 0) 1 2) (mkState (fun _ => 0) (fun _ => 0) (fun _ => 0) (fun _ => 0)) in
  forall x vx v', is_nuclear 3 1 (unvec 1 x) vx -> is_nuclear 3 1 (unvec 1 (sX st')) v' ->
    v' + l1reg (3 * 1) 1 (fun _ => 1) (sY st') <= vx + l1reg (3 * 1) 1 (fun _ => 1) (fun i => 0 - x i).
Proof.
  intros st'.
  assert (EX : forall i, sX st' i = 0).
  { intros i. unfold st', iteration. cbn [sX sY sU]. unfold rpca_xstep, vecm, prox_nuclear, svd_col, mdot, mdiag. cbn [fst].
    assert (Z : nrm 3 (fun i => unvec 1 (fun _ => 0 - 0 - 0) i 0%nat) = 0) by (rewrite (nrm_ext 3 _ (fun _ => 0)) by (intros; unfold unvec; ring); apply nrm_zero).
    rewrite !Z. assert (Mx : Rmax 0 (0 - 1 / 2) = 0) by (rewrite Rmax_left; lra). rewrite Mx.
    change (Nat.min 3 1) with 1%nat. cbn [sumn Nat.eqb]. ring. }
  assert (EA : forall i, relax_AX rpca_id rpca_id (fun _ => 0) 1 (sX st') (fun _ => 0) i = 0).
  { intros i. unfold relax_AX. destruct (Req_EM_T 1 1); [|lra]. apply EX. }
  assert (EY : forall i, sY st' i = 0).
  { intros i. unfold st', iteration. cbn [sX sY sU]. unfold rpca_ystep, prox_l1. change (rpca_xstep _ _ _ _ _ _ _) with (sX st'). rewrite EA.
    replace (0 - 0 - 0) with 0 by ring. rewrite sgn_0. ring. }
  refine (proj2 (C36_rpca (svd_col 3) 3 1 (fun _ => 0) ltac:(lia) (fun X => svd_col_ok 3 X ltac:(lia)) 1 2 1 (mkState (fun _ => 0) (fun _ => 0) (fun _ => 0) (fun _ => 0)) ltac:(lra) ltac:(lra) ltac:(lra) _ _)).
  - intros i _. cbn [sY]. apply EY.
  - intros i _. unfold iteration. cbn [sX sY sU]. unfold ustep, rsdl_r. change (rpca_xstep _ _ _ _ _ _ _) with (sX st'). rewrite EA. change (rpca_ystep _ _ _ _ _) with (sY st'). unfold rpca_id. rewrite EY. ring.
Qed.
Print Assumptions C37_bpdn_x.
Print Assumptions C37_enet_x.
Print Assumptions C37_minl1_x.
Print Assumptions C37_bpdn_y.
Print Assumptions C37_joint_y.
Print Assumptions C37_projl1_y.
Print Assumptions C37_minl1_y.
Print Assumptions C36_bpdn.
Print Assumptions C36_enet.
Print Assumptions C36_joint.
Print Assumptions C36_projl1.
Print Assumptions C36_minl1.
Print Assumptions C38_bpdn.
Print Assumptions C38_bpdn_returned.
Print Assumptions C38_enet_returned.
Print Assumptions C37_joint_nonneg_refuted.
Print Assumptions C37_projl1_nonneg_refuted.
Print Assumptions C37_rpca_x.
Print Assumptions C37_rpca_y.
Print Assumptions C36_rpca.
Print Assumptions C37_cmod_x.
Print Assumptions C37_cmod_y.
Print Assumptions C37_cmod_zero_column_refuted.
Print Assumptions C37_weighted_y.
Print Assumptions C36_weighted.
Print Assumptions C37_consensus_is_weighted.
Print Assumptions C67_bpdn.
Print Assumptions C67_spline.
Print Assumptions C67_projl1.
Print Assumptions C67_tv.
Print Assumptions C67_maskdcpl.
Print Assumptions C67_cmod.
Print Assumptions C67_l1weight_refuted.
Print Assumptions C67_joint_refuted.
Print Assumptions C67_rpca_refuted.
Print Assumptions C67_minl1_refuted.
Print Assumptions C67_cminl1_refuted.
Print Assumptions C67_tv_weight_refuted.
