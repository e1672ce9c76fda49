(** C95: the parallel solver, run for long enough, solves the convolutional sparse coding problem, for every division of the
    filters into groups and all values of its parameters. *)
Require Import List Reals Lra Lia Arith Bool FunctionalExtensionality.
Require Import Verif.RVec Verif.LimitProofs Verif.ParModel Verif.ParProofs Verif.ParSpec Verif.ParIter Verif.ParOpt Verif.ParLoop Verif.ParLimSpec Verif.ParLimProofs.
Import ListNotations.
Local Open Scope R_scope.

(** Any history of calls of solve on a new object with enough iterations in total leaves Y1, which solve returns, as close as
    wanted to one solution of the problem.  The solution is fixed by the initial memory; how the iterations are divided into
    calls, the schedules of the worker processes and what the residuals are do not matter. *)
Theorem C95_limit : forall c q b, instance_of c q -> divides c q b -> (0 < npix c)%nat -> 0 < rlx c < 2 -> (exists X, solution b X) ->
  forall mem0, exists X, solution b X /\
  forall eps, 0 < eps -> exists K, forall calls, Forall (fun a => fair c (c_sched a)) calls -> no_gap c calls (0%nat, mem0) ->
    (K <= total_done c calls (0%nat, mem0))%nat -> near b eps (Y1 (view (snd (do_calls c calls (0%nat, mem0))))) X.
Proof.
  intros c q b H Hb HP Hx Ex mem0. destruct (solver_limit c q b H Hb HP (view mem0) Hx Ex) as (X & SX & K). exists X. split; [exact SX|].
  intros eps He. destruct (uniform2 (nfilt c) (npix c) (fun k => Y1 (iter c k (view mem0))) X HP) with (eps := eps) as [k0 Hk]; [|exact He|].
  - intros f p Hf Hp. apply (K f p Hf Hp).
  - exists k0. intros calls Hf Hn Hd f p Hff Hp. rewrite (dv_M c q b Hb) in Hff. rewrite (dv_P c q b Hb) in Hp.
    destruct (calls_spec c (io_grp c q H) calls 0 mem0 Hf Hn (or_introl (le_0_n _))) as [_ Q]. destruct (Q f p Hff Hp) as [-> _]. left. apply Hk; assumption.
Qed.
Print Assumptions C95_limit.

(** One call with a large enough iteration limit that is not stopped earlier. *)
Theorem C95_one_call : forall c q b, instance_of c q -> divides c q b -> (0 < npix c)%nat -> 0 < rlx c < 2 -> (exists X, solution b X) ->
  forall mem0, exists X, solution b X /\
  forall eps, 0 < eps -> exists K, forall sc rs maxit, fair c sc -> (K <= maxit)%nat -> (0 < maxit)%nat ->
    near b eps (Y1 (view (snd (solve c sc rs (fun _ _ => false) maxit (0%nat, mem0))))) X.
Proof.
  intros c q b H Hb HP Hx Ex mem0. destruct (C95_limit c q b H Hb HP Hx Ex mem0) as (X & SX & K). exists X. split; [exact SX|].
  intros eps He. destruct (K eps He) as [k0 Hk]. exists k0. intros sc rs maxit Hf Hm H0. set (a := mkCall sc rs (fun _ _ => false) maxit).
  assert (L : forall first last todo k m, fst (loop c sc rs (fun _ _ => false) first last k (S todo) m) = (k + S todo)%nat).
  { intros first last todo. induction todo as [|t IH]; intros k m; [cbn [loop fst]; lia|].
    change (loop c sc rs (fun _ _ => false) first last k (S (S t)) m) with (loop c sc rs (fun _ _ => false) first last (S k) (S t) (iteration c sc rs first last k m)).
    rewrite IH. lia. }
  specialize (Hk [a]). apply Hk.
  - constructor; [exact Hf|constructor].
  - split; [intros E; contradiction E; reflexivity|exact I].
  - cbn [total_done fst]. unfold done, do_call. cbn [a c_maxit c_sched c_rs c_stop]. destruct maxit as [|n]; [lia|]. cbn [Nat.eqb]. unfold solve. rewrite L. lia.
Qed.
Print Assumptions C95_one_call.

(** The objective function tends to its minimum. *)
Theorem C95_objective : forall c q b, instance_of c q -> divides c q b -> (0 < npix c)%nat -> 0 < rlx c < 2 -> forall X0, solution b X0 ->
  forall mem0 eps, 0 < eps -> exists K, forall calls, Forall (fun a => fair c (c_sched a)) calls -> no_gap c calls (0%nat, mem0) ->
    (K <= total_done c calls (0%nat, mem0))%nat -> Rabs (objective b (Y1 (view (snd (do_calls c calls (0%nat, mem0))))) - objective b X0) <= eps.
Proof.
  intros c q b H Hb HP Hx X0 S0 mem0 eps He. destruct (solver_limit c q b H Hb HP (view mem0) Hx (ex_intro _ _ S0)) as (X & SX & K).
  assert (EO : objective b X = objective b X0) by (destruct SX as [A1 A2]; destruct S0 as [B1 B2]; apply Rle_antisym; [apply A2|apply B2]; assumption).
  assert (C : Un_cv (fun k => objective b (Y1 (iter c k (view mem0)))) (objective b X)).
  { unfold objective, product. rewrite (dv_M c q b Hb), (dv_P c q b Hb).
    assert (P : forall p, Un_cv (fun k => sumn (nfilt c) (fun f => sumn (npix c) (fun r => bD b f p r * Y1 (iter c k (view mem0)) f r))) (sumn (nfilt c) (fun f => sumn (npix c) (fun r => bD b f p r * X f r)))).
    { intros p. apply (Compact.cv_sumn (nfilt c) (fun k f => sumn (npix c) (fun r => bD b f p r * Y1 (iter c k (view mem0)) f r))). intros f Hf.
      apply (Compact.cv_sumn (npix c) (fun k r => bD b f p r * Y1 (iter c k (view mem0)) f r)). intros r Hr. apply (CV_mult (fun _ => bD b f p r)); [apply Compact.cv_const|apply (K f r Hf Hr)]. }
    apply CV_plus.
    - apply (CV_mult (fun _ => / 2)); [apply Compact.cv_const|].
      apply (Compact.cv_sumn (npix c) (fun k p => (bW b p * (sumn (nfilt c) (fun f => sumn (npix c) (fun r => bD b f p r * Y1 (iter c k (view mem0)) f r)) - bS b p)) ^ 2)). intros p Hp.
      pose proof (CV_mult (fun _ => bW b p) _ _ _ (Compact.cv_const _) (CV_minus _ _ _ _ (P p) (Compact.cv_const (bS b p)))) as Q. cbv beta in Q.
      pose proof (CV_mult _ _ _ _ Q Q) as Q2. revert Q2. cbn [pow]. rewrite Rmult_1_r. apply AdmmConv.cv_ext. intros k. rewrite Rmult_1_r. reflexivity.
    - apply (CV_mult (fun _ => bl b)); [apply Compact.cv_const|]. apply (Compact.cv_sumn (nfilt c) (fun k f => sumn (npix c) (fun p => bw b f p * Rabs (Y1 (iter c k (view mem0)) f p)))). intros f Hf.
      apply (Compact.cv_sumn (npix c) (fun k p => bw b f p * Rabs (Y1 (iter c k (view mem0)) f p))). intros p Hp. apply (CV_mult (fun _ => bw b f p)); [apply Compact.cv_const|].
      apply cv_cvabs. apply (K f p Hf Hp). }
  destruct (C eps He) as [k0 Hk]. exists k0. intros calls Hf Hn Hd.
  rewrite (objective_ext c q b Hb _ (Y1 (iter c (total_done c calls (0%nat, mem0)) (view mem0)))).
  - rewrite <- EO. left. apply Hk. exact Hd.
  - intros f p Hff Hp. destruct (calls_spec c (io_grp c q H) calls 0 mem0 Hf Hn (or_introl (le_0_n _))) as [_ Q]. destruct (Q f p Hff Hp) as [-> _]. reflexivity.
Qed.
Print Assumptions C95_objective.

(** Two objects for the same problem, with different numbers of groups, parameters, initial arrays and schedules: after enough
    iterations the reconstructions from their results agree, as closely as wanted, at every pixel with non-zero weight (the
    coefficients need not agree). *)
Theorem C95_groups : forall b c q c' q', instance_of c q -> divides c q b -> instance_of c' q' -> divides c' q' b -> (0 < bP b)%nat -> 0 < rlx c < 2 -> 0 < rlx c' < 2 ->
  (exists X, solution b X) -> forall mem0 mem0' p eps, (p < bP b)%nat -> bW b p <> 0 -> 0 < eps -> exists K, forall calls calls',
    Forall (fun a => fair c (c_sched a)) calls -> no_gap c calls (0%nat, mem0) -> (K <= total_done c calls (0%nat, mem0))%nat ->
    Forall (fun a => fair c' (c_sched a)) calls' -> no_gap c' calls' (0%nat, mem0') -> (K <= total_done c' calls' (0%nat, mem0'))%nat ->
    Rabs (product b (Y1 (view (snd (do_calls c calls (0%nat, mem0))))) p - product b (Y1 (view (snd (do_calls c' calls' (0%nat, mem0'))))) p) <= eps.
Proof.
  intros b c q c' q' H Hb H' Hb' HP Hx Hx' Ex mem0 mem0' p eps Hp Wp He.
  assert (One : forall c q, instance_of c q -> divides c q b -> 0 < rlx c < 2 -> forall mem0, exists X, solution b X /\ exists K, forall calls,
    Forall (fun a => fair c (c_sched a)) calls -> no_gap c calls (0%nat, mem0) -> (K <= total_done c calls (0%nat, mem0))%nat ->
    Rabs (product b (Y1 (view (snd (do_calls c calls (0%nat, mem0))))) p - product b X p) < eps / 2).
  { clear c q c' q' H Hb H' Hb' Hx Hx' mem0 mem0'. intros c q H Hb Hx mem0. pose proof HP as HP'. rewrite (dv_P c q b Hb) in HP'.
    destruct (solver_limit c q b H Hb HP' (view mem0) Hx Ex) as (X & SX & K). exists X. split; [exact SX|].
    assert (C : Un_cv (fun k => product b (Y1 (iter c k (view mem0))) p) (product b X p)).
    { unfold product. rewrite (dv_M c q b Hb), (dv_P c q b Hb). apply (Compact.cv_sumn (nfilt c) (fun k f => sumn (npix c) (fun r => bD b f p r * Y1 (iter c k (view mem0)) f r))). intros f Hf.
      apply (Compact.cv_sumn (npix c) (fun k r => bD b f p r * Y1 (iter c k (view mem0)) f r)). intros r Hr. apply (CV_mult (fun _ => bD b f p r)); [apply Compact.cv_const|apply (K f r Hf Hr)]. }
    destruct (C (eps / 2) ltac:(lra)) as [k0 Hk]. exists k0. intros calls Hf Hn Hd.
    assert (E : product b (Y1 (view (snd (do_calls c calls (0%nat, mem0))))) p = product b (Y1 (iter c (total_done c calls (0%nat, mem0)) (view mem0))) p).
    { unfold product. rewrite (dv_M c q b Hb), (dv_P c q b Hb). apply sumn_ext. intros f Hff. apply sumn_ext. intros r Hr.
      destruct (calls_spec c (io_grp c q H) calls 0 mem0 Hf Hn (or_introl (le_0_n _))) as [_ Q]. destruct (Q f r Hff Hr) as [-> _]. reflexivity. }
    rewrite E. apply Hk. exact Hd. }
  destruct (One c q H Hb Hx mem0) as (X & SX & K & HK). destruct (One c' q' H' Hb' Hx' mem0') as (X' & SX' & K' & HK'). clear One.
  assert (EP : product b X p = product b X' p).
  { apply solution_product; try assumption; [apply (lam0 c q b H Hb)|apply (w0 c q b H Hb)|]. intros. apply (ok_convex c q b H Hb); try assumption. lra. }
  exists (Nat.max K K'). intros calls calls' F1 N1 D1 F2 N2 D2. specialize (HK calls F1 N1 ltac:(lia)). specialize (HK' calls' F2 N2 ltac:(lia)). rewrite EP in HK.
  apply Rabs_def2 in HK. apply Rabs_def2 in HK'. apply Rabs_le. lra.
Qed.
Print Assumptions C95_groups.

(** There is a solution if lmbda and the weights are positive. *)
Theorem C95_exists : forall c q b, instance_of c q -> divides c q b -> (0 < npix c)%nat -> 0 < lmbda c -> (forall f p, 0 < ParModel.wl1 c f p) -> exists X, solution b X.
Proof.
  intros c q b H Hb HP Hl Hw. apply (solution_exists b (nonneg c) (bnd c)).
  - rewrite (dv_P c q b Hb). exact HP.
  - rewrite (dv_l c q b Hb). exact Hl.
  - intros f p. rewrite (dv_w c q b Hb). apply Hw.
  - intros. apply (ok_iff c q b H Hb).
Qed.
Print Assumptions C95_exists.

(** Two filters in two groups, one pixel, over-relaxation: solutions are the x0, x1 >= 0 with x0 + x1 = 2. *)
Definition c95 : params := mkParams 2 2 1 (fun i => i) 1 1 1 (3 / 2) (fun _ _ => 1) (fun _ => 3) (fun _ => - / 3) false (fun _ => false)
  (fun i a b f p => (a p + b f p) / 2) (fun i a b p => (a p + b i p) / 2).
Definition q95 : problem := mkProblem 2 2 1 (fun i Z p => Z i p) (fun _ => 3) (fun _ => 1) 1 1 1 (3 / 2) (fun _ _ => 1) (fun _ _ _ => True).
Definition b95 : cbpdn := mkCbpdn 2 1 (fun _ _ _ => 1) (fun _ => 3) (fun _ => 1) 1 (fun _ _ => 1) (fun _ _ _ => True).
Example C95_instance : instance_of c95 q95 /\ divides c95 q95 b95 /\ (0 < npix c95)%nat /\ 0 < rlx c95 < 2 /\
  forall X, solution b95 X <-> 0 <= X 0%nat 0%nat /\ 0 <= X 1%nat 0%nat /\ X 0%nat 0%nat + X 1%nat 0%nat = 2.
Proof.
  split; [|split; [|split; [|split]]].
  - constructor; try reflexivity; try (simpl; intros; lra).
    + split; [reflexivity|]. split; [reflexivity|]. intros i Hi. simpl. lia.
    + simpl. intros i Z Z' Hi E p Hp. apply E; [|exact Hp]. apply ing_iff. simpl. lia.
    + intros i a b Z Hi. unfold quad. cbn [npix grp alpha c95 pD q95]. replace (S i - i)%nat with 1%nat by lia. cbn [sumn xs]. rewrite !Nat.add_0_r. cbn [c95 xs].
      pose proof (pow2_ge_0 (Z i 0%nat - (a 0%nat + b i 0%nat) / 2)). nra.
  - constructor; try reflexivity; try (simpl; intros; tauto).
    intros i Z p Hi Hp. cbn [npix grp c95 pD q95 b95 bD]. cbn [npix c95] in Hp. replace p with 0%nat by lia. replace (S i - i)%nat with 1%nat by lia. cbn [sumn]. rewrite Nat.add_0_r. ring.
  - simpl. lia.
  - simpl. lra.
  - assert (O : forall X, objective b95 X = / 2 * (X 0%nat 0%nat + X 1%nat 0%nat - 3) ^ 2 + (Rabs (X 0%nat 0%nat) + Rabs (X 1%nat 0%nat))).
    { intros X. unfold objective, product. cbn [b95 bM bP bD bS bW bl bw sumn]. ring. }
    assert (Low : forall X, 5 / 2 <= objective b95 X).
    { intros X. rewrite O. pose proof (Rle_abs (X 0%nat 0%nat)). pose proof (Rle_abs (X 1%nat 0%nat)). pose proof (pow2_ge_0 (X 0%nat 0%nat + X 1%nat 0%nat - 2)). nra. }
    assert (Val : forall X, 0 <= X 0%nat 0%nat /\ 0 <= X 1%nat 0%nat /\ X 0%nat 0%nat + X 1%nat 0%nat = 2 -> objective b95 X = 5 / 2).
    { intros X (H0 & H1 & H2). rewrite O, !Rabs_right by lra. replace (X 1%nat 0%nat) with (2 - X 0%nat 0%nat) by lra. field. }
    intros X. split.
    + intros [_ HX]. specialize (HX (fun _ _ => 1) ltac:(intros ? ? ? ?; exact I)). rewrite (Val (fun _ _ => 1)) in HX by lra. rewrite O in HX.
      pose proof (Rle_abs (X 0%nat 0%nat)) as A0. pose proof (Rle_abs (X 1%nat 0%nat)) as A1. pose proof (pow2_ge_0 (X 0%nat 0%nat + X 1%nat 0%nat - 2)) as A2.
      assert (T : (X 0%nat 0%nat + X 1%nat 0%nat - 2) ^ 2 = 0) by nra. assert (T' : X 0%nat 0%nat + X 1%nat 0%nat - 2 = 0) by nra.
      assert (R0 : Rabs (X 0%nat 0%nat) = X 0%nat 0%nat) by nra. assert (R1 : Rabs (X 1%nat 0%nat) = X 1%nat 0%nat) by nra.
      pose proof (Rabs_pos (X 0%nat 0%nat)). pose proof (Rabs_pos (X 1%nat 0%nat)). lra.
    + intros HX. split; [intros ? ? ? ?; exact I|]. intros Z _. rewrite (Val X HX). apply Low.
Qed.
