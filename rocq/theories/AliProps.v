(** C93: which arrays the solvers share with their caller and overwrite. *)
From Coq Require Import List String Arith Lia Bool.
From Verif Require Import AliModel AliSpec AliProofs.
Import ListNotations.
Open Scope string_scope.
Open Scope list_scope.

(** No modelled solver ever writes into an array passed in by the caller (signal,
    dictionary, coefficients, weights, mask), although most keep a reference to it
    rather than a copy: for every class, every sequence of options, branches,
    iterations and setdict/setcoef calls, and also when the caller passes the same
    array twice. *)
Theorem C93_caller_arrays : forall V p, In p all_progs -> keeps_args V p.
Proof.
  intros V p Hp. apply args_sound. revert p Hp. apply forallb_forall. vm_compute. reflexivity.
Qed.

(** What solve() and getmin(), getcoef() or getdict() return is never changed by
    further iterations, for the classes that bind their result to a new array in
    every iteration.  For the PGM classes the same holds for the arrays the
    Barzilai-Borwein step size keeps a reference to. *)
Definition stable : list prog :=
  [bpdn; convbpdn; addmasksim; convtwoblock; rpca; tvdenoise; convbpdntv_rx; pgm_bpdn;
   pgm_cmod; pgm_convbpdn_f; pgm_ccmod_f; dictlearn_ism; dictlearn_cns_x; dictlearn_pgm_x].

Theorem C93_results_stable : forall V p, In p stable -> keeps_results_from V 0 p.
Proof.
  intros V p Hp.
  assert (H : (negb (binds ghost (init p ;; body p)) && negb (mem ghost (args p)) &&
               forallb (check_result 0 p) (results p))%bool = true).
  { revert p Hp. apply forallb_forall. vm_compute. reflexivity. }
  apply andb_true_iff in H. destruct H as [H H3]. apply andb_true_iff in H.
  destruct H as [H1 H2]. apply negb_true_iff in H1, H2. apply result_sound; auto.
Qed.

(** The ADMM dictionary updates with a new Y in every iteration: the same from the
    first iteration on. *)
Theorem C93_results_stable_after_one :
  forall V p, In p [cmod; ccmod] -> keeps_results_from V 1 p.
Proof.
  intros V p Hp.
  assert (H : (negb (binds ghost (init p ;; body p)) && negb (mem ghost (args p)) &&
               forallb (check_result 1 p) (results p))%bool = true).
  { revert p Hp. apply forallb_forall. vm_compute. reflexivity. }
  apply andb_true_iff in H. destruct H as [H H3]. apply andb_true_iff in H.
  destruct H as [H1 H2]. apply negb_true_iff in H1, H2. apply result_sound; auto.
Qed.

(** Not before it: with option Y0 and no U0 the scaled dual variable is the same
    array as Y, so a dictionary fetched before the first iteration is overwritten
    by it. *)
Theorem C93_uinit_alias_refuted :
  overwrites nat cmod 0 "Y" /\ overwrites nat ccmod 0 "Y".
Proof.
  split.
  - apply (demo_sound cmod 0 "Y" [1]). vm_compute. reflexivity.
  - apply (demo_sound ccmod 0 "Y" [1]). vm_compute. reflexivity.
Qed.

(** The classes that write their result in place: the dictionary or coefficient
    array obtained from solve(), or recorded by a Callback, after any number n of
    iterations can be changed by the next one, whatever the state of the object. *)
Definition unstable : list (prog * attr) :=
  [(ccmod_cns, "Y"); (convbpdntv, "Y"); (pgm_convbpdn, "X"); (pgm_ccmod, "X");
   (onlinecdl, "D")].

Theorem C93_results_overwritten_refuted :
  forall V, (forall x : V, exists y, y <> x) ->
  forall p r, In (p, r) unstable ->
  forall n s0 s l, reached V p n s0 s ->
    (forall a, In a (args p) -> exists k, env s0 a = Some k) -> env s r = Some l ->
  exists s', iters V p 1 s s' /\ heap s' l <> heap s l.
Proof.
  intros V HV p r H n s0 s l HR Hb El. eapply hit_sound; eauto.
  assert (F : forallb check_hit unstable = true) by (vm_compute; reflexivity).
  rewrite forallb_forall in F. auto.
Qed.

(** Hence a dictionary learning object with dmethod 'cns' or 'pgm' overwrites the
    dictionaries it returned earlier (one inner iteration of each step per outer
    iteration in this execution); with 'ism' or 'cg' it does not
    (C93_results_stable, which also covers the coefficients for all of them). *)
Theorem C93_dictlearn_refuted :
  overwrites nat dictlearn_cns 1 "d.Y" /\ overwrites nat dictlearn_pgm 1 "d.X".
Proof.
  split.
  - apply (demo_sound dictlearn_cns 1 "d.Y" [0;0;0; 1;0;1;0;0; 1;0;0; 1;0;1;0;0; 1;0;0]).
    vm_compute. reflexivity.
  - apply (demo_sound dictlearn_pgm 1 "d.X" [0;0;0; 1;0;1;0;0; 1;0; 1;0;1;0;0; 1;0]).
    vm_compute. reflexivity.
Qed.

(** The copies of the previous iterate that the residuals, the momentum step and
    Monotone rely on (Yprev; Xprv, Yprv; Xfprv, Yfprv) are intact until the end of the
    iteration, in every class, although Y, X, U and the buffers may be written in place
    in between. *)
Theorem C93_previous_iterate : forall V p, In p all_progs -> keeps_prevs V p.
Proof.
  intros V p Hp. apply prev_sound. revert p Hp. apply forallb_forall. vm_compute. reflexivity.
Qed.

(** In the ADMM classes the result X of the x step and the unrelaxed product AXnr, which the primal residual is computed
    from after the y and u steps, are intact at the end of the iteration as well: relaxation, the y step and the u step do
    not write into them, although AX may be the same array. *)
Definition setdict_conv : cmd := opt (asarray "D" "arg.D2" ;; New "Df" ;; New "DSf").
Definition admm_splits : list (prog * cmd * cmd) :=
  [(bpdn, New "X" ;; Bind "AXnr" "X",
    Choice (Bind "AX" "X") (New "AX") ;; New "Y" ;; opt (Write "Y") ;; ustep ;; update_rho ;;
    opt (New "lu") ;; opt (asarray "D" "arg.D2" ;; New "DTS" ;; New "lu"));
   (convbpdn, Write "YU" ;; Write "Xf" ;; New "X" ;; Bind "AXnr" "X",
    Choice (Bind "AX" "X") (New "AX") ;; New "Y" ;; Loop (Write "Y") ;; ustep ;; update_rho ;; setdict_conv);
   (addmasksim, Write "YU" ;; Write "Xf" ;; New "X" ;; Bind "AXnr" "X",
    Choice (Bind "AX" "X") (New "AX") ;; New "Yi" ;; New "Y" ;; Loop (Write "Y") ;; Write "Yi" ;; Write "Y" ;;
    ustep ;; update_rho);
   (convtwoblock, Write "YU" ;; Write "YU" ;; Write "Xf" ;; New "X" ;; New "AXnr",
    Choice (Bind "AX" "AXnr") (New "AX") ;; New "AXU" ;; New "Y" ;; Loop (Write "Y") ;; ustep ;; update_rho ;;
    opt (asarray "D" "arg.D2" ;; New "Df"));
   (rpca, New "X" ;; Bind "AXnr" "X",
    Choice (Bind "AX" "X") (New "AX") ;; New "Y" ;; ustep ;; update_rho);
   (tvdenoise, New "T" ;; opt (Write "T") ;; Loop (New "X") ;; New "AXnr",
    Choice (Bind "AX" "AXnr") (New "AX") ;; New "Y" ;; ustep ;; update_rho);
   (cmod, New "X" ;; Bind "AXnr" "X",
    Choice (Bind "AX" "X") (New "AX") ;; New "Y" ;; ustep ;; update_rho ;; opt (New "lu") ;;
    opt (asarray "Z" "arg.Z2" ;; New "SZT" ;; New "lu"));
   (ccmod, Write "YU" ;; Write "Xf" ;; New "X" ;; Bind "AXnr" "X",
    Choice (Bind "AX" "X") (New "AX") ;; New "Y" ;; ustep ;; update_rho ;;
    opt (asarray "Z" "arg.Z2" ;; New "Zf" ;; New "ZSf"));
   (ccmod_cns, Choice (Loop (Write "YU" ;; Write "Xf" ;; Write "X"))
                      (Write "YU" ;; Loop (Write "Xf") ;; New "X") ;; Bind "AXnr" "X",
    Choice (Bind "AX" "X") (New "AX") ;; Write "Y" ;; ustep ;; update_rho ;;
    opt (asarray "Z" "arg.Z2" ;; New "Zf" ;; New "ZSf"));
   (convbpdntv, Write "YU" ;; Write "Xf" ;; New "X" ;; New "AXnr",
    Choice (Bind "AX" "AXnr") (New "AX") ;; New "AXU" ;; Write "Y" ;; Write "Y" ;; ustep ;; update_rho ;; setdict_conv)].
Theorem C93_unrelaxed_product : forall V p c1 c2, In (p, c1, c2) admm_splits -> keeps_midway V p c1 c2 ["X"; "AXnr"].
Proof.
  intros V p c1 c2 H.
  assert (F : forall q, In q admm_splits -> rnest (post (fst (fst q))) Skip = rnest (snd (fst q) ;; snd q) Skip).
  { intros q Hq. repeat (destruct Hq as [<-|Hq]; [reflexivity|]). destruct Hq. }
  assert (G : forallb (fun q => forallb (check_prev (shift (fst (fst q)) (snd (fst q)) (snd q) ["X"; "AXnr"])) ["X"; "AXnr"]) admm_splits = true)
    by (vm_compute; reflexivity).
  rewrite forallb_forall in G. apply midway_sound; [exact (F _ H)|exact (G _ H)].
Qed.

(** These statements are about executions that exist: for every class and all
    arguments, any number of iterations can be run, and then everything that is
    handed out exists. *)
Theorem C93_runs : forall V (v : V) p, In p all_progs ->
  forall s0, caller_state V p s0 -> (forall a, In a (args p) -> exists l, env s0 a = Some l) ->
  forall n, exists s, reached V p (S n) s0 s /\
                      forall r, In r (results p) -> exists l, env s r = Some l.
Proof.
  intros V v p Hp s0 Hs Hb n. apply (runs_sound v); auto.
  revert p Hp s0 Hs Hb n.
  assert (F : forallb check_runs all_progs = true) by (vm_compute; reflexivity).
  rewrite forallb_forall in F. auto.
Qed.

(** TVL2Denoise and TVL1Denoise hand the caller's own array back when no
    Gauss-Seidel step is made: then the result is the argument. *)
Theorem C93_tv_returns_argument :
  exists s0 s l, reached nat tvdenoise 1 s0 s /\ env s0 "arg.S" = Some l /\
                 env s "X" = Some l.
Proof.
  destruct (exec (init tvdenoise) (start tvdenoise, ([], 1))) as [z1|] eqn:E1;
    [|vm_compute in E1; discriminate].
  destruct (execs tvdenoise 1 z1) as [z2|] eqn:E2;
    [|vm_compute in E1; injection E1 as <-; vm_compute in E2; discriminate].
  exists (start tvdenoise), (fst z2), 0. split; [split; [apply start_ok|]|split].
  - exists (fst z1). split.
    + change (start tvdenoise) with (fst (start tvdenoise, (@nil nat, 1))).
      apply exec_sound; auto.
    + apply execs_sound; auto.
  - reflexivity.
  - vm_compute in E1. injection E1 as <-. vm_compute in E2. injection E2 as <-. reflexivity.
Qed.

(** A concrete case: two arguments, one object, three iterations; the dictionary of
    the first iteration is still there. *)
Example C93_instance :
  exists s0 s s' l, reached nat ccmod 1 s0 s /\ env s "Y" = Some l /\ iters nat ccmod 2 s s' /\
    heap s' l = heap s l /\ env s' "Y" <> Some l.
Proof.
  destruct (exec (init ccmod) (start ccmod, ([1], 1))) as [z1|] eqn:E1;
    [|vm_compute in E1; discriminate].
  destruct (execs ccmod 1 z1) as [z2|] eqn:E2;
    [|vm_compute in E1; injection E1 as <-; vm_compute in E2; discriminate].
  destruct (execs ccmod 2 z2) as [z3|] eqn:E3;
    [|vm_compute in E1; injection E1 as <-; vm_compute in E2; injection E2 as <-;
      vm_compute in E3; discriminate].
  assert (El : exists l, env (fst z2) "Y" = Some l /\ env (fst z3) "Y" <> Some l).
  { vm_compute in E1. injection E1 as <-. vm_compute in E2. injection E2 as <-.
    vm_compute in E3. injection E3 as <-. eexists. split; [reflexivity|].
    vm_compute. discriminate. }
  destruct El as [l [El Hne]].
  assert (R : reached nat ccmod 1 (start ccmod) (fst z2)).
  { split; [apply start_ok|]. exists (fst z1). split.
    + change (start ccmod) with (fst (start ccmod, ([1], 1))). apply exec_sound; auto.
    + apply execs_sound; auto. }
  exists (start ccmod), (fst z2), (fst z3), l. split; [exact R|].
  split; [exact El|]. split; [apply execs_sound; auto|]. split; [|exact Hne].
  apply (C93_results_stable_after_one nat ccmod (or_intror (or_introl eq_refl)) 1 2
           (start ccmod) (fst z2) (fst z3) "Y" l); auto.
  - cbn. auto.
  - apply execs_sound; auto.
Qed.

Print Assumptions C93_caller_arrays.
Print Assumptions C93_results_stable.
Print Assumptions C93_results_stable_after_one.
Print Assumptions C93_uinit_alias_refuted.
Print Assumptions C93_results_overwritten_refuted.
Print Assumptions C93_dictlearn_refuted.
Print Assumptions C93_previous_iterate.
Print Assumptions C93_unrelaxed_product.
Print Assumptions C93_runs.
Print Assumptions C93_tv_returns_argument.
