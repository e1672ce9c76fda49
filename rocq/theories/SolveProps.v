(** C32, C33, C63: the main loops. *)
Require Import String List Bool ZArith Arith Lia.
Require Import Verif.TimerModel Verif.SolveModel Verif.SolveSpec Verif.SolveProofs Verif.SolveTimers.
Import ListNotations.
Local Open Scope string_scope.
Local Open Scope list_scope.

(** C32 and C33 for one call of ADMM.solve in any state: the call performs exactly the number of iterations that the
    stopping rule asks for, at least one and at most MaxMainIter; the arrays are those after that many iterations; the
    counter advances by that number; and one numbered line of statistics is recorded per iteration unless FastSolve. *)
Theorem C33_admm_stopping :
  forall {St Stat Num : Type} (ltb : Num -> Num -> bool) clock sweep residuals stats update_rho
         (o : opts St) (s : sol St Stat),
  1 <= maxiter o ->
  exists m,
    performs (admm_iter sweep residuals update_rho o) (admm_reason ltb sweep residuals update_rho o)
             (cnt s) (it s) (maxiter o) m /\
    let s' := admm_solve ltb clock sweep residuals stats update_rho o s in
    it s' = after (admm_iter sweep residuals update_rho o) (cnt s) (it s) m /\
    cnt s' = cnt s + m /\
    numbers s' = numbers s ++ (if fast o then [] else seq (cnt s) m).
Proof.
  intros St Stat Num ltb clock sweep residuals stats update_rho o s H.
  destruct (admm_call ltb clock sweep residuals stats update_rho o s H) as (m & H1 & H2 & H3 & H4).
  exists m. repeat split; try assumption; try apply H1. rewrite H4. destruct (fast o); reflexivity.
Qed.
Print Assumptions C33_admm_stopping.

(** The same for PGM.solve. *)
Theorem C33_pgm_stopping :
  forall {St Stat Num : Type} (ltb : Num -> Num -> bool) clock stats pgm_start pgm_xy pgm_bt pgm_res
         (o : opts St) (s : sol St Stat),
  1 <= maxiter o ->
  exists m,
    performs (pgm_iter pgm_start pgm_xy pgm_bt o) (pgm_reason ltb pgm_start pgm_xy pgm_bt pgm_res o)
             (cnt s) (it s) (maxiter o) m /\
    let s' := pgm_solve ltb clock stats pgm_start pgm_xy pgm_bt pgm_res o s in
    it s' = after (pgm_iter pgm_start pgm_xy pgm_bt o) (cnt s) (it s) m /\
    cnt s' = cnt s + m /\
    numbers s' = numbers s ++ (if fast o then [] else seq (cnt s) m).
Proof.
  intros St Stat Num ltb clock stats ps px pb pr o s H.
  destruct (pgm_call ltb clock stats ps px pb pr o s H) as (m & H1 & H2 & H3 & H4).
  exists m. repeat split; try assumption; try apply H1. rewrite H4. destruct (fast o); reflexivity.
Qed.
Print Assumptions C33_pgm_stopping.

(** The same for DictLearn.solve, which stops early only on request of the callback and always records statistics. *)
Theorem C33_dictlearn_stopping :
  forall {St Stat Num : Type} clock (stats : nat -> St -> option (Num * Num * Num * Num) -> Stat) dl_steps
         (o : opts St) (s : sol St Stat),
  1 <= maxiter o ->
  exists m,
    performs (dl_iter dl_steps o) (dl_reason dl_steps o) (cnt s) (it s) (maxiter o) m /\
    let s' := dl_solve clock stats dl_steps o s in
    it s' = after (dl_iter dl_steps o) (cnt s) (it s) m /\
    cnt s' = cnt s + m /\
    numbers s' = numbers s ++ seq (cnt s) m.
Proof.
  intros St Stat Num clock stats dls o s H.
  destruct (dl_call clock stats dls o s H) as (m & H1 & H2 & H3 & H4).
  exists m. repeat split; try assumption; apply H1.
Qed.
Print Assumptions C33_dictlearn_stopping.

(** C32: over any history of solve calls on a new solver, the counter is the number of iterations performed, as seen by
    any observer [c] that counts iterations, and the statistics are numbered 0, 1, 2, ... without gap or repetition. *)
Theorem C32_accounting_partial :
  forall {St Stat Num : Type} (ltb : Num -> Num -> bool) clock sweep residuals
         (stats : nat -> St -> option (Num * Num * Num * Num) -> Stat) update_rho pgm_start pgm_xy pgm_bt pgm_res dl_steps
         (i : St) (os : list (opts St)),
  (forall o, In o os -> 1 <= maxiter o /\ fast o = false) ->
  (forall c : St -> nat, (forall o k x, c (admm_iter sweep residuals update_rho o k x) = S (c x)) ->
     let s := solves (admm_solve ltb clock sweep residuals stats update_rho) os (new_solver clock admm_labels i) in
     cnt s + c i = c (it s) /\ numbers s = seq 0 (cnt s)) /\
  (forall c : St -> nat, (forall o k x, c (pgm_iter pgm_start pgm_xy pgm_bt o k x) = S (c x)) ->
     let s := solves (pgm_solve ltb clock stats pgm_start pgm_xy pgm_bt pgm_res) os (new_solver clock pgm_labels i) in
     cnt s + c i = c (it s) /\ numbers s = seq 0 (cnt s)) /\
  (forall c : St -> nat, (forall o k x, c (dl_iter dl_steps o k x) = S (c x)) ->
     let s := solves (dl_solve clock stats dl_steps) os (new_solver clock dl_labels i) in
     cnt s + c i = c (it s) /\ numbers s = seq 0 (cnt s)).
Proof.
  intros St Stat Num ltb clock sweep residuals stats update_rho ps px pb pr dls i os Ho.
  repeat split.
  1,2: destruct (history _ _ _ _ (admm_call ltb clock sweep residuals stats update_rho) c H os (new_solver clock admm_labels i))
    as (E1 & E2); [intros o Hi; destruct (Ho o Hi) as [A B]; rewrite B; split; [exact A|reflexivity]|reflexivity|];
    [exact E1 || exact E2].
  1,2: destruct (history _ _ _ _ (pgm_call ltb clock stats ps px pb pr) c H os (new_solver clock pgm_labels i))
    as (E1 & E2); [intros o Hi; destruct (Ho o Hi) as [A B]; rewrite B; split; [exact A|reflexivity]|reflexivity|];
    [exact E1 || exact E2].
  1,2: destruct (history _ _ _ _ (dl_call clock stats dls) c H os (new_solver clock dl_labels i))
    as (E1 & E2); [intros o Hi; destruct (Ho o Hi) as [A B]; split; [exact A|reflexivity]|reflexivity|];
    [exact E1 || exact E2].
Qed.
Print Assumptions C32_accounting_partial.

(** C32 is false for MaxMainIter = 0: no iteration is performed, the arrays and statistics do not change, but the counter
    advances, so that later statistics are misnumbered. *)
Theorem C32_zero_iterations_refuted :
  forall {St Stat Num : Type} (ltb : Num -> Num -> bool) clock sweep residuals
         (stats : nat -> St -> option (Num * Num * Num * Num) -> Stat) update_rho pgm_start pgm_xy pgm_bt pgm_res dl_steps
         (o : opts St) (s : sol St Stat),
  maxiter o = 0 ->
  let a := admm_solve ltb clock sweep residuals stats update_rho o s in
  let p := pgm_solve ltb clock stats pgm_start pgm_xy pgm_bt pgm_res o s in
  let d := dl_solve clock stats dl_steps o s in
  (it a = it s /\ numbers a = numbers s /\ cnt a = S (cnt s)) /\
  (it p = it s /\ numbers p = numbers s /\ cnt p = S (cnt s)) /\
  (it d = it s /\ numbers d = numbers s /\ cnt d = S (cnt s)).
Proof.
  intros St Stat Num ltb clock sweep residuals stats update_rho ps px pb pr dls o s H.
  unfold admm_solve, pgm_solve, dl_solve. rewrite H. repeat split; reflexivity.
Qed.
Print Assumptions C32_zero_iterations_refuted.

(** C63: after any number of solve calls on a new solver, under any options and stopping behaviour and for any
    non-decreasing clock, every solver timer stands still, and the timers that exclude residuals, function evaluations and
    backtracking are not ahead of those that include them. *)
Definition never_ahead (s : timer) (ps : list (label * label)) : Prop :=
  forall a b, In (a, b) ps -> forall t, exists x y,
  elapsed t s (Some a) true = Some x /\ elapsed t s (Some b) true = Some y /\ (x <= y)%Z.

Definition stands_still (s : timer) (ls : list label) : Prop :=
  forall l, In l ls -> forall t t' total, elapsed t s (Some l) total = elapsed t' s (Some l) total.

Theorem C63_timers_balanced :
  forall {St Stat Num : Type} (ltb : Num -> Num -> bool) clock sweep residuals
         (stats : nat -> St -> option (Num * Num * Num * Num) -> Stat) update_rho pgm_start pgm_xy pgm_bt pgm_res dl_steps
         (i : St) (os : list (opts St)),
  (forall n, (clock n <= clock (S n))%Z) ->
  let a := tm (solves (admm_solve ltb clock sweep residuals stats update_rho) os (new_solver clock admm_labels i)) in
  let p := tm (solves (pgm_solve ltb clock stats pgm_start pgm_xy pgm_bt pgm_res) os (new_solver clock pgm_labels i)) in
  let d := tm (solves (dl_solve clock stats dl_steps) os (new_solver clock dl_labels i)) in
  (stands_still a ["solve"; "solve_wo_func"; "solve_wo_rsdl"] /\
   never_ahead a [("solve_wo_rsdl", "solve_wo_func"); ("solve_wo_func", "solve")]) /\
  (stands_still p ["solve"; "solve_wo_func"; "solve_wo_rsdl"; "solve_wo_btrack"] /\
   never_ahead p [("solve_wo_rsdl", "solve_wo_func"); ("solve_wo_btrack", "solve_wo_func"); ("solve_wo_func", "solve")]) /\
  (stands_still d ["solve"; "solve_wo_eval"] /\ never_ahead d [("solve_wo_eval", "solve")]).
Proof.
  intros St Stat Num ltb clock sweep residuals stats update_rho ps px pb pr dls i os Hc a p d.
  assert (Ia : tinv clock admm_labels admm_pairs none_running
                 (solves (admm_solve ltb clock sweep residuals stats update_rho) os (new_solver clock admm_labels i))).
  { apply solves_tinv; [intros; apply admm_solve_tinv; assumption|].
    apply new_tinv; [exact Hc|simpl; intuition discriminate| |repeat constructor; simpl; intuition discriminate].
    intros q Hq; simpl in Hq; repeat (destruct Hq as [<-|Hq]; [simpl; tauto|]); contradiction. }
  assert (Ip : tinv clock pgm_labels pgm_pairs none_running
                 (solves (pgm_solve ltb clock stats ps px pb pr) os (new_solver clock pgm_labels i))).
  { apply solves_tinv; [intros; apply pgm_solve_tinv; assumption|].
    apply new_tinv; [exact Hc|simpl; intuition discriminate| |repeat constructor; simpl; intuition discriminate].
    intros q Hq; simpl in Hq; repeat (destruct Hq as [<-|Hq]; [simpl; tauto|]); contradiction. }
  assert (Id : tinv clock dl_labels dl_pairs none_running
                 (solves (dl_solve clock stats dls) os (new_solver clock dl_labels i))).
  { apply solves_tinv; [intros; apply dl_solve_tinv; assumption|].
    apply new_tinv; [exact Hc|simpl; intuition discriminate| |repeat constructor; simpl; intuition discriminate].
    intros q Hq; simpl in Hq; repeat (destruct Hq as [<-|Hq]; [simpl; tauto|]); contradiction. }
  split; [|split]; split.
  - intros l Hl t t' b. exact (stopped_elapsed _ _ _ _ Ia l Hl t t' b).
  - intros x y Hxy t. refine (tinv_elapsed _ _ _ _ _ Ia x y Hxy t).
    intros q Hq; simpl in Hq; repeat (destruct Hq as [<-|Hq]; [simpl; tauto|]); contradiction.
  - intros l Hl t t' b. exact (stopped_elapsed _ _ _ _ Ip l Hl t t' b).
  - intros x y Hxy t. refine (tinv_elapsed _ _ _ _ _ Ip x y Hxy t).
    intros q Hq; simpl in Hq; repeat (destruct Hq as [<-|Hq]; [simpl; tauto|]); contradiction.
  - intros l Hl t t' b. exact (stopped_elapsed _ _ _ _ Id l Hl t t' b).
  - intros x y Hxy t. refine (tinv_elapsed _ _ _ _ _ Id x y Hxy t).
    intros q Hq; simpl in Hq; repeat (destruct Hq as [<-|Hq]; [simpl; tauto|]); contradiction.
Qed.
Print Assumptions C63_timers_balanced.

(** A concrete solver: the state counts sweeps; residuals 5 - i against tolerance 2; two calls. *)
Definition ex_solve :=
  solves (admm_solve Z.ltb (fun n => Z.of_nat n) (fun _ i => S i)
            (fun i => (5 - Z.of_nat i, 0, 2, 1)%Z) (fun _ i _ => i) (fun _ _ _ _ i => i))
    [mkOpts 2 false false false "solve" None; mkOpts 10 true false false "solve_wo_rsdl" None]
    (new_solver (fun n => Z.of_nat n) admm_labels 0).

Example C32_example : cnt ex_solve = 4 /\ it ex_solve = 4 /\ numbers ex_solve = [0; 1; 2; 3] /\
  elapsed 100 (tm ex_solve) (Some "solve") true = Some 30%Z /\
  elapsed 100 (tm ex_solve) (Some "solve_wo_rsdl") true = Some 14%Z.
Proof. vm_compute. repeat split. Qed.
