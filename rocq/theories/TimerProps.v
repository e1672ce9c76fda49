(** Properties C06-C08 of timers (sporco/util.py 574-899). *)
Require Import List String Bool ZArith Lia.
Require Import Verif.TimerModel Verif.TimerSpec Verif.TimerProofs.
Import ListNotations.
Local Open Scope string_scope.
Local Open Scope list_scope.
Local Open Scope Z_scope.

(** C06: the elapsed time of a label is the number of clock ticks charged to it by the history; unknown labels raise. *)
Theorem C06_elapsed_is_charged_time :
  forall dl al labels evs l lo now,
    nondecreasing lo evs -> last_time lo evs <= now ->
    elapsed now (trun (new dl al labels) evs) (Some l) true =
    if memb l (known dl labels evs)
    then Some (charged_time (marks_from dl al labels l evs []) lo now) else None.
Proof. intros dl al labels evs l lo now H1 H2. exact (elapsed_charged dl al labels evs l lo now H1 H2). Qed.
Print Assumptions C06_elapsed_is_charged_time.

(** C06/C07 for the default label, which reads zero when it does not exist. *)
Theorem C06_elapsed_default_label :
  forall dl al labels evs lo now,
    nondecreasing lo evs -> last_time lo evs <= now ->
    elapsed now (trun (new dl al labels) evs) None true =
    Some (charged_time (marks_from dl al labels dl evs []) lo now).
Proof. intros dl al labels evs lo now H1 H2. exact (elapsed_charged_dflt dl al labels evs lo now H1 H2). Qed.
Print Assumptions C06_elapsed_default_label.

Definition ex_history : list (Z * top) :=
  [(1, TStart (LMany ["solve"; "func"])); (3, TStop (LOne "func")); (4, TStart (LOne "solve"));
   (6, TStop (LMany ["func"; "nosuch"; "solve"])); (7, TStart (LOne "func")); (9, TStop (LOne "all"))].

Example C06_example :
  nondecreasing 0 ex_history /\ last_time 0 ex_history <= 12 /\
  elapsed 12 (trun (new "main" "all" ["init"]) ex_history) (Some "solve") true = Some 8 /\
  elapsed 12 (trun (new "main" "all" ["init"]) ex_history) (Some "func") true = Some 4 /\
  charged_time (marks_from "main" "all" ["init"] "func" ex_history []) 0 12 = 4.
Proof. simpl. repeat split; (lia || reflexivity). Qed.

(** C06: starting a running label and stopping a stopped one have no effect. *)
Theorem C06_start_stop_idempotent :
  forall t1 t2 tm l,
    (forall td s, find l (ents tm) = Some (td, Some s) -> start t1 tm (LOne l) = tm) /\
    (forall td, l <> alllbl tm -> find l (ents tm) = Some (td, None) -> stop t2 tm (LOne l) = (tm, true)).
Proof.
  intros t1 t2 tm l. split.
  - intros td s H. unfold start. simpl. unfold start1. rewrite H. destruct tm. reflexivity.
  - intros td Hl H. unfold stop, resolve. apply String.eqb_neq in Hl. rewrite Hl. simpl. unfold stop1. rewrite H.
    destruct tm. reflexivity.
Qed.
Print Assumptions C06_start_stop_idempotent.

(** C07: calls leave labels that they do not name alone, whether or not they raise. *)
Theorem C07_other_labels_unchanged :
  forall t now tm a l total,
    (memb l (started (dfltlbl tm) a) = false ->
       elapsed now (start t tm a) (Some l) total = elapsed now tm (Some l) total) /\
    (memb l (resolve tm a) = false ->
       elapsed now (fst (stop t tm a)) (Some l) total = elapsed now tm (Some l) total /\
       elapsed now (fst (reset tm a)) (Some l) total = elapsed now tm (Some l) total).
Proof.
  intros t now tm a l total. split.
  - intros H. rewrite !elapsed_find, start_find, H. reflexivity.
  - intros H. destruct (resolve_notin tm a l _ eq_refl H t) as [H1 H2].
    rewrite !elapsed_find, H1, H2. split; reflexivity.
Qed.
Print Assumptions C07_other_labels_unchanged.

(** C07: stop and reset raise exactly when they name a label that does not exist. *)
Theorem C07_errors_iff_unknown :
  forall t tm a,
    (snd (stop t tm a) = true <-> forall l, In l (resolve tm a) -> find l (ents tm) <> None) /\
    (snd (reset tm a) = true <-> forall l, In l (resolve tm a) -> find l (ents tm) <> None).
Proof. intros t tm a. split; [exact (stop_ok_iff t tm a)|exact (reset_ok_iff tm a)]. Qed.
Print Assumptions C07_errors_iff_unknown.

Example C07_example :
  let tm := trun (new "main" "all" ["init"]) ex_history in
  snd (stop 20 tm (LMany ["func"; "nosuch"])) = false /\ snd (stop 20 tm LNone) = false /\
  elapsed 20 tm None true = Some 0 /\ elapsed 20 tm (Some "main") true = None /\
  memb "init" (resolve tm (LMany ["func"; "nosuch"])) = false.
Proof. repeat split. Qed.

(** C07: reported totals are never negative and never decrease while time passes. *)
Theorem C07_elapsed_monotone :
  forall dl al labels evs l lo now1 now2 x1 x2,
    nondecreasing lo evs -> last_time lo evs <= now1 -> now1 <= now2 -> lo <= last_time lo evs ->
    elapsed now1 (trun (new dl al labels) evs) (Some l) true = Some x1 ->
    elapsed now2 (trun (new dl al labels) evs) (Some l) true = Some x2 ->
    0 <= x1 <= x2.
Proof.
  intros dl al labels evs l lo now1 now2 x1 x2 Hnd H1 H2 H3 E1 E2.
  rewrite (elapsed_charged dl al labels evs l lo now1 Hnd H1) in E1.
  rewrite (elapsed_charged dl al labels evs l lo now2 Hnd) in E2 by lia.
  destruct (memb l (known dl labels evs)); [|discriminate]. inversion E1. inversion E2. subst.
  split; [apply ticks_nonneg|apply charged_time_mono; lia].
Qed.
Print Assumptions C07_elapsed_monotone.

(** C08: a start-stop context timer charges the block, and only it, to an idle label, whatever happens in the block; the
    exception, if any, propagates (False is returned). *)
Theorem C08_start_stop_block :
  forall t1 t2 now tm l td body raised,
    l <> alllbl tm -> find l (ents tm) = Some (td, None) ->
    (forall tm', alllbl (body tm') = alllbl tm' /\ find l (ents (body tm')) = find l (ents tm')) ->
    let '(tm', ok, ret) := with_block t1 t2 tm (Some l) StartStop body raised in
    ok = true /\ ret = negb raised /\ elapsed now tm' (Some l) true = Some (td + (t2 - t1)).
Proof. exact with_start_stop. Qed.
Print Assumptions C08_start_stop_block.

(** C08: a stop-start context timer excludes the block from a running label. *)
Theorem C08_stop_start_block :
  forall t1 t2 now tm l td s body raised,
    l <> alllbl tm -> find l (ents tm) = Some (td, Some s) ->
    (forall tm', alllbl (body tm') = alllbl tm' /\ find l (ents (body tm')) = find l (ents tm')) ->
    let '(tm', ok, ret) := with_block t1 t2 tm (Some l) StopStart body raised in
    ok = true /\ ret = negb raised /\
    elapsed now tm' (Some l) true = Some (td + (t1 - s) + (now - t2)).
Proof. exact with_stop_start. Qed.
Print Assumptions C08_stop_start_block.

Example C08_example :
  with_block 5 9 (new "main" "all" ["a"]) (Some "a") StartStop (fun tm => start 6 tm (LOne "b")) true =
    (mkTimer "main" "all" [("a", (4, None)); ("b", (0, Some 6))], true, false).
Proof. reflexivity. Qed.

(** Without the hypothesis that the label is idle the claim is false: a nested with-block on the same label stops the
    outer one, so that the outer block is not charged in full. *)
Theorem C08_nested_refuted :
  exists t1 t2 now tm l body,
    l <> alllbl tm /\ find l (ents tm) = Some (0, None) /\ t1 <= t2 <= now /\
    (exists s1 s2, t1 <= s1 <= s2 /\ s2 <= t2 /\
       body = (fun tm => fst (fst (with_block s1 s2 tm (Some l) StartStop (fun x => x) false)))) /\
    elapsed now (fst (fst (with_block t1 t2 tm (Some l) StartStop body false))) (Some l) true <> Some (t2 - t1).
Proof.
  exists 0, 10, 20, (new "main" "all" ["a"]), "a",
    (fun tm => fst (fst (with_block 2 3 tm (Some "a") StartStop (fun x => x) false))).
  split; [discriminate|]. split; [reflexivity|]. split; [lia|]. split.
  - exists 2, 3. split; [lia|]. split; [lia|reflexivity].
  - discriminate.
Qed.
Print Assumptions C08_nested_refuted.
