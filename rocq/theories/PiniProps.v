Require Import List Arith Reals Bool String Lra.
Require Import Verif.PiniModel Verif.PiniSpec Verif.PiniProofs.
Import ListNotations.
Local Open Scope string_scope.

(** Without initial value options every object starts from zero, whatever happened before in the process. *)
Theorem C98_default (es : list event) (c : conf) : optY0 c = None -> optY1 c = None -> optU0 c = None -> optU1 c = None ->
  start c (history (es ++ [Construct c]) module_loaded) =
  Start (expected (optY0 c) (shpY0 c)) (expected (optY1 c) (shpX c)) (expected (optU0 c) (shpY0 c)) (expected (optU1 c) (shpX c)).
Proof.
  intros H1 H2 H3 H4. rewrite history_snoc. cbn [happens]. unfold start.
  pose proof (construct_var VY0 c (history es module_loaded)) as E1. pose proof (construct_var VY1 c (history es module_loaded)) as E2.
  pose proof (construct_var VU0 c (history es module_loaded)) as E3. pose proof (construct_var VU1 c (history es module_loaded)) as E4.
  cbn [name_of option_of shape_of] in *. rewrite H1 in E1. rewrite H2 in E2. rewrite H3 in E3. rewrite H4 in E4. rewrite E1, E2, E3, E4.
  cbn [shape]. destruct (list_eq_dec Nat.eq_dec (shpY0 c) (shpY0 c)); [|contradiction]. destruct (list_eq_dec Nat.eq_dec (shpX c) (shpX c)); [|contradiction].
  rewrite H1, H2, H3, H4. reflexivity.
Qed.
Print Assumptions C98_default.

(** In general: after any history of constructions and solves, each variable of the object constructed last is zero when its option
    is not set, and otherwise what earlier objects of the process left behind. *)
Theorem C98_start (es : list event) (c : conf) (q : var) :
  history (es ++ [Construct c]) module_loaded (name_of q) =
  match option_of q c with None => Some (expected None (shape_of q c)) | Some _ => left_behind q (rev es) end.
Proof. rewrite history_snoc. cbn [happens]. rewrite construct_var, <- history_var. reflexivity. Qed.
Print Assumptions C98_start.

(** The value given for an option never matters. *)
Theorem C98_value_ignored (es : list event) (c c' : conf) : shpY0 c = shpY0 c' -> shpX c = shpX c' ->
  (forall q, option_of q c = None <-> option_of q c' = None) ->
  start c (history (es ++ [Construct c]) module_loaded) = start c' (history (es ++ [Construct c']) module_loaded).
Proof.
  intros S0 S1 H.
  assert (E : forall q, history (es ++ [Construct c]) module_loaded (name_of q) = history (es ++ [Construct c']) module_loaded (name_of q)).
  { intros q. rewrite !C98_start. specialize (H q). assert (Sq : shape_of q c = shape_of q c') by (destruct q; assumption).
    destruct (option_of q c), (option_of q c'); [reflexivity|destruct H as [_ H]; discriminate (H eq_refl)|destruct H as [H _]; discriminate (H eq_refl)|].
    rewrite Sq. reflexivity. }
  unfold start. pose proof (E VY0) as E1. pose proof (E VY1) as E2. pose proof (E VU0) as E3. pose proof (E VU1) as E4. cbn [name_of] in *.
  rewrite E1, E2, E3, E4, S0, S1. reflexivity.
Qed.
Print Assumptions C98_value_ignored.

(** Setting one of the options in a process where no object was constructed without it: solve raises. *)
Theorem C98_fresh_refuted (es : list event) (c : conf) (q : var) (v : arr) : option_of q c = Some v ->
  (forall c', In (Construct c') es -> option_of q c' <> None) ->
  start c (history (es ++ [Construct c]) module_loaded) = TypeError.
Proof.
  intros Hv Hes. assert (N : history (es ++ [Construct c]) module_loaded (name_of q) = None).
  { rewrite C98_start, Hv. assert (G : forall l, (forall c', In (Construct c') l -> option_of q c' <> None) -> left_behind q l = None).
    { induction l as [|e l IH]; intros H; [reflexivity|]. cbn [left_behind]. destruct e as [c'|f].
      - destruct (option_of q c') eqn:E; [apply IH; intros c'' Hc; apply H; right; exact Hc|]. exfalso. apply (H c' (or_introl eq_refl)). exact E.
      - rewrite IH by (intros c'' Hc; apply H; right; exact Hc). reflexivity. }
    apply G. intros c' Hc. apply Hes. apply in_rev. exact Hc. }
  unfold start. revert N. generalize (history (es ++ [Construct c]) module_loaded). intros g N. destruct q; cbn [name_of] in N; rewrite N.
  - reflexivity.
  - destruct (g "mp_Y0"); reflexivity.
  - destruct (g "mp_Y0"), (g "mp_Y1"); reflexivity.
  - destruct (g "mp_Y0"), (g "mp_Y1"), (g "mp_U0"); reflexivity.
Qed.
Print Assumptions C98_fresh_refuted.

(** After an object of the same shape was solved, an object given Y1 starts from the coefficients of the earlier one instead,
    without an error. *)
Theorem C98_stale_refuted : exists (c1 c2 : conf) (f : string -> nat -> R) (y1 : arr),
  let g := history ([Construct c1; Solve f] ++ [Construct c2]) module_loaded in
  exists b y0 u0 u1, optY1 c2 = Some y1 /\ start c2 g = Start y0 b u0 u1 /\ shape b = shape y1 /\ entries b = f "mp_Y1" /\
    entries b 0 <> entries (expected (optY1 c2) (shpX c2)) 0.
Proof.
  exists (mkConf [1; 2] [3; 2] None None None None), (mkConf [1; 2] [3; 2] None (Some (mkArr [3; 2] (fun _ => 1%R))) None None),
    (fun _ _ => 5%R), (mkArr [3; 2] (fun _ => 1%R)).
  intros g. exists (mkArr [3; 2] (fun _ => 5%R)), (mkArr [1; 2] (fun _ => 0%R)), (mkArr [1; 2] (fun _ => 0%R)), (mkArr [3; 2] (fun _ => 0%R)).
  repeat split. cbn [entries expected optY1]. lra.
Qed.
Print Assumptions C98_stale_refuted.

(** Cases meeting the hypotheses: an object without options after a solved one, and one with Y0 in a fresh process. *)
Example C98_instance : let c1 := mkConf [1; 2] [3; 2] None None None None in let c2 := mkConf [1; 2] [3; 2] (Some (mkArr [1; 2] (fun _ => 1%R))) None None None in
  (exists y0 y1 u0 u1, start c1 (history ([Construct c1; Solve (fun _ _ => 5%R)] ++ [Construct c1]) module_loaded) = Start y0 y1 u0 u1 /\ entries y1 4 = 0%R) /\
  start c2 (history ([] ++ [Construct c2]) module_loaded) = TypeError.
Proof.
  intros c1 c2. split.
  - rewrite C98_default by reflexivity. do 4 eexists. split; reflexivity.
  - apply (C98_fresh_refuted [] c2 VY0 (mkArr [1; 2] (fun _ => 1%R))); [reflexivity|intros c' []].
Qed.
