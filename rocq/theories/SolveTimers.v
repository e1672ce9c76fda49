(** Timers through the main loops. *)
Require Import String List Bool ZArith Arith Lia.
Require Import Verif.TimerModel Verif.TimerSpec Verif.TimerProofs Verif.SolveModel.
Import ListNotations.
Local Open Scope list_scope.
Local Open Scope string_scope.

Definition knows (ls : list label) (t : timer) : Prop := forall l, In l ls -> find l (ents t) <> None.
Definition running (t : timer) (l : label) : bool :=
  match find l (ents t) with Some (_, Some _) => true | _ => false end.

(** Label [a] is never ahead of label [b] at time [now]. *)
Definition ord (a b : label) (t : timer) (now : Z) : Prop :=
  (value (find a (ents t)) now <= value (find b (ents t)) now)%Z /\ (running t a = true -> running t b = true).

Lemma known_ents t : forall l, memb l (map fst (ents t)) = true <-> find l (ents t) <> None.
Proof. intros l. rewrite memb_in. symmetry. apply find_keys. Qed.

Lemma stop_many t tm ls l : knows ls tm ->
  find l (ents (fst (stop t tm (LMany ls)))) =
  if memb l ls then option_map (gstop t) (find l (ents tm)) else find l (ents tm).
Proof.
  intros H. rewrite (stop_find t tm _ (LMany ls) l (known_ents tm)). simpl.
  rewrite upto_all; [reflexivity|]. intros l' Hl'. apply known_ents. apply H. exact Hl'.
Qed.

Lemma start_many t tm ls l :
  find l (ents (start t tm (LMany ls))) = if memb l ls then gstart t (find l (ents tm)) else find l (ents tm).
Proof. apply start_find. Qed.

Lemma knows_start t tm ls ks : knows ks tm -> knows ks (start t tm (LMany ls)).
Proof.
  intros H l Hl. rewrite start_many. specialize (H l Hl). destruct (memb l ls); [|exact H].
  destruct (find l (ents tm)) as [[td [s|]]|]; simpl; congruence.
Qed.

Lemma knows_stop t tm ls ks : knows ls tm -> knows ks tm -> knows ks (fst (stop t tm (LMany ls))).
Proof.
  intros H0 H l Hl. rewrite stop_many by exact H0. specialize (H l Hl). destruct (memb l ls); [|exact H].
  destruct (find l (ents tm)); simpl; congruence.
Qed.

Lemma ord_later a b tm t t' : (t <= t')%Z -> ord a b tm t -> ord a b tm t'.
Proof.
  unfold ord, running. intros Ht [H1 H2]. split; [|exact H2].
  destruct (find a (ents tm)) as [[da [sa|]]|]; destruct (find b (ents tm)) as [[db [sb|]]|]; simpl in *;
    try lia; specialize (H2 eq_refl); discriminate.
Qed.

Lemma value_stop t o : value (option_map (gstop t) o) t = value o t.
Proof. destruct o as [[d [s|]]|]; reflexivity. Qed.
Lemma value_start t o : value (gstart t o) t = value o t.
Proof. destruct o as [[d [s|]]|]; simpl; lia. Qed.

Lemma ord_stop a b tm t ls : knows ls tm -> (memb b ls = true -> memb a ls = true) ->
  ord a b tm t -> ord a b (fst (stop t tm (LMany ls))) t.
Proof.
  intros Hk Hs [H1 H2]. unfold ord, running in *. rewrite !stop_many by exact Hk. split.
  - destruct (memb a ls), (memb b ls); rewrite ?value_stop; exact H1.
  - destruct (memb b ls).
    + rewrite (Hs eq_refl). destruct (find a (ents tm)) as [[da [sa|]]|]; simpl; discriminate.
    + destruct (memb a ls); [destruct (find a (ents tm)) as [[da [sa|]]|]; simpl; discriminate|exact H2].
Qed.

Lemma ord_start a b tm t ls : (memb a ls = true -> memb b ls = true \/ running tm b = true) ->
  ord a b tm t -> ord a b (start t tm (LMany ls)) t.
Proof.
  intros Hs [H1 H2]. unfold ord, running in *. rewrite !start_many. split.
  - destruct (memb a ls), (memb b ls); rewrite ?value_start; exact H1.
  - destruct (memb a ls).
    + destruct (Hs eq_refl) as [E|E].
      * rewrite E. intros _. destruct (find b (ents tm)) as [[db [sb|]]|]; reflexivity.
      * intros _. destruct (memb b ls); destruct (find b (ents tm)) as [[db [sb|]]|]; try discriminate E; reflexivity.
    + intros H. specialize (H2 H). destruct (memb b ls); [|exact H2].
      destruct (find b (ents tm)) as [[db [sb|]]|]; try discriminate H2; reflexivity.
Qed.

Lemma running_start tm t ls l : running (start t tm (LMany ls)) l = memb l ls || running tm l.
Proof.
  unfold running. rewrite start_many. destruct (memb l ls); simpl; [|reflexivity].
  destruct (find l (ents tm)) as [[d [s|]]|]; reflexivity.
Qed.

Lemma running_stop tm t ls l : knows ls tm ->
  running (fst (stop t tm (LMany ls))) l = negb (memb l ls) && running tm l.
Proof.
  intros Hk. unfold running. rewrite stop_many by exact Hk. destruct (memb l ls); simpl; [|reflexivity].
  destruct (find l (ents tm)) as [[d [s|]]|]; reflexivity.
Qed.

Section Loops.
Context {St Stat Num : Type}.
Notation sol := (sol St Stat).
Notation opts := (opts St).
Variable clock : nat -> Z.
Hypothesis clock_mono : forall n, (clock n <= clock (S n))%Z.

(** The invariant of a solver with label list [ls], pairs [ps] (the first never ahead of the second) and running set
    [run]. *)
Definition tinv (ls : list label) (ps : list (label * label)) (run : label -> bool) (s : sol) : Prop :=
  knows ls (tm s) /\ (forall l, In l ls -> running (tm s) l = run l) /\
  (forall p, In p ps -> ord (fst p) (snd p) (tm s) (clock (ck s))).

Lemma tinv_start ls ps run xs s :
  (forall p, In p ps -> In (fst p) ls /\ In (snd p) ls) ->
  (forall p, In p ps -> memb (fst p) xs = true -> memb (snd p) xs || run (snd p) = true) ->
  tinv ls ps run s -> tinv ls ps (fun l => memb l xs || run l) (tstart clock xs s).
Proof.
  intros Hp Hx (H1 & H2 & H3). split; [|split].
  - unfold tstart, tstop; cbn [tm ck]. apply knows_start. exact H1.
  - intros l Hl. unfold tstart, tstop; cbn [tm ck]. rewrite running_start, (H2 l Hl). reflexivity.
  - intros p Hi. unfold tstart, tstop; cbn [tm ck]. apply ord_later with (t := clock (ck s)); [apply clock_mono|].
    apply ord_start; [|apply H3; exact Hi]. intros Hm. destruct (Hp p Hi) as [Ha Hb].
    rewrite (H2 _ Hb). apply orb_true_iff. apply Hx; assumption.
Qed.

Lemma tinv_stop ls ps run xs s :
  (forall x, In x xs -> In x ls) ->
  (forall p, In p ps -> memb (snd p) xs = true -> memb (fst p) xs = true) ->
  tinv ls ps run s -> tinv ls ps (fun l => negb (memb l xs) && run l) (tstop clock xs s).
Proof.
  intros Hxs Hx (H1 & H2 & H3).
  assert (Hk : knows xs (tm s)) by (intros l Hl; apply H1, Hxs, Hl).
  split; [|split].
  - unfold tstart, tstop; cbn [tm ck]. apply knows_stop; assumption.
  - intros l Hl. unfold tstart, tstop; cbn [tm ck]. rewrite running_stop by exact Hk. rewrite (H2 l Hl). reflexivity.
  - intros p Hi. unfold tstart, tstop; cbn [tm ck]. apply ord_later with (t := clock (ck s)); [apply clock_mono|].
    apply ord_stop; [exact Hk| |apply H3; exact Hi]. apply Hx. exact Hi.
Qed.

Lemma tinv_eq ls ps run s s' : tm s' = tm s -> ck s' = ck s -> tinv ls ps run s -> tinv ls ps run s'.
Proof. intros E1 E2 H. unfold tinv in *. rewrite E1, E2. exact H. Qed.

Lemma tinv_tick ls ps run s s' : tm s' = tm s -> ck s' = S (ck s) -> tinv ls ps run s -> tinv ls ps run s'.
Proof.
  intros E1 E2 (H1 & H2 & H3). unfold tinv in *. rewrite E1, E2. split; [exact H1|split; [exact H2|]].
  intros p Hp. apply ord_later with (t := clock (ck s)); [apply clock_mono|]. apply H3. exact Hp.
Qed.

Lemma tinv_ext ls ps run run' s : (forall l, In l ls -> run l = run' l) -> tinv ls ps run s -> tinv ls ps run' s.
Proof.
  intros E (H1 & H2 & H3). split; [exact H1|split; [|exact H3]]. intros l Hl. rewrite <- (E l Hl). apply H2. exact Hl.
Qed.

Lemma pyfor_tinv ls ps run body n : (forall s, tinv ls ps run s -> tinv ls ps run (fst (body s))) ->
  forall k s, tinv ls ps run s -> tinv ls ps run (pyfor body n k s).
Proof.
  intros H. induction n as [|n IH]; intros k s Hs; simpl; [exact Hs|].
  assert (H' : tinv ls ps run (fst (body (set_cnt k s)))).
  { apply H. apply (tinv_eq ls ps run s); [reflexivity|reflexivity|exact Hs]. }
  destruct (body (set_cnt k s)) as [s' []]; simpl in H'; [exact H'|]. apply IH. exact H'.
Qed.

Ltac inlist := simpl; intuition congruence.
Ltac incase := let p := fresh in let H := fresh in intros p H; simpl in H;
  repeat (destruct H as [<-|H]; [simpl; intuition congruence|]); contradiction.

(** Removing the innermost timer call of the goal. *)
Ltac peel :=
  match goal with
  | |- tinv _ _ _ (tstart _ _ _) => eapply tinv_ext; [|eapply tinv_start; [incase|incase|]]
  | |- tinv _ _ _ (tstop _ _ _) => eapply tinv_ext; [|eapply tinv_stop; [|incase|]]
  end.

Definition all_running (l : label) := true.
Definition none_running (l : label) := false.

Definition admm_pairs := [("solve_wo_rsdl", "solve_wo_func"); ("solve_wo_func", "solve")].
Definition pgm_pairs := [("solve_wo_rsdl", "solve_wo_func"); ("solve_wo_btrack", "solve_wo_func"); ("solve_wo_func", "solve")].
Definition dl_pairs := [("solve_wo_eval", "solve")].

Lemma run_callback_tm (o : opts) (s : sol) : tm (fst (run_callback o s)) = tm s /\ ck (fst (run_callback o s)) = ck s.
Proof. unfold run_callback. destruct (callback o) as [f|]; [destruct (f (cnt s) (it s))|]; split; reflexivity. Qed.

Ltac incl := let x := fresh in let H := fresh in intros x H; simpl in H |- *; intuition congruence.
Ltac runeq := let l := fresh in let H := fresh in intros l H; simpl in H;
  repeat (destruct H as [<-|H]; [vm_compute; reflexivity|]); contradiction.

Lemma st1 ls ps run run' xs s :
  (forall x, In x xs -> In x ls) ->
  (forall p, In p ps -> memb (snd p) xs = true -> memb (fst p) xs = true) ->
  (forall l, In l ls -> negb (memb l xs) && run l = run' l) ->
  tinv ls ps run s -> tinv ls ps run' (tstop clock xs s).
Proof. intros H1 H2 H3 H. eapply tinv_ext; [exact H3|]. apply tinv_stop; assumption. Qed.

Lemma st2 ls ps run run' xs s :
  (forall p, In p ps -> In (fst p) ls /\ In (snd p) ls) ->
  (forall p, In p ps -> memb (fst p) xs = true -> memb (snd p) xs || run (snd p) = true) ->
  (forall l, In l ls -> memb l xs || run l = run' l) ->
  tinv ls ps run s -> tinv ls ps run' (tstart clock xs s).
Proof. intros H1 H2 H3 H. eapply tinv_ext; [exact H3|]. apply tinv_start; assumption. Qed.

Definition but (xs : list label) (l : label) : bool := negb (memb l xs).

Ltac dstop run := apply (st1 _ _ run); [incl | incase | runeq |].
Ltac dstart run := apply (st2 _ _ run); [incase | let p := fresh in let H := fresh in intros p H; simpl in H;
  repeat (destruct H as [<-|H]; [vm_compute; congruence|]); contradiction | runeq |].

Section Admm.
Variable ltb : Num -> Num -> bool.
Variable sweep : nat -> St -> St.
Variable residuals : St -> Num * Num * Num * Num.
Variable stats : nat -> St -> option (Num * Num * Num * Num) -> Stat.
Variable update_rho : opts -> nat -> Num -> Num -> St -> St.

Lemma admm_body_tinv o s : tinv admm_labels admm_pairs all_running s ->
  tinv admm_labels admm_pairs all_running (fst (admm_body ltb clock sweep residuals stats update_rho o s)).
Proof.
  intros H. unfold admm_body.
  destruct (residuals (it (tstop clock ["solve_wo_rsdl"] (set_it (sweep (cnt s) (it s)) s)))) as [[[r d] epri] edua].
  match goal with |- context [run_callback o ?x] => set (z := x) end.
  assert (Hz : tinv admm_labels admm_pairs all_running z).
  { unfold z. clear z.
    dstart (but ["solve_wo_rsdl"]).
    match goal with |- tinv _ _ _ (if ?b then _ else _) => destruct b end.
    1: (match goal with |- tinv _ _ _ (set_it _ ?x) => apply (tinv_eq _ _ _ x); [reflexivity|reflexivity|] end).
    all: dstop all_running; dstart (but ["solve_wo_func"; "solve_wo_rsdl"]).
    all: match goal with |- tinv _ _ _ (if ?b then _ else _) => destruct b end.
    all: try (match goal with |- tinv _ _ _ (append_stat _ _ _ ?x) => apply (tinv_tick _ _ _ x); [reflexivity|reflexivity|] end).
    all: dstop all_running; dstart (but ["solve_wo_rsdl"]); dstop all_running.
    all: apply (tinv_eq _ _ _ s); [reflexivity|reflexivity|exact H]. }
  destruct (run_callback_tm o z) as [E1 E2].
  destruct (run_callback o z) as [s' b]. simpl in E1, E2.
  destruct b; simpl; apply (tinv_eq _ _ _ z); assumption.
Qed.

Lemma admm_solve_tinv o s : tinv admm_labels admm_pairs none_running s ->
  tinv admm_labels admm_pairs none_running (admm_solve ltb clock sweep residuals stats update_rho o s).
Proof.
  intros H. unfold admm_solve. dstop all_running.
  match goal with |- tinv _ _ _ (set_cnt _ ?x) => apply (tinv_eq _ _ _ x); [reflexivity|reflexivity|] end.
  apply pyfor_tinv; [intros s'; apply admm_body_tinv|]. dstart none_running. exact H.
Qed.

End Admm.

Section Pgm.
Variable ltb : Num -> Num -> bool.
Variable stats : nat -> St -> option (Num * Num * Num * Num) -> Stat.
Variables pgm_start pgm_xy pgm_bt : nat -> St -> St.
Variable pgm_res : nat -> St -> Num * Num.

Lemma pgm_body_tinv o s : tinv pgm_labels pgm_pairs all_running s ->
  tinv pgm_labels pgm_pairs all_running (fst (pgm_body ltb clock stats pgm_start pgm_xy pgm_bt pgm_res o s)).
Proof.
  intros H. unfold pgm_body.
  match goal with |- context [pgm_res ?a ?b] => destruct (pgm_res a b) as [frcxd tol] end.
  match goal with |- context [run_callback o ?x] => set (z := x) end.
  assert (Hz : tinv pgm_labels pgm_pairs all_running z).
  { unfold z. clear z.
    dstart (but ["solve_wo_func"; "solve_wo_rsdl"; "solve_wo_btrack"]).
    match goal with |- tinv _ _ _ (if ?b then _ else _) => destruct b end.
    all: try (match goal with |- tinv _ _ _ (append_stat _ _ _ ?x) => apply (tinv_tick _ _ _ x); [reflexivity|reflexivity|] end).
    all: dstop (but ["solve_wo_btrack"]); dstart (but ["solve_wo_rsdl"; "solve_wo_btrack"]); dstop all_running.
    all: match goal with |- tinv _ _ _ (if ?b then _ else _) => destruct b end.
    all: try (dstart (but ["solve_wo_btrack"]);
              match goal with |- tinv _ _ _ (set_it _ ?x) => apply (tinv_eq _ _ _ x); [reflexivity|reflexivity|] end;
              dstop all_running).
    all: apply (tinv_eq _ _ _ s); [reflexivity|reflexivity|exact H]. }
  destruct (run_callback_tm o z) as [E1 E2].
  destruct (run_callback o z) as [s' b]. simpl in E1, E2.
  destruct b; simpl; apply (tinv_eq _ _ _ z); assumption.
Qed.

Lemma pgm_solve_tinv o s : tinv pgm_labels pgm_pairs none_running s ->
  tinv pgm_labels pgm_pairs none_running (pgm_solve ltb clock stats pgm_start pgm_xy pgm_bt pgm_res o s).
Proof.
  intros H. unfold pgm_solve. dstop all_running.
  match goal with |- tinv _ _ _ (set_cnt _ ?x) => apply (tinv_eq _ _ _ x); [reflexivity|reflexivity|] end.
  apply pyfor_tinv; [intros s'; apply pgm_body_tinv|]. dstart none_running. exact H.
Qed.

End Pgm.

Section Dl.
Variable stats : nat -> St -> option (Num * Num * Num * Num) -> Stat.
Variable dl_steps : nat -> St -> St.

Lemma dl_body_tinv o s : tinv dl_labels dl_pairs all_running s ->
  tinv dl_labels dl_pairs all_running (fst (dl_body clock stats dl_steps o s)).
Proof.
  intros H. unfold dl_body.
  match goal with |- context [run_callback o ?x] => set (z := x) end.
  assert (Hz : tinv dl_labels dl_pairs all_running z).
  { unfold z. clear z.
    match goal with |- tinv _ _ _ (append_stat _ _ _ ?x) => apply (tinv_tick _ _ _ x); [reflexivity|reflexivity|] end.
    dstart (but ["solve_wo_eval"]). dstop all_running.
    apply (tinv_eq _ _ _ s); [reflexivity|reflexivity|exact H]. }
  destruct (run_callback_tm o z) as [E1 E2].
  apply (tinv_eq _ _ _ z); assumption.
Qed.

Lemma dl_solve_tinv o s : tinv dl_labels dl_pairs none_running s ->
  tinv dl_labels dl_pairs none_running (dl_solve clock stats dl_steps o s).
Proof.
  intros H. unfold dl_solve. dstop all_running.
  match goal with |- tinv _ _ _ (set_cnt _ ?x) => apply (tinv_eq _ _ _ x); [reflexivity|reflexivity|] end.
  apply pyfor_tinv; [intros s'; apply dl_body_tinv|]. dstart none_running. exact H.
Qed.

End Dl.

Lemma solves_tinv ls ps (solve : opts -> sol -> sol) :
  (forall o s, tinv ls ps none_running s -> tinv ls ps none_running (solve o s)) ->
  forall os s, tinv ls ps none_running s -> tinv ls ps none_running (solves solve os s).
Proof.
  intros H. induction os as [|o os IH]; intros s Hs; [exact Hs|]. unfold solves in *. simpl. apply IH, H, Hs.
Qed.

(** What the invariant says about the observable quantity, the elapsed time. *)
Lemma elapsed_value tm l t : knows [l] tm -> elapsed t tm (Some l) true = Some (value (find l (ents tm)) t).
Proof.
  intros H. specialize (H l (or_introl eq_refl)). unfold elapsed.
  destruct (find l (ents tm)) as [[d [s|]]|]; simpl; [f_equal; lia|f_equal; lia|congruence].
Qed.

Lemma stopped_elapsed ls ps s : tinv ls ps none_running s -> forall l, In l ls -> forall t t' b,
  elapsed t (tm s) (Some l) b = elapsed t' (tm s) (Some l) b.
Proof.
  intros (H1 & H2 & _) l Hl t t' b. specialize (H1 l Hl). specialize (H2 l Hl). unfold running, none_running in H2.
  unfold elapsed. destruct (find l (ents (tm s))) as [[d [x|]]|]; [discriminate H2|reflexivity|congruence].
Qed.

Lemma tinv_elapsed ls ps s : (forall p, In p ps -> In (fst p) ls /\ In (snd p) ls) ->
  tinv ls ps none_running s -> forall a b, In (a, b) ps -> forall t,
  exists x y, elapsed t (tm s) (Some a) true = Some x /\ elapsed t (tm s) (Some b) true = Some y /\ (x <= y)%Z.
Proof.
  intros Hp H a b Hab t. destruct (Hp _ Hab) as [Ha Hb]. simpl in Ha, Hb.
  rewrite (stopped_elapsed ls ps s H a Ha t (clock (ck s)) true), (stopped_elapsed ls ps s H b Hb t (clock (ck s)) true).
  destruct H as (H1 & H2 & H3).
  exists (value (find a (ents (tm s))) (clock (ck s))), (value (find b (ents (tm s))) (clock (ck s))).
  split; [|split].
  - apply elapsed_value. intros l [<-|[]]. apply H1. exact Ha.
  - apply elapsed_value. intros l [<-|[]]. apply H1. exact Hb.
  - exact (proj1 (H3 _ Hab)).
Qed.

Lemma new_tinv (ls : list label) (ps : list (label * label)) i : ~ In "init" ls -> (forall p, In p ps -> In (fst p) ls /\ In (snd p) ls) ->
  NoDup ls -> tinv ls ps none_running (new_solver (Stat := Stat) clock ls i).
Proof.
  intros Hi Hp _. unfold new_solver.
  assert (G : tinv ls ps none_running (mkSol i 0 (@nil (nat * Stat * option Z)) (new "main" "all" ("init" :: ls)) 0)).
  { assert (F : forall l : label, In l ("init" :: ls) -> find l (ents (new "main" "all" ("init" :: ls))) = Some (0%Z, None)).
    { unfold new. simpl.
      assert (F0 : forall xs es, (forall l, find l es = None \/ find l es = Some (0%Z, None)) ->
        forall l, (In l xs \/ find l es = Some (0%Z, None)) ->
        find l (fold_left (fun es l0 => put l0 (0%Z, None) es) xs es) = Some (0%Z, None)).
      { induction xs as [|x xs IH]; intros es He l Hl; simpl.
        - destruct Hl as [[]|Hl]. exact Hl.
        - apply IH.
          + intros l'. rewrite find_put. destruct (String.eqb l' x); [right; reflexivity|apply He].
          + rewrite find_put. destruct (String.eqb_spec l x) as [->|Hn]; [right; reflexivity|].
            destruct Hl as [[<-|Hl]|Hl]; [congruence|left; exact Hl|right; exact Hl]. }
      intros l Hl. apply F0.
      - intros l'. simpl. destruct (String.eqb l' "init"); [right|left]; reflexivity.
      - simpl. destruct Hl as [<-|Hl]; [right; reflexivity|left; exact Hl]. }
    split; [|split].
    - intros l Hl. cbn [tm]. rewrite (F l (or_intror Hl)). discriminate.
    - intros l Hl. unfold running. cbn [tm]. rewrite (F l (or_intror Hl)). reflexivity.
    - intros p Hpp. destruct (Hp p Hpp) as [Ha Hb]. unfold ord, running. cbn [tm].
      rewrite (F _ (or_intror Ha)), (F _ (or_intror Hb)). simpl. split; [lia|discriminate]. }
  assert (K : find "init" (ents (new "main" "all" ("init" :: ls))) <> None).
  { apply find_keys. unfold new. simpl.
    assert (F1 : forall xs es, In "init" (map fst es) -> In "init" (map fst (fold_left (fun es l0 => put l0 (0%Z, None) es) xs es))).
    { induction xs as [|x xs IH]; intros es He; simpl; [exact He|]. apply IH.
      apply find_keys. rewrite find_put. destruct (String.eqb "init" x); [discriminate|]. apply find_keys. exact He. }
    apply F1. simpl. left. reflexivity. }
  destruct G as (G1 & G2 & G3). set (s := mkSol i 0 [] (new "main" "all" ("init" :: ls)) 0) in *.
  assert (Nm : forall l, In l ls -> memb l ["init"] = false).
  { intros l Hl. unfold memb. simpl. destruct (String.eqb_spec l "init") as [->|]; [contradiction|reflexivity]. }
  assert (Kn : knows ["init"] (start (clock 0) (tm s) (LMany ["init"]))).
  { apply knows_start. intros l [<-|[]]. exact K. }
  split; [|split].
  - unfold tstart, tstop; cbn [tm ck]. apply knows_stop; [exact Kn|]. apply knows_start. exact G1.
  - intros l Hl. unfold tstart, tstop; cbn [tm ck]. rewrite running_stop by exact Kn. rewrite running_start, (Nm l Hl). simpl. apply G2. exact Hl.
  - intros p Hpp. destruct (Hp p Hpp) as [Ha Hb]. unfold tstart, tstop; cbn [tm ck].
    apply ord_later with (t := clock 1); [apply clock_mono|].
    apply ord_stop; [exact Kn|rewrite (Nm _ Ha), (Nm _ Hb); discriminate|].
    apply ord_later with (t := clock 0); [apply clock_mono|].
    apply ord_start; [rewrite (Nm _ Ha); discriminate|]. apply G3. exact Hpp.
Qed.
End Loops.
