(** Independence of the interleaving for tasks that work on their own part of the memory. *)
Require Import List Arith Bool Lia FunctionalExtensionality.
Require Import Verif.InterModel.
Import ListNotations.

Section Inter.
Context {L V : Type}.
Notation mem := (mem L V).
Notation act := (act L V).
(** The task that may write a location; None: read by all tasks, written by none. *)
Variable owner : L -> option nat.

(** Two memories agree on what task [i] may read. *)
Definition agree (i : nat) (m m' : mem) : Prop := forall l, owner l = Some i \/ owner l = None -> m l = m' l.

(** An action that belongs to task [i]. *)
Definition local (i : nat) (a : act) : Prop :=
  (forall m l, owner l <> Some i -> a m l = m l) /\
  (forall m m', agree i m m' -> agree i (a m) (a m')).

Lemma exec_app : forall p q (m : mem), exec (p ++ q) m = exec q (exec p m).
Proof. intros p q m. unfold exec. apply fold_left_app. Qed.

Lemma exec_other : forall i p (m : mem) l, Forall (local i) p -> owner l <> Some i -> exec p m l = m l.
Proof.
  intros i p. induction p as [|a p IH]; intros m l Hp Hl; [reflexivity | ].
  inversion Hp as [|x y [Ha _] Hp']; subst. change (exec (a :: p) m) with (exec p (a m)).
  rewrite IH by assumption. apply Ha. exact Hl.
Qed.

Lemma exec_agree : forall i p (m m' : mem), Forall (local i) p -> agree i m m' -> agree i (exec p m) (exec p m').
Proof.
  intros i p. induction p as [|a p IH]; intros m m' Hp Hm; [exact Hm | ].
  inversion Hp as [|x y [_ Ha] Hp']; subst. apply (IH (a m) (a m') Hp'). apply Ha. exact Hm.
Qed.

(** Result of any schedule, finished or not. *)
Lemma run_inv : forall sched (progs0 progs : nat -> list act) (m0 m : mem) (dn : nat -> list act),
  (forall i, Forall (local i) (progs0 i)) ->
  (forall i, progs0 i = dn i ++ progs i) ->
  (forall i, agree i m (exec (dn i) m0)) ->
  let '(progs', m') := run sched progs m in
  exists dn', (forall i, progs0 i = dn' i ++ progs' i) /\ (forall i, agree i m' (exec (dn' i) m0)).
Proof.
  intros sched. induction sched as [|i s IH]; intros progs0 progs m0 m dn Hl Hd Hm.
  - simpl. exists dn. split; assumption.
  - simpl. destruct (progs i) as [|a p] eqn:E.
    + apply (IH progs0 progs m0 m dn); assumption.
    + assert (Ha : local i a).
      { specialize (Hl i). rewrite (Hd i), E in Hl. apply Forall_app in Hl. destruct Hl as [_ Hl].
        inversion Hl; assumption. }
      apply (IH progs0 (upd progs i p) m0 (a m) (upd dn i (dn i ++ [a]))); [exact Hl | |].
      * intros j. unfold upd. destruct (Nat.eqb_spec j i) as [->|Hj]; [ | apply Hd].
        rewrite <- app_assoc. simpl. rewrite <- E. apply Hd.
      * intros j. unfold upd. destruct (Nat.eqb_spec j i) as [->|Hj].
        -- rewrite exec_app. apply (proj2 Ha). apply Hm.
        -- intros l Hlo. rewrite (proj1 Ha) by (destruct Hlo as [->| ->]; congruence). apply Hm. exact Hlo.
Qed.

(** The result of a complete schedule, location by location: for its owner's part what the task computes on its own. *)
Lemma run_result : forall n sched (progs : nat -> list act) (m : mem),
  (forall i, Forall (local i) (progs i)) -> complete n sched progs m -> (forall l i, owner l = Some i -> i < n) ->
  (forall l, snd (run sched progs m) l =
             match owner l with Some i => exec (progs i) m l | None => m l end).
Proof.
  intros n sched progs m Hl Hc Hn l.
  pose proof (run_inv sched progs progs m m (fun _ => []) Hl (fun _ => eq_refl) (fun i l' _ => eq_refl)) as H.
  unfold complete in Hc. destruct (run sched progs m) as [progs' m'] eqn:E. cbn [fst snd] in *.
  destruct H as (dn & Hd & Hm). destruct (owner l) as [i|] eqn:Eo.
  - rewrite (Hm i l (or_introl Eo)). f_equal. rewrite (Hd i), (Hc i (Hn l i Eo)), app_nil_r. reflexivity.
  - rewrite (Hm 0 l (or_intror Eo)). apply (exec_other 0); [ | congruence].
    specialize (Hl 0). rewrite (Hd 0) in Hl. apply Forall_app in Hl. apply Hl.
Qed.

(** One task after the other. *)
Lemma seq_inv : forall (progs : nat -> list act) n k (m : mem), (forall i, Forall (local i) (progs i)) ->
  forall l, fold_left (fun m i => exec (progs i) m) (seq k n) m l =
    match owner l with Some i => if (k <=? i) && (i <? k + n) then exec (progs i) m l else m l | None => m l end.
Proof.
  intros progs n. induction n as [|n IH]; intros k m Hl l.
  - simpl. destruct (owner l) as [i|]; [ | reflexivity].
    replace ((k <=? i) && (i <? k + 0)) with false; [reflexivity | ].
    symmetry. apply andb_false_iff. destruct (Nat.leb_spec k i); [right; apply Nat.ltb_ge; lia | left; reflexivity].
  - cbn [seq fold_left]. rewrite (IH (S k) (exec (progs k) m) Hl l).
    destruct (owner l) as [i|] eqn:Eo.
    + destruct (Nat.eq_dec i k) as [->|Hne].
      * replace (S k <=? k) with false by (symmetry; apply Nat.leb_gt; lia). cbn [andb].
        replace ((k <=? k) && (k <? k + S n)) with true; [reflexivity | ].
        symmetry. apply andb_true_iff. split; [apply Nat.leb_refl | apply Nat.ltb_lt; lia].
      * assert (Ex : (S k <=? i) && (i <? S k + n) = (k <=? i) && (i <? k + S n)).
        { destruct (Nat.leb_spec (S k) i), (Nat.leb_spec k i), (Nat.ltb_spec i (S k + n)), (Nat.ltb_spec i (k + S n)); simpl; try reflexivity; lia. }
        rewrite Ex. destruct ((k <=? i) && (i <? k + S n)).
        -- apply (exec_agree i (progs i) (exec (progs k) m) m (Hl i)); [ | left; exact Eo].
           intros l' Hl'. apply (exec_other k); [apply Hl | destruct Hl' as [->| ->]; congruence].
        -- apply (exec_other k); [apply Hl | congruence].
    + apply (exec_other k); [apply Hl | congruence].
Qed.

Lemma sequential_result : forall n (progs : nat -> list act) (m : mem),
  (forall i, Forall (local i) (progs i)) -> (forall l i, owner l = Some i -> i < n) ->
  forall l, sequential n progs m l = match owner l with Some i => exec (progs i) m l | None => m l end.
Proof.
  intros n progs m Hl Hn l. unfold sequential. rewrite seq_inv by exact Hl.
  destruct (owner l) as [i|] eqn:E; [ | reflexivity]. specialize (Hn l i E).
  replace ((0 <=? i) && (i <? 0 + n)) with true; [reflexivity | ].
  symmetry. apply andb_true_iff. split; [apply Nat.leb_le; lia | apply Nat.ltb_lt; lia].
Qed.

Theorem interleaving : forall n sched (progs : nat -> list act) (m : mem),
  (forall i, Forall (local i) (progs i)) -> (forall l i, owner l = Some i -> i < n) -> complete n sched progs m ->
  snd (run sched progs m) = sequential n progs m.
Proof.
  intros n sched progs m Hl Hn Hc. apply functional_extensionality. intros l.
  rewrite (run_result n sched progs m Hl Hc Hn l), (sequential_result n progs m Hl Hn l). reflexivity.
Qed.

(** A complete schedule exists. *)
Definition seq_sched (n : nat) (progs : nat -> list act) : list nat :=
  concat (map (fun i => repeat i (length (progs i))) (seq 0 n)).

Lemma run_app : forall s1 s2 (progs : nat -> list act) (m : mem),
  run (s1 ++ s2) progs m = run s2 (fst (run s1 progs m)) (snd (run s1 progs m)).
Proof.
  intros s1. induction s1 as [|i s1 IH]; intros s2 progs m; [reflexivity | ].
  simpl. destruct (progs i); apply IH.
Qed.

Lemma run_repeat : forall i p (progs : nat -> list act) (m : mem), progs i = p ->
  fst (run (repeat i (length p)) progs m) i = [] /\
  (forall j, j <> i -> fst (run (repeat i (length p)) progs m) j = progs j).
Proof.
  intros i p. induction p as [|a p IH]; intros progs m E.
  - simpl. split; [exact E | reflexivity].
  - simpl. rewrite E. destruct (IH (upd progs i p) (a m)) as [I1 I2].
    { unfold upd. rewrite Nat.eqb_refl. reflexivity. }
    split; [exact I1 | ]. intros j Hj. rewrite (I2 j Hj). unfold upd.
    destruct (Nat.eqb_spec j i); [contradiction | reflexivity].
Qed.

Lemma seq_sched_complete : forall n (progs : nat -> list act) (m : mem), complete n (seq_sched n progs) progs m.
Proof.
  intros n progs m.
  assert (G : forall n k (ps : nat -> list act) (m : mem), (forall i, k <= i -> ps i = progs i) ->
    let r := fst (run (concat (map (fun i => repeat i (length (progs i))) (seq k n))) ps m) in
    (forall i, k <= i < k + n -> r i = []) /\ (forall i, i < k -> r i = ps i)).
  { clear n m. intros n. induction n as [|n IH]; intros k ps m Hp; cbv zeta.
    - simpl. split; [intros; lia | reflexivity].
    - cbn [seq map concat]. rewrite run_app. rewrite <- (Hp k (le_n k)).
      destruct (run_repeat k (ps k) ps m eq_refl) as [R1 R2].
      set (q := run (repeat k (length (ps k))) ps m) in *.
      destruct (IH (S k) (fst q) (snd q)) as [I1 I2].
      { intros i Hi. rewrite R2 by lia. apply Hp. lia. }
      cbv zeta in I1, I2. split.
      + intros i Hi. destruct (Nat.eq_dec i k) as [->|Hne]; [rewrite I2 by lia; exact R1 | apply I1; lia].
      + intros i Hi. rewrite I2 by lia. apply R2. lia. }
  destruct (G n 0 progs m (fun _ _ => eq_refl)) as [H _]. intros i Hi. apply H. lia.
Qed.

(** A schedule finishes a task if it gives it as many turns as the task has actions. *)
Lemma run_fst : forall s (progs : nat -> list act) (m : mem) i,
  fst (run s progs m) i = skipn (count_occ Nat.eq_dec s i) (progs i).
Proof.
  intros s. induction s as [|j s IH]; intros progs m i; [reflexivity | ].
  cbn [run count_occ]. destruct (progs j) as [|a p] eqn:E.
  - rewrite IH. destruct (Nat.eq_dec j i) as [<-|H]; [rewrite E; rewrite !skipn_nil; reflexivity | reflexivity].
  - rewrite IH. unfold upd. destruct (Nat.eq_dec j i) as [<-|H].
    + rewrite Nat.eqb_refl, E. reflexivity.
    + destruct (Nat.eqb_spec i j); [congruence | reflexivity].
Qed.

Lemma enough_turns : forall n s (progs : nat -> list act) (m : mem),
  (forall i, i < n -> length (progs i) <= count_occ Nat.eq_dec s i) <-> complete n s progs m.
Proof.
  intros n s progs m. unfold complete. split; intros H i Hi; specialize (H i Hi).
  - rewrite run_fst. apply skipn_all2. exact H.
  - rewrite run_fst in H. assert (L' : length (skipn (count_occ Nat.eq_dec s i) (progs i)) = 0) by (rewrite H; reflexivity).
    rewrite skipn_length in L'. lia.
Qed.
End Inter.
