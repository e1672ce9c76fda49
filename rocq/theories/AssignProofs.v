(** Any interleaving of tasks that write their own variables has the effect of the tasks one after the other. *)
Require Import Reals List Arith Bool Lia FunctionalExtensionality.
Require Import Verif.InterModel Verif.InterProofs Verif.AssignModel.
Import ListNotations.

Section Assign.
Context {L : Type}.
Variable eqb : L -> L -> bool.
Hypothesis eqb_spec : forall a b, reflect (a = b) (eqb a b).
Notation xmem := (mem (xloc L) R).

Lemma xeqb_spec : forall a b, reflect (a = b) (xeqb eqb a b).
Proof.
  intros a b. destruct a as [x|i x], b as [y|j y]; simpl; try (constructor; congruence).
  - destruct (eqb_spec x y); constructor; congruence.
  - destruct (Nat.eqb_spec i j), (eqb_spec x y); simpl; constructor; congruence.
Qed.
Lemma xeqb_refl : forall a, xeqb eqb a a = true.
Proof. intros a. destruct (xeqb_spec a a); congruence. Qed.
Lemma xeqb_ne : forall a b, a <> b -> xeqb eqb a b = false.
Proof. intros a b H. destruct (xeqb_spec a b); congruence. Qed.

Lemma inl_in : forall l d, inl eqb l d = true <-> In l d.
Proof.
  intros l d. unfold inl. rewrite existsb_exists. split.
  - intros (x & Hx & E). destruct (eqb_spec l x); [subst; exact Hx | discriminate].
  - intros H. exists l. split; [exact H | ]. destruct (eqb_spec l l); congruence.
Qed.

Lemma exec1 : forall i d (e : (L -> R) -> L -> R) (m : xmem),
  let m' := exec (map (calc eqb i e) d) m in
  vars m' = vars m /\ forall l, In l d -> m' (T i l) = e (vars m) l.
Proof.
  intros i d e. induction d as [|l0 d IH]; intros m; cbv zeta.
  - split; [reflexivity | intros l []].
  - change (exec (map (calc eqb i e) (l0 :: d)) m)
      with (exec (map (calc eqb i e) d) (xset eqb (T i l0) (e (vars m) l0) m)).
    set (m1 := xset eqb (T i l0) (e (vars m) l0) m). destruct (IH m1) as [I1 I2].
    assert (E1 : vars m1 = vars m).
    { apply functional_extensionality. intros l. unfold vars, m1, xset. rewrite xeqb_ne by discriminate. reflexivity. }
    split; [rewrite I1; exact E1 | ]. intros l Hl.
    destruct (inl eqb l d) eqn:El.
    + rewrite I2 by (apply inl_in; exact El). rewrite E1. reflexivity.
    + assert (Hn : ~ In l d) by (intros h; apply inl_in in h; congruence).
      destruct Hl as [<-|Hl]; [ | contradiction].
      assert (K : forall ds (mm : xmem), ~ In l0 ds -> exec (map (calc eqb i e) ds) mm (T i l0) = mm (T i l0)).
      { intros ds. clear - eqb_spec. induction ds as [|x ds IHd]; intros mm H; [reflexivity | ].
        change (exec (map (calc eqb i e) (x :: ds)) mm)
          with (exec (map (calc eqb i e) ds) (xset eqb (T i x) (e (vars mm) x) mm)).
        rewrite IHd by (intros h; apply H; right; exact h). unfold xset. rewrite xeqb_ne; [reflexivity | ].
        intros h. injection h as h. apply H. left. congruence. }
      rewrite (K d m1 Hn). unfold m1, xset. rewrite xeqb_refl. reflexivity.
Qed.

Lemma exec2 : forall i d (m : xmem) l,
  exec (map (store eqb i) d) m (V l) = if inl eqb l d then m (T i l) else m (V l).
Proof.
  intros i d. induction d as [|l0 d IH]; intros m l; [reflexivity | ].
  change (exec (map (store eqb i) (l0 :: d)) m)
    with (exec (map (store eqb i) d) (xset eqb (V l0) (m (T i l0)) m)).
  rewrite IH. unfold xset. cbn [inl existsb xeqb]. fold (inl eqb l d).
  destruct (eqb_spec l l0) as [->|H]; cbn [orb]; destruct (inl eqb _ d); reflexivity.
Qed.

Lemma exec_stmt : forall i s (m : xmem), vars (exec (compile1 eqb i s) m) = do_stmt eqb s (vars m).
Proof.
  intros i s m. unfold compile1. rewrite exec_app. destruct (exec1 i (dst s) (rhs s) m) as [I1 I2]. cbv zeta in *.
  apply functional_extensionality. intros l. unfold vars at 1. rewrite exec2. unfold do_stmt. destruct (inl eqb l (dst s)) eqn:E.
  - apply I2. apply inl_in. exact E.
  - change (vars (exec (map (calc eqb i (rhs s)) (dst s)) m) l = vars m l). rewrite I1. reflexivity.
Qed.

Lemma exec_prog : forall i p (m : xmem), vars (exec (compile eqb i p) m) = do_prog eqb p (vars m).
Proof.
  intros i p. induction p as [|s p IH]; intros m; [reflexivity | ].
  cbn [compile flat_map]. rewrite exec_app. change (flat_map (compile1 eqb i) p) with (compile eqb i p).
  rewrite IH, exec_stmt. reflexivity.
Qed.

Lemma sequential_prog : forall n (p : nat -> list (stmt L)) (m : xmem),
  vars (sequential n (fun i => compile eqb i (p i)) m) = do_seq eqb n p (vars m).
Proof.
  intros n p m. unfold sequential, do_seq. generalize (seq 0 n) as l. intros l. revert m.
  induction l as [|i l IH]; intros m; [reflexivity | ]. cbn [fold_left]. rewrite IH, exec_prog. reflexivity.
Qed.

Variable owner : L -> option nat.
Variable n : nat.
Hypothesis owner_lt : forall l i, owner l = Some i -> i < n.

Definition vagree (i : nat) (v v' : L -> R) : Prop := forall l, owner l = Some i \/ owner l = None -> v l = v' l.
(** A statement of task [i] writes variables of the task and reads variables of the task or shared ones. *)
Definition own_stmt (i : nat) (s : stmt L) : Prop :=
  (forall l, In l (dst s) -> owner l = Some i) /\
  (forall v v' l, In l (dst s) -> vagree i v v' -> rhs s v l = rhs s v' l).

Definition xowner (x : xloc L) : option nat := match x with V l => owner l | T i _ => if i <? n then Some i else None end.

Lemma stmt_local : forall i s, i < n -> own_stmt i s -> Forall (local xowner i) (compile1 eqb i s).
Proof.
  intros i s Hi [Hd Hr].
  assert (OT : forall l, xowner (T i l) = Some i) by (intros l; simpl; destruct (Nat.ltb_spec i n); [reflexivity | lia]).
  unfold compile1. apply Forall_app. split; apply Forall_forall; intros a Ha; apply in_map_iff in Ha; destruct Ha as (l & <- & Hl).
  - split.
    + intros m x H. unfold calc, store, xset. rewrite xeqb_ne; [reflexivity | ]. intros ->. apply H. apply OT.
    + intros m m' Hm x Hx. unfold calc, store, xset. destruct (xeqb eqb x (T i l)); [ | apply Hm; exact Hx].
      apply Hr; [exact Hl | ]. intros l' Hl'. apply Hm. exact Hl'.
  - split.
    + intros m x H. unfold calc, store, xset. rewrite xeqb_ne; [reflexivity | ]. intros ->. apply H. simpl. apply Hd. exact Hl.
    + intros m m' Hm x Hx. unfold calc, store, xset. destruct (xeqb eqb x (V l)); [ | apply Hm; exact Hx]. apply Hm. left. apply OT.
Qed.

Lemma prog_local : forall i p, i < n -> Forall (own_stmt i) p -> Forall (local xowner i) (compile eqb i p).
Proof.
  intros i p Hi H. apply Forall_forall. intros a Ha. unfold compile in Ha. apply in_flat_map in Ha. destruct Ha as (s & Hs & Ha).
  rewrite Forall_forall in H. pose proof (stmt_local i s Hi (H s Hs)) as K. rewrite Forall_forall in K. apply K. exact Ha.
Qed.

Definition tasks_of (p : nat -> list (stmt L)) : nat -> list (act (xloc L) R) := fun i => if i <? n then compile eqb i (p i) else [].

(** Any interleaving. *)
Lemma schedule : forall (p : nat -> list (stmt L)) sched m, (forall i, i < n -> Forall (own_stmt i) (p i)) ->
  complete n sched (tasks_of p) m -> vars (snd (run sched (tasks_of p) m)) = do_seq eqb n p (vars m).
Proof.
  intros p sched m Hp Hc.
  rewrite (interleaving xowner n sched (tasks_of p) m).
  - rewrite <- sequential_prog. f_equal. unfold sequential.
    assert (E : forall l (m : xmem), (forall i, In i l -> i < n) ->
      fold_left (fun m i => exec (tasks_of p i) m) l m = fold_left (fun m i => exec (compile eqb i (p i)) m) l m).
    { intros l. induction l as [|i l IH]; intros m0 H; [reflexivity | ]. cbn [fold_left]. unfold tasks_of at 2.
      replace (i <? n) with true by (symmetry; apply Nat.ltb_lt, H; left; reflexivity). apply IH. intros j Hj. apply H. right. exact Hj. }
    apply E. intros i Hi. apply in_seq in Hi. lia.
  - intros i. unfold tasks_of. destruct (Nat.ltb_spec i n); [apply prog_local; [assumption | apply Hp; assumption] | constructor].
  - intros x i H. destruct x as [l|j l]; simpl in H; [apply (owner_lt l i H) | ]. destruct (Nat.ltb_spec j n); [ | discriminate].
    injection H as <-. assumption.
  - exact Hc.
Qed.

(** Effect of a task on what it reads and on the rest. *)
Lemma stmt_other : forall i s v l, own_stmt i s -> owner l <> Some i -> do_stmt eqb s v l = v l.
Proof.
  intros i s v l [Hd _] H. unfold do_stmt. destruct (inl eqb l (dst s)) eqn:E; [ | reflexivity].
  apply inl_in in E. apply Hd in E. contradiction.
Qed.
Lemma stmt_agree : forall i s v v', own_stmt i s -> vagree i v v' -> vagree i (do_stmt eqb s v) (do_stmt eqb s v').
Proof.
  intros i s v v' [_ Hr] H l Hl. unfold do_stmt. destruct (inl eqb l (dst s)) eqn:E; [ | apply H; exact Hl].
  apply Hr; [apply inl_in; exact E | exact H].
Qed.
Lemma prog_other : forall i p v l, Forall (own_stmt i) p -> owner l <> Some i -> do_prog eqb p v l = v l.
Proof.
  intros i p. induction p as [|s p IH]; intros v l Hp H; [reflexivity | ]. inversion Hp; subst.
  change (do_prog eqb (s :: p) v) with (do_prog eqb p (do_stmt eqb s v)). rewrite IH by assumption. apply (stmt_other i); assumption.
Qed.
Lemma prog_agree : forall i p v v', Forall (own_stmt i) p -> vagree i v v' -> vagree i (do_prog eqb p v) (do_prog eqb p v').
Proof.
  intros i p. induction p as [|s p IH]; intros v v' Hp H; [exact H | ]. inversion Hp; subst.
  apply (IH (do_stmt eqb s v) (do_stmt eqb s v')); [assumption | ]. apply stmt_agree; assumption.
Qed.

(** What each task contributes. *)
Lemma do_seq_at : forall (p : nat -> list (stmt L)) v l, (forall i, i < n -> Forall (own_stmt i) (p i)) ->
  do_seq eqb n p v l = match owner l with Some i => do_prog eqb (p i) v l | None => v l end.
Proof.
  intros p v l Hp. unfold do_seq.
  assert (K : forall b k (v : L -> R), k + b <= n ->
    fold_left (fun v i => do_prog eqb (p i) v) (seq k b) v l =
    match owner l with Some i => if (k <=? i) && (i <? k + b) then do_prog eqb (p i) v l else v l | None => v l end).
  { intros b. induction b as [|b IH]; intros k v0 Hk.
    - simpl. destruct (owner l) as [i|]; [ | reflexivity]. replace ((k <=? i) && (i <? k + 0)) with false; [reflexivity | ].
      symmetry. apply andb_false_iff. destruct (Nat.leb_spec k i); [right; apply Nat.ltb_ge; lia | left; reflexivity].
    - cbn [seq fold_left]. rewrite IH by lia. destruct (owner l) as [i|] eqn:Eo.
      + destruct (Nat.eq_dec i k) as [->|Hne].
        * replace (S k <=? k) with false by (symmetry; apply Nat.leb_gt; lia). cbn [andb].
          replace ((k <=? k) && (k <? k + S b)) with true; [reflexivity | ].
          symmetry. apply andb_true_iff. split; [apply Nat.leb_refl | apply Nat.ltb_lt; lia].
        * assert (Ex : (S k <=? i) && (i <? S k + b) = (k <=? i) && (i <? k + S b)).
          { destruct (Nat.leb_spec (S k) i), (Nat.leb_spec k i), (Nat.ltb_spec i (S k + b)), (Nat.ltb_spec i (k + S b)); simpl; try reflexivity; lia. }
          rewrite Ex. destruct ((k <=? i) && (i <? k + S b)).
          -- apply (prog_agree i (p i) (do_prog eqb (p k) v0) v0); [apply Hp, (owner_lt l i Eo) | | left; exact Eo].
             intros l' Hl'. apply (prog_other k); [apply Hp; lia | destruct Hl' as [->| ->]; congruence].
          -- apply (prog_other k); [apply Hp; lia | congruence].
      + apply (prog_other k); [apply Hp; lia | congruence]. }
  rewrite K by lia. destruct (owner l) as [i|] eqn:Eo; [ | reflexivity]. pose proof (owner_lt l i Eo).
  replace ((0 <=? i) && (i <? 0 + n)) with true; [reflexivity | ].
  symmetry. apply andb_true_iff. split; [apply Nat.leb_le; lia | apply Nat.ltb_lt; lia].
Qed.

(** Stage by stage instead of task by task. *)
Lemma do_seq_app : forall (p q : nat -> list (stmt L)) v, (forall i, i < n -> Forall (own_stmt i) (p i)) -> (forall i, i < n -> Forall (own_stmt i) (q i)) ->
  do_seq eqb n (fun i => p i ++ q i) v = do_seq eqb n q (do_seq eqb n p v).
Proof.
  intros p q v Hp Hq. apply functional_extensionality. intros l.
  assert (Hpq : forall i, i < n -> Forall (own_stmt i) (p i ++ q i)) by (intros i Hi; apply Forall_app; split; [apply Hp | apply Hq]; exact Hi).
  rewrite (do_seq_at _ v l Hpq), (do_seq_at q _ l Hq). destruct (owner l) as [i|] eqn:Eo.
  - pose proof (owner_lt l i Eo) as Hi. unfold do_prog. rewrite fold_left_app. change (fold_left (fun v s => do_stmt eqb s v)) with (do_prog eqb).
    apply (prog_agree i (q i)); [apply Hq; exact Hi | | left; exact Eo].
    intros l' [E|E]; rewrite (do_seq_at p v l' Hp), E; [reflexivity | ]. apply (prog_other i); [apply Hp; exact Hi | congruence].
  - rewrite (do_seq_at p v l Hp), Eo. reflexivity.
Qed.
End Assign.
