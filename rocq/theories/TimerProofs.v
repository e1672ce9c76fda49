(** Proofs about the timer model. *)
Require Import List String Bool ZArith Lia.
Require Import Verif.TimerModel Verif.TimerSpec.
Import ListNotations.
Local Open Scope Z_scope.

Lemma find_put l l' e es : find l (put l' e es) = if String.eqb l l' then Some e else find l es.
Proof.
  induction es as [|[k v] es IH]; simpl.
  - destruct (String.eqb_spec l l'); reflexivity.
  - destruct (String.eqb_spec l' k) as [->|Hne]; simpl.
    + destruct (String.eqb_spec l k); reflexivity.
    + destruct (String.eqb_spec l k) as [->|Hne2].
      * destruct (String.eqb_spec k l'); [congruence|reflexivity].
      * exact IH.
Qed.

Lemma memb_in l ls : memb l ls = true <-> In l ls.
Proof.
  unfold memb. rewrite existsb_exists. split.
  - intros [x [Hx He]]. apply String.eqb_eq in He. subst. exact Hx.
  - intros H. exists l. split; [exact H|apply String.eqb_refl].
Qed.

Lemma memb_app l a b : memb l (a ++ b) = memb l a || memb l b.
Proof. apply existsb_app. Qed.

Lemma find_keys l es : find l es <> None <-> In l (map fst es).
Proof.
  induction es as [|[k v] es IH]; simpl; [tauto|].
  destruct (String.eqb_spec l k) as [->|H].
  - split; [left; reflexivity|discriminate].
  - rewrite IH. split; [tauto|]. intros [Hx|Hx]; [congruence|exact Hx].
Qed.

(** ** The loop of stop and reset *)
Section Loop.
Variable f : list (label * entry) -> label -> option (list (label * entry)).
Variable g : entry -> entry.
Hypothesis f_none : forall es l, f es l = None <-> find l es = None.
Hypothesis f_some : forall es l es', f es l = Some es' ->
  forall l', find l' es' = if String.eqb l' l then option_map g (find l' es) else find l' es.
Hypothesis g_idem : forall e, g (g e) = g e.

Lemma option_map_idem o : option_map g (option_map g o) = option_map g o.
Proof. destruct o; simpl; [rewrite g_idem|]; reflexivity. Qed.

Lemma loop_spec ls : forall kn es l,
  (forall l, memb l kn = true <-> find l es <> None) ->
  find l (fst (loop f es ls)) =
    if memb l (upto_unknown kn ls) then option_map g (find l es) else find l es.
Proof.
  induction ls as [|l0 ls IH]; intros kn es l Hk; simpl; [reflexivity|].
  destruct (f es l0) as [es'|] eqn:E.
  - assert (Hk0 : memb l0 kn = true).
    { apply Hk. intros H. apply f_none in H. congruence. }
    rewrite Hk0. pose proof (f_some _ _ _ E) as Hf.
    rewrite (IH kn es').
    + rewrite Hf. simpl. destruct (String.eqb_spec l l0) as [->|Hne]; simpl.
      * rewrite option_map_idem. match goal with |- (if ?b then _ else _) = _ => destruct b end; reflexivity.
      * reflexivity.
    + intros l1. rewrite Hk, Hf. destruct (String.eqb l1 l0); [|reflexivity].
      destruct (find l1 es); simpl; split; congruence.
  - destruct (memb l0 kn) eqn:Hk0; [|reflexivity].
    apply Hk in Hk0. apply f_none in E. contradiction.
Qed.

Lemma loop_ok ls : forall es,
  snd (loop f es ls) = true <-> (forall l, In l ls -> find l es <> None).
Proof.
  induction ls as [|l0 ls IH]; intros es; simpl; [split; [intros _ l []|reflexivity]|].
  destruct (f es l0) as [es'|] eqn:E.
  - pose proof (f_some _ _ _ E) as Hf.
    assert (Hsame : forall l, find l es' <> None <-> find l es <> None).
    { intros l1. rewrite Hf. destruct (String.eqb l1 l0); [|reflexivity].
      destruct (find l1 es); simpl; split; congruence. }
    rewrite IH. split.
    + intros H l [<-|Hl]; [|apply Hsame, H, Hl]. intros Hx. apply f_none in Hx. congruence.
    + intros H l Hl. apply Hsame. apply H. right. exact Hl.
  - simpl. split; [discriminate|]. intros H. exfalso. apply (H l0 (or_introl eq_refl)). apply f_none. exact E.
Qed.
End Loop.

Definition gstop (t : Z) (e : entry) : entry :=
  match e with (td, None) => (td, None) | (td, Some s) => (td + (t - s), None) end.
Definition greset (e : entry) : entry := (0, None).
Definition gstart (t : Z) (o : option entry) : option entry :=
  match o with None => Some (0, Some t) | Some (td, None) => Some (td, Some t) | Some (td, Some s) => Some (td, Some s) end.

Lemma stop1_none t es l : stop1 t es l = None <-> find l es = None.
Proof. unfold stop1. destruct (find l es) as [[td [s|]]|]; split; congruence. Qed.

Lemma stop1_some t es l es' : stop1 t es l = Some es' ->
  forall l', find l' es' = if String.eqb l' l then option_map (gstop t) (find l' es) else find l' es.
Proof.
  unfold stop1. destruct (find l es) as [[td [s|]]|] eqn:E; intros H; inversion H; subst; intros l'.
  - rewrite find_put. destruct (String.eqb_spec l' l) as [->|]; [rewrite E; reflexivity|reflexivity].
  - destruct (String.eqb_spec l' l) as [->|]; [rewrite E; reflexivity|reflexivity].
Qed.

Lemma reset1_none es l : reset1 es l = None <-> find l es = None.
Proof. unfold reset1. destruct (find l es) as [[td [s|]]|]; split; congruence. Qed.

Lemma reset1_some es l es' : reset1 es l = Some es' ->
  forall l', find l' es' = if String.eqb l' l then option_map greset (find l' es) else find l' es.
Proof.
  unfold reset1. destruct (find l es) as [e|] eqn:E; intros H; inversion H; subst; intros l'.
  rewrite find_put. destruct (String.eqb_spec l' l) as [->|]; [rewrite E; reflexivity|reflexivity].
Qed.

Lemma gstop_idem t e : gstop t (gstop t e) = gstop t e.
Proof. destruct e as [td [s|]]; reflexivity. Qed.

Lemma gstart_idem t e : gstart t (gstart t e) = gstart t e.
Proof. destruct e as [[td [s|]]|]; reflexivity. Qed.

Lemma start1_spec t es l l' :
  find l' (start1 t es l) = if String.eqb l' l then gstart t (find l' es) else find l' es.
Proof.
  unfold start1. destruct (find l es) as [[td [s|]]|] eqn:E.
  - destruct (String.eqb_spec l' l) as [->|]; [rewrite E; reflexivity|reflexivity].
  - rewrite find_put. destruct (String.eqb_spec l' l) as [->|]; [rewrite E; reflexivity|reflexivity].
  - rewrite find_put. destruct (String.eqb_spec l' l) as [->|]; [rewrite E; reflexivity|reflexivity].
Qed.

Lemma start_spec t ls : forall es l,
  find l (fold_left (start1 t) ls es) = if memb l ls then gstart t (find l es) else find l es.
Proof.
  induction ls as [|l0 ls IH]; intros es l; simpl; [reflexivity|].
  rewrite IH, start1_spec. destruct (String.eqb_spec l l0) as [->|]; simpl; [|reflexivity].
  rewrite gstart_idem. destruct (memb l0 ls); reflexivity.
Qed.

Lemma start_find t tm a l :
  find l (ents (start t tm a)) =
  if memb l (started (dfltlbl tm) a) then gstart t (find l (ents tm)) else find l (ents tm).
Proof. unfold start, started. simpl. apply start_spec. Qed.

(** Labels named, as computed by the model from the keys, and by the specification from the known labels. *)
Lemma upto_memb kn1 kn2 ls : (forall l, memb l kn1 = memb l kn2) -> upto_unknown kn1 ls = upto_unknown kn2 ls.
Proof. intros H. induction ls as [|l ls IH]; simpl; [reflexivity|]. rewrite H, IH. reflexivity. Qed.

Lemma upto_all kn ls : (forall l, In l ls -> memb l kn = true) -> upto_unknown kn ls = ls.
Proof.
  induction ls as [|l ls IH]; intros H; simpl; [reflexivity|].
  rewrite (H l (or_introl eq_refl)), IH; [reflexivity|]. intros l' Hl'. apply H. right. exact Hl'.
Qed.

Lemma named_resolve tm kn a l :
  (forall l, memb l kn = true <-> find l (ents tm) <> None) ->
  memb l (upto_unknown kn (resolve tm a)) = memb l (upto_unknown kn (named (dfltlbl tm) (alllbl tm) kn a)).
Proof.
  intros Hk.
  assert (Hone : forall x, memb l (upto_unknown kn (if String.eqb x (alllbl tm) then map fst (ents tm) else [x])) =
                           memb l (upto_unknown kn (if String.eqb x (alllbl tm) then kn else [x]))).
  { intros x. destruct (String.eqb x (alllbl tm)); [|reflexivity].
    rewrite (upto_all kn (map fst (ents tm))).
    - rewrite (upto_all kn kn) by (intros l' Hl'; apply memb_in; exact Hl').
      apply eq_true_iff_eq. rewrite Hk, memb_in, find_keys. reflexivity.
    - intros l' Hl'. apply Hk, find_keys. exact Hl'. }
  destruct a as [|x|ls]; simpl; try apply Hone. reflexivity.
Qed.

Lemma stop_find t tm kn a l :
  (forall l, memb l kn = true <-> find l (ents tm) <> None) ->
  find l (ents (fst (stop t tm a))) =
  if memb l (upto_unknown kn (named (dfltlbl tm) (alllbl tm) kn a))
  then option_map (gstop t) (find l (ents tm)) else find l (ents tm).
Proof.
  intros Hk. unfold stop. simpl.
  rewrite (loop_spec _ (gstop t) (stop1_none t) (stop1_some t) (gstop_idem t) _ kn) by exact Hk.
  rewrite (named_resolve tm kn a l Hk). reflexivity.
Qed.

Lemma reset_find tm kn a l :
  (forall l, memb l kn = true <-> find l (ents tm) <> None) ->
  find l (ents (fst (reset tm a))) =
  if memb l (upto_unknown kn (named (dfltlbl tm) (alllbl tm) kn a))
  then option_map greset (find l (ents tm)) else find l (ents tm).
Proof.
  intros Hk. unfold reset. simpl.
  rewrite (loop_spec _ greset reset1_none reset1_some (fun _ => eq_refl) _ kn) by exact Hk.
  rewrite (named_resolve tm kn a l Hk). reflexivity.
Qed.

(** ** Counting ticks *)
Lemma ticks_ext f g lo n :
  (forall x, lo <= x < lo + Z.of_nat n -> f x = g x) -> ticks f lo n = ticks g lo n.
Proof.
  revert lo. induction n as [|n IH]; intros lo H; [reflexivity|]. simpl.
  rewrite (H lo) by lia. rewrite (IH (lo + 1)); [reflexivity|]. intros x Hx. apply H. lia.
Qed.

Lemma ticks_app f lo n m : ticks f lo (n + m) = ticks f lo n + ticks f (lo + Z.of_nat n) m.
Proof.
  revert lo. induction n as [|n IH]; intros lo; simpl.
  - replace (lo + 0) with lo by lia. reflexivity.
  - rewrite IH. replace (lo + 1 + Z.of_nat n) with (lo + Z.pos (Pos.of_succ_nat n)) by lia. lia.
Qed.

Lemma ticks_const b lo n : ticks (fun _ => b) lo n = if b then Z.of_nat n else 0.
Proof. revert lo. induction n as [|n IH]; intros lo; simpl; [destruct b; reflexivity|]. rewrite IH. destruct b; lia. Qed.

Lemma charged_cons m t h lo now :
  lo <= t -> t <= now ->
  charged_time ((m, t) :: h) lo now =
  (match m with MReset => 0 | _ => charged_time h lo t end) + (match m with MStart => now - t | _ => 0 end).
Proof.
  intros H1 H2. unfold charged_time.
  replace (Z.to_nat (now - lo)) with (Z.to_nat (t - lo) + Z.to_nat (now - t))%nat by lia.
  rewrite ticks_app.
  rewrite (ticks_ext (charged ((m, t) :: h)) (fun x => match m with MReset => false | _ => charged h x end) lo).
  - rewrite (ticks_ext (charged ((m, t) :: h)) (fun _ => match m with MStart => true | _ => false end)
       (lo + Z.of_nat (Z.to_nat (t - lo)))).
    + rewrite ticks_const. destruct m.
      * f_equal; try lia.
      * f_equal; lia.
      * rewrite ticks_const. lia.
    + intros x Hx. simpl. destruct (Z.leb_spec t x); [reflexivity|lia].
  - intros x Hx. simpl. destruct (Z.leb_spec t x); [lia|reflexivity].
Qed.

Definition value (o : option entry) (now : Z) : Z :=
  match o with
  | None => 0
  | Some (td, None) => td
  | Some (td, Some s) => td + (now - s)
  end.

(** Invariant relating the entry of a label to the marks seen so far. *)
Definition agree (h : list (mark * Z)) (o : option entry) (lo tl : Z) : Prop :=
  forall now, tl <= now -> charged_time h lo now = value o now.

Lemma trun_labels tm evs : dfltlbl (trun tm evs) = dfltlbl tm /\ alllbl (trun tm evs) = alllbl tm.
Proof.
  revert tm. induction evs as [|[t o] evs IH]; intros tm; [split; reflexivity|].
  unfold trun in *. simpl. rewrite !(proj1 (IH _)), !(proj2 (IH _)). destruct o; split; reflexivity.
Qed.

Lemma trun_agree l evs : forall tm kn acc lo tl,
  (forall l, memb l kn = true <-> find l (ents tm) <> None) ->
  lo <= tl -> nondecreasing tl evs -> agree acc (find l (ents tm)) lo tl ->
  agree (marks_from (dfltlbl tm) (alllbl tm) kn l evs acc) (find l (ents (trun tm evs))) lo (last_time tl evs) /\
  (forall l, memb l (known (dfltlbl tm) kn evs) = true <-> find l (ents (trun tm evs)) <> None).
Proof.
  induction evs as [|[t o] evs IH]; intros tm kn acc lo tl Hk Hlo Hnd Hag.
  - split; [exact Hag|exact Hk].
  - destruct Hnd as [Ht Hnd].
    assert (Hgen : forall tm' kn' acc', dfltlbl tm' = dfltlbl tm -> alllbl tm' = alllbl tm ->
       (forall l, memb l kn' = true <-> find l (ents tm') <> None) ->
       agree acc' (find l (ents tm')) lo t ->
       agree (marks_from (dfltlbl tm) (alllbl tm) kn' l evs acc') (find l (ents (trun tm' evs))) lo
          (last_time t evs) /\
       (forall l, memb l (known (dfltlbl tm) kn' evs) = true <-> find l (ents (trun tm' evs)) <> None)).
    { intros tm' kn' acc' H1 H2 H3 H4. rewrite <- H1, <- H2.
      apply (IH tm' kn' acc' lo t H3); [lia|exact Hnd|exact H4]. }
    change (last_time tl ((t, o) :: evs)) with (last_time t evs).
    change (trun tm ((t, o) :: evs)) with (trun (tstep tm (t, o)) evs).
    destruct o as [a|a|a]; simpl marks_from; simpl known; apply Hgen; try reflexivity.
    + (* start: known labels *)
      intros l0. unfold tstep. rewrite start_find, memb_app.
      destruct (memb l0 (started (dfltlbl tm) a)) eqn:Em.
      * rewrite orb_true_r. split; [intros _|reflexivity].
        destruct (find l0 (ents tm)) as [[td [s|]]|]; discriminate.
      * rewrite orb_false_r. apply Hk.
    + (* start: agreement *)
      unfold tstep. rewrite start_find. destruct (memb l (started (dfltlbl tm) a)).
      * intros now Hnow. rewrite charged_cons by lia.
        rewrite (Hag t Ht). destruct (find l (ents tm)) as [[td [s|]]|]; simpl; lia.
      * intros now Hnow. apply Hag. lia.
    + intros l0. unfold tstep. rewrite (stop_find t tm kn a l0 Hk).
      rewrite Hk. match goal with |- context [if ?b then _ else _] => destruct b end; [|reflexivity]. destruct (find l0 (ents tm)); simpl; split; congruence.
    + unfold tstep. rewrite (stop_find t tm kn a l Hk). match goal with |- context [if ?b then _ else _] => destruct b end.
      * intros now Hnow. rewrite charged_cons by lia.
        rewrite (Hag t Ht). destruct (find l (ents tm)) as [[td [s|]]|]; simpl; lia.
      * intros now Hnow. apply Hag. lia.
    + intros l0. unfold tstep. rewrite (reset_find tm kn a l0 Hk).
      rewrite Hk. match goal with |- context [if ?b then _ else _] => destruct b end; [|reflexivity]. destruct (find l0 (ents tm)); simpl; split; congruence.
    + unfold tstep. rewrite (reset_find tm kn a l Hk). match goal with |- context [if ?b then _ else _] => destruct b end.
      * intros now Hnow. rewrite charged_cons by lia.
        destruct (find l (ents tm)) as [[td [s|]]|]; simpl; lia.
      * intros now Hnow. apply Hag. lia.
Qed.

Lemma new_find labels l : forall es,
  find l (fold_left (fun es l => put l (0, None) es) labels es) =
  if memb l labels then Some (0, None) else find l es.
Proof.
  induction labels as [|l0 ls IH]; intros es; simpl; [reflexivity|].
  rewrite IH, find_put. destruct (String.eqb l l0); simpl; [|reflexivity]. destruct (memb l ls); reflexivity.
Qed.

Lemma charged_time_nil lo now : charged_time [] lo now = 0.
Proof.
  unfold charged_time. transitivity (ticks (fun _ => false) lo (Z.to_nat (now - lo))).
  - apply ticks_ext. reflexivity.
  - apply ticks_const.
Qed.

Lemma new_known dl al labels l :
  memb l labels = true <-> find l (ents (new dl al labels)) <> None.
Proof. unfold new. simpl. rewrite new_find. simpl. destruct (memb l labels); split; congruence. Qed.

Lemma value_elapsed t tm l e :
  find l (ents tm) = Some e -> elapsed t tm (Some l) true = Some (value (Some e) t).
Proof. intros H. unfold elapsed. rewrite H. destruct e as [td [s|]]; simpl; f_equal; lia. Qed.

Lemma elapsed_charged dl al labels evs l lo now :
  nondecreasing lo evs -> last_time lo evs <= now ->
  elapsed now (trun (new dl al labels) evs) (Some l) true =
  if memb l (known dl labels evs)
  then Some (charged_time (marks_from dl al labels l evs []) lo now) else None.
Proof.
  intros Hnd Hnow.
  destruct (trun_agree l evs (new dl al labels) labels [] lo lo (new_known dl al labels) (Z.le_refl lo) Hnd)
    as [Hag Hkn].
  - intros n Hn. rewrite charged_time_nil. unfold new. simpl. rewrite new_find. simpl.
    destruct (memb l labels); reflexivity.
  - simpl in Hag, Hkn. specialize (Hkn l).
    destruct (find l (ents (trun (new dl al labels) evs))) as [e|] eqn:E.
    + rewrite (value_elapsed now _ l e E).
      rewrite (proj2 Hkn) by discriminate. rewrite (Hag now Hnow). reflexivity.
    + unfold elapsed. rewrite E. destruct (memb l (known dl labels evs)); [|reflexivity].
      exfalso. apply Hkn; reflexivity.
Qed.

Lemma elapsed_charged_dflt dl al labels evs lo now :
  nondecreasing lo evs -> last_time lo evs <= now ->
  elapsed now (trun (new dl al labels) evs) None true =
  Some (charged_time (marks_from dl al labels dl evs []) lo now).
Proof.
  intros Hnd Hnow.
  destruct (trun_agree dl evs (new dl al labels) labels [] lo lo (new_known dl al labels) (Z.le_refl lo) Hnd)
    as [Hag Hkn].
  - intros n Hn. rewrite charged_time_nil. unfold new. simpl. rewrite new_find. simpl.
    destruct (memb dl labels); reflexivity.
  - simpl in Hag, Hkn. unfold elapsed.
    rewrite (proj1 (trun_labels _ _)). simpl dfltlbl.
    rewrite (Hag now Hnow).
    destruct (find dl (ents (trun (new dl al labels) evs))) as [[td [s|]]|]; simpl; f_equal; lia.
Qed.

(** ** Non-negative, non-decreasing *)
Lemma ticks_nonneg f lo n : 0 <= ticks f lo n.
Proof. revert lo. induction n as [|n IH]; intros lo; simpl; [lia|]. specialize (IH (lo + 1)). destruct (f lo); lia. Qed.

Lemma charged_time_mono h lo a b : lo <= a -> a <= b -> charged_time h lo a <= charged_time h lo b.
Proof.
  intros H1 H2. unfold charged_time.
  replace (Z.to_nat (b - lo)) with (Z.to_nat (a - lo) + Z.to_nat (b - a))%nat by lia.
  rewrite ticks_app. pose proof (ticks_nonneg (charged h) (lo + Z.of_nat (Z.to_nat (a - lo))) (Z.to_nat (b - a))). lia.
Qed.

(** A label not named keeps its entry. *)
Lemma resolve_notin tm a l ls : resolve tm a = ls -> memb l ls = false ->
  forall t, find l (ents (fst (stop t tm a))) = find l (ents tm) /\
            find l (ents (fst (reset tm a))) = find l (ents tm).
Proof.
  intros <- Hm t.
  assert (Hk : forall l, memb l (map fst (ents tm)) = true <-> find l (ents tm) <> None).
  { intros l0. rewrite memb_in, find_keys. reflexivity. }
  assert (Hup : forall kn ls, memb l ls = false -> memb l (upto_unknown kn ls) = false).
  { clear. intros kn ls. induction ls as [|x ls IH]; simpl; [reflexivity|].
    intros H. apply orb_false_iff in H. destruct H as [H1 H2]. destruct (memb x kn); [|reflexivity].
    simpl. rewrite H1, (IH H2). reflexivity. }
  split.
  - unfold stop. simpl.
    rewrite (loop_spec _ (gstop t) (stop1_none t) (stop1_some t) (gstop_idem t) _ (map fst (ents tm))) by exact Hk.
    rewrite Hup by exact Hm. reflexivity.
  - unfold reset. simpl.
    rewrite (loop_spec _ greset reset1_none reset1_some (fun _ => eq_refl) _ (map fst (ents tm))) by exact Hk.
    rewrite Hup by exact Hm. reflexivity.
Qed.

Lemma stop_ok_iff t tm a :
  snd (stop t tm a) = true <-> (forall l, In l (resolve tm a) -> find l (ents tm) <> None).
Proof. unfold stop. simpl. apply (loop_ok _ (gstop t) (stop1_none t) (stop1_some t)). Qed.

Lemma reset_ok_iff tm a :
  snd (reset tm a) = true <-> (forall l, In l (resolve tm a) -> find l (ents tm) <> None).
Proof. unfold reset. simpl. apply (loop_ok _ greset reset1_none reset1_some). Qed.

(** ** Context timers *)
Lemma elapsed_find t tm l total :
  elapsed t tm (Some l) total =
  option_map (fun e => (match snd e with None => 0 | Some s => t - s end) + (if total then fst e else 0))
    (find l (ents tm)).
Proof. unfold elapsed. destruct (find l (ents tm)); reflexivity. Qed.

Lemma stop_one t tm l e : l <> alllbl tm -> find l (ents tm) = Some e ->
  find l (ents (fst (stop t tm (LOne l)))) = Some (gstop t e) /\ snd (stop t tm (LOne l)) = true.
Proof.
  intros Hl E. apply String.eqb_neq in Hl. unfold stop, resolve. rewrite Hl. simpl.
  destruct (stop1 t (ents tm) l) as [es'|] eqn:Es.
  - simpl. split; [|reflexivity]. rewrite (stop1_some _ _ _ _ Es), String.eqb_refl, E. reflexivity.
  - apply stop1_none in Es. congruence.
Qed.

Lemma start_one t tm l : find l (ents (start t tm (LOne l))) = gstart t (find l (ents tm)).
Proof. rewrite start_find. simpl. rewrite String.eqb_refl. reflexivity. Qed.

Lemma with_start_stop t1 t2 now tm l td body raised :
  l <> alllbl tm -> find l (ents tm) = Some (td, None) ->
  (forall tm', alllbl (body tm') = alllbl tm' /\ find l (ents (body tm')) = find l (ents tm')) ->
  let '(tm', ok, ret) := with_block t1 t2 tm (Some l) StartStop body raised in
  ok = true /\ ret = negb raised /\ elapsed now tm' (Some l) true = Some (td + (t2 - t1)).
Proof.
  intros Hl E Hb. unfold with_block, ctx_enter, ctx_exit, larg_of.
  destruct (Hb (start t1 tm (LOne l))) as [Hb1 Hb2].
  rewrite start_one, E in Hb2. simpl in Hb2.
  assert (Hl' : l <> alllbl (body (start t1 tm (LOne l)))) by (rewrite Hb1; exact Hl).
  destruct (stop_one t2 _ l _ Hl' Hb2) as [H1 H2].
  destruct (stop t2 (body (start t1 tm (LOne l))) (LOne l)) as [tm' ok]. simpl in H1, H2.
  split; [exact H2|]. split; [reflexivity|]. rewrite elapsed_find, H1. reflexivity.
Qed.

Lemma with_stop_start t1 t2 now tm l td s body raised :
  l <> alllbl tm -> find l (ents tm) = Some (td, Some s) ->
  (forall tm', alllbl (body tm') = alllbl tm' /\ find l (ents (body tm')) = find l (ents tm')) ->
  let '(tm', ok, ret) := with_block t1 t2 tm (Some l) StopStart body raised in
  ok = true /\ ret = negb raised /\
  elapsed now tm' (Some l) true = Some (td + (t1 - s) + (now - t2)).
Proof.
  intros Hl E Hb. unfold with_block, ctx_enter, ctx_exit, larg_of.
  destruct (stop_one t1 tm l _ Hl E) as [H1 H2].
  destruct (stop t1 tm (LOne l)) as [tm1 ok]. simpl in H1, H2. subst ok.
  destruct (Hb tm1) as [Hb1 Hb2]. rewrite H1 in Hb2.
  split; [reflexivity|]. split; [reflexivity|].
  pose proof (start_one t2 (body tm1) l) as Hst. rewrite Hb2 in Hst.
  rewrite elapsed_find, Hst. simpl. f_equal. ring.
Qed.

Lemma find_put_other l l' e es : l <> l' -> find l (put l' e es) = find l es.
Proof. intros H. rewrite find_put. destruct (String.eqb_spec l l'); [congruence|reflexivity]. Qed.
