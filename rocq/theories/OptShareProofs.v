Require Import String List Bool Arith Lia.
Require Import Verif.CdictModel Verif.CdictSpec Verif.CdictProofs Verif.OptShareModel.
Import ListNotations.
Local Open Scope string_scope.
Local Open Scope list_scope.
Local Open Scope nat_scope.

(** Operations of a history on object [i], as operations on an object with number 0. *)
Definition own_ops {A M} (i : nat) (h : list (@hop A M)) : list (@hop A M) :=
  flat_map (fun o => match o with
                     | HSet j p v => if j =? i then [HSet 0 p v] else []
                     | HUpdate j d => if j =? i then [HUpdate 0 d] else []
                     | HCreate _ _ _ => []
                     end) h.

(** Outcomes recorded for object [i]. *)
Definition outcomes (i : nat) (log : list (nat * option err)) : list (option err) :=
  map snd (filter (fun e => fst e =? i) log).

Lemma upd_nth_length {B} (b : B) : forall l i, length (upd_nth i b l) = length l.
Proof. induction l as [|x l IH]; intros [|i]; simpl; auto. Qed.

Lemma nth_upd_nth {B} (b : B) : forall l i j, nth_error (upd_nth i b l) j =
  if j =? i then (if i <? length l then Some b else None) else nth_error l j.
Proof.
  induction l as [|x l IH]; intros i j.
  - simpl. destruct j; simpl; destruct i; simpl; try reflexivity. destruct (j =? i); reflexivity.
  - destruct i as [|i], j as [|j]; simpl; try reflexivity. rewrite IH. destruct (j =? i); [|reflexivity].
    change (S i <? S (length l)) with (i <? length l). reflexivity.
Qed.

Section P.
Context {A M : Type}.
Notation items := (list (key * tree A)).
Variable base : items.
Variables xcls xdfl dcls ddfl : M -> items.
Hypothesis base_leaves : forall k v, In (k, v) base -> is_node v = false /\ k <> "CBPDN" /\ k <> "CCMOD".

Notation hop := (@hop A M).
Notation create := (create xcls xdfl dcls ddfl).
Notation hstep := (hstep xcls xdfl dcls ddfl).
Notation hrun := (hrun xcls xdfl dcls ddfl).

(** Class-level dicts that look alike: equal leaves and same kinds of entries. *)
Definition kd (o : option (tree A)) : nat := match o with None => 0 | Some (Leaf _) => 1 | Some (Node _) => 2 end.
Definition alike (D D' : items) := forall k, kd (assoc k D) = kd (assoc k D').

Lemma check_alike D D' k v : alike D D' -> check D k v = check D' k v.
Proof.
  intros H. specialize (H k). unfold check.
  destruct (assoc k D) as [[?|?]|], (assoc k D') as [[?|?]|]; simpl in *; try discriminate; reflexivity.
Qed.

Lemma obj_set1_alike D D' o k v : alike D D' -> obj_set1 D o k v = obj_set1 D' o k v.
Proof.
  intros H. unfold obj_set1. destruct v as [a|d].
  - rewrite (check_alike D D' k (Leaf a) H). reflexivity.
  - destruct (k =? "CBPDN")%string; [reflexivity|]. destruct (k =? "CCMOD")%string; [reflexivity|].
    destruct (assoc k (top o)); [reflexivity|]. specialize (H k).
    destruct (assoc k D) as [[?|?]|], (assoc k D') as [[?|?]|]; simpl in *; try discriminate; reflexivity.
Qed.

Lemma obj_set_alike D D' o p v : alike D D' -> obj_set D o p v = obj_set D' o p v.
Proof.
  intros H. unfold obj_set. destruct p as [|k [|k2 p]]; [reflexivity| |reflexivity]. apply obj_set1_alike. exact H.
Qed.

Lemma obj_update_alike D D' d : alike D D' -> forall o, obj_update D o d = obj_update D' o d.
Proof.
  intros H. induction d as [|[k v] d IH]; intros o; simpl; [reflexivity|].
  rewrite (obj_set1_alike D D' o k v H). destruct (obj_set1 D' o k v) as [o' [e|]]; [reflexivity|apply IH].
Qed.

(** The invariant of the class-level dict. *)
Definition Dinv (D : items) : Prop :=
  leaves D = base /\
  (forall k, k <> "CBPDN" -> k <> "CCMOD" -> assoc k D = assoc k base) /\
  kd (assoc "CBPDN" D) <> 1 /\ kd (assoc "CCMOD" D) <> 1.

Lemma leaves_base : leaves base = base.
Proof.
  unfold leaves. generalize base_leaves. generalize base. induction base0 as [|[k v] b IH]; intros H; [reflexivity|].
  simpl. destruct (H k v (or_introl eq_refl)) as [Hn _]. rewrite Hn. simpl. f_equal. apply IH.
  intros k' v' Hin. apply H. right. exact Hin.
Qed.

Lemma base_none k : k = "CBPDN" \/ k = "CCMOD" -> assoc k base = None.
Proof.
  intros Hk. destruct (assoc k base) as [v|] eqn:E; [|reflexivity]. apply assoc_in in E.
  destruct (base_leaves k v E) as [_ [H1 H2]]. destruct Hk; congruence.
Qed.

Lemma Dinv_base : Dinv base.
Proof.
  split; [exact leaves_base|]. split; [reflexivity|].
  rewrite (base_none "CBPDN") by tauto. rewrite (base_none "CCMOD") by tauto. simpl. split; discriminate.
Qed.

Lemma leaves_ins k l D : kd (assoc k D) <> 1 -> leaves (ins k (Node l) D) = leaves D.
Proof.
  induction D as [|[k' v'] D IH]; intros H; [reflexivity|]. simpl in *.
  destruct (k =? k')%string eqn:E.
  - unfold leaves. simpl. destruct v'; [simpl in H; congruence|reflexivity].
  - unfold leaves in *. simpl. rewrite IH by exact H. reflexivity.
Qed.

Lemma Dinv_update D xm dm : Dinv D -> Dinv (defaults_update xdfl ddfl D xm dm).
Proof.
  intros [H1 [H2 [H3 H4]]]. unfold defaults_update. split; [|split; [|split]].
  - rewrite leaves_ins by (rewrite assoc_ins; simpl; exact H4). rewrite leaves_ins by exact H3. exact H1.
  - intros k Hk1 Hk2. rewrite !assoc_ins_ne by assumption. apply H2; assumption.
  - rewrite assoc_ins. simpl. rewrite assoc_ins. simpl. discriminate.
  - rewrite assoc_ins. simpl. discriminate.
Qed.

Lemma alike_update D D' xm dm xm' dm' : Dinv D -> Dinv D' ->
  alike (defaults_update xdfl ddfl D xm dm) (defaults_update xdfl ddfl D' xm' dm').
Proof.
  intros [_ [H2 _]] [_ [H2' _]] k. unfold defaults_update. rewrite !assoc_ins.
  destruct (String.eqb_spec k "CCMOD"); [reflexivity|]. destruct (String.eqb_spec k "CBPDN"); [reflexivity|].
  rewrite H2, H2' by assumption. reflexivity.
Qed.

Lemma create_indep D xm dm opt : Dinv D -> snd (create D xm dm opt) = snd (create base xm dm opt).
Proof.
  intros H. unfold OptShareModel.create. simpl.
  destruct (init (xcls xm) (xdfl xm)) as [x|e]; [|reflexivity].
  destruct (init (dcls dm) (ddfl dm)) as [d|e]; [|reflexivity].
  rewrite (obj_update_alike _ _ opt (alike_update D base xm dm xm dm H Dinv_base)).
  rewrite (proj1 (Dinv_update D xm dm H)), (proj1 (Dinv_update base xm dm Dinv_base)). reflexivity.
Qed.

Definition Dof (s : hstate) : items := fst (fst s).
Definition objs_of (s : @hstate A) : list obj := snd (fst s).
Definition log_of (s : @hstate A) := snd s.

(** The class-level dict after any history: either no object was created, or the two dict entries are in place. *)
Definition Dfull (D : items) : Prop := Dinv D /\ kd (assoc "CBPDN" D) = 2 /\ kd (assoc "CCMOD" D) = 2.

Lemma Dfull_update D xm dm : Dinv D -> Dfull (defaults_update xdfl ddfl D xm dm).
Proof.
  intros H. split; [apply Dinv_update; exact H|]. unfold defaults_update. rewrite !assoc_ins. simpl. split; reflexivity.
Qed.

Lemma Dfull_alike D D' : Dfull D -> Dfull D' -> alike D D'.
Proof.
  intros [[_ [H2 _]] [Hx Hc]] [[_ [H2' _]] [Hx' Hc']] k.
  destruct (String.eqb_spec k "CBPDN") as [->|]; [congruence|].
  destruct (String.eqb_spec k "CCMOD") as [->|]; [congruence|]. rewrite H2, H2' by assumption. reflexivity.
Qed.

Definition sinv (s : @hstate A) : Prop :=
  Dinv (Dof s) /\ (objs_of s <> [] -> Dfull (Dof s)) /\
  (forall i e, In (i, e) (log_of s) -> i < length (objs_of s)).

Lemma sinv_step s o : sinv s -> sinv (hstep s o).
Proof.
  destruct s as [[D objs] log]. intros [H1 [H2 H3]]. unfold Dof, objs_of, log_of in *. simpl in *.
  destruct o as [xm dm opt|i p v|i d]; simpl.
  - pose proof (Dfull_update D xm dm H1) as Hf.
    unfold OptShareModel.create.
    destruct (match init (xcls xm) (xdfl xm) with inl x => _ | inr e => inr e end) as [ob|e].
    + split; [exact (proj1 Hf)|]. split; [intros _; exact Hf|]. unfold log_of, objs_of. simpl.
      intros i e Hin. rewrite app_length. specialize (H3 i e Hin). lia.
    + split; [exact (proj1 Hf)|]. split; [intros _; exact Hf|exact H3].
  - destruct (nth_error objs i) as [ob|] eqn:E; [|split; [exact H1|split; [exact H2|exact H3]]].
    destruct (obj_set D ob p v) as [ob' e']. split; [exact H1|]. unfold objs_of, Dof, log_of in *. simpl in *. split.
    + intros _. apply H2. intros ->. destruct i; discriminate.
    + intros j e Hin. rewrite upd_nth_length. apply in_app_or in Hin. destruct Hin as [Hin|[Hin|[]]].
      * eapply H3. exact Hin.
      * inversion Hin. subst. apply nth_error_Some. congruence.
  - destruct (nth_error objs i) as [ob|] eqn:E; [|split; [exact H1|split; [exact H2|exact H3]]].
    destruct (obj_update D ob d) as [ob' e']. split; [exact H1|]. unfold objs_of, Dof, log_of in *. simpl in *. split.
    + intros _. apply H2. intros ->. destruct i; discriminate.
    + intros j e Hin. rewrite upd_nth_length. apply in_app_or in Hin. destruct Hin as [Hin|[Hin|[]]].
      * eapply H3. exact Hin.
      * inversion Hin. subst. apply nth_error_Some. congruence.
Qed.

Lemma sinv_run h : sinv (hrun (hstart base) h).
Proof.
  unfold OptShareModel.hrun.
  assert (H : sinv (hstart base)).
  { split; [exact Dinv_base|]. split; [intros H; exfalso; apply H; reflexivity|intros i e []]. }
  revert H. generalize (hstart base). induction h as [|o h IH]; intros s H; simpl; [exact H|].
  apply IH. apply sinv_step. exact H.
Qed.

(** [o] with outcomes [outs] is what the object created by (xm, dm, opt) becomes when only the operations [ops] on it
    are executed. *)
Definition alone xm dm opt ops (o : obj) outs : Prop :=
  exists D log, hrun (hstart base) (HCreate xm dm opt :: ops) = (D, [o], log) /\ map snd log = outs.

Lemma hrun_snoc s h o : hrun s (h ++ [o]) = hstep (hrun s h) o.
Proof. unfold OptShareModel.hrun. rewrite fold_left_app. reflexivity. Qed.

Lemma own_ops_snoc i (h : list hop) o : own_ops i (h ++ [o]) = own_ops i h ++ own_ops i [o].
Proof. unfold own_ops. rewrite flat_map_app. reflexivity. Qed.

Lemma outcomes_snoc i log e : outcomes i (log ++ [e]) = outcomes i log ++ (if fst e =? i then [snd e] else []).
Proof. unfold outcomes. rewrite filter_app, map_app. simpl. destruct (fst e =? i); reflexivity. Qed.

Lemma alone_step xm dm opt ops o outs (f : items -> obj -> obj * option err) hp D0 :
  Dfull D0 ->
  (forall D D' ob, alike D D' -> f D ob = f D' ob) ->
  (forall D ob log, hstep (D, [ob], log) hp = (D, [fst (f D ob)], log ++ [(0, snd (f D ob))])) ->
  alone xm dm opt ops o outs ->
  alone xm dm opt (ops ++ [hp]) (fst (f D0 o)) (outs ++ [snd (f D0 o)]).
Proof.
  intros HD Hf Hstep [D [log [H1 H2]]]. exists D, (log ++ [(0, snd (f D o))]).
  change (HCreate xm dm opt :: ops ++ [hp]) with ((HCreate xm dm opt :: ops) ++ [hp]).
  rewrite hrun_snoc, H1, Hstep.
  assert (HDf : Dfull D).
  { pose proof (sinv_run (HCreate xm dm opt :: ops)) as [_ [H _]]. rewrite H1 in H. apply H. discriminate. }
  rewrite (Hf D D0 o (Dfull_alike D D0 HDf HD)). split; [reflexivity|]. rewrite map_app, H2. reflexivity.
Qed.

Opaque OptShareModel.create obj_set obj_update.

Lemma noninterference h : forall i o, nth_error (objs_of (hrun (hstart base) h)) i = Some o ->
  exists h1 xm dm opt h2,
    h = h1 ++ HCreate xm dm opt :: h2 /\ length (objs_of (hrun (hstart base) h1)) = i /\
    alone xm dm opt (own_ops i h2) o (outcomes i (log_of (hrun (hstart base) h))).
Proof.
  induction h as [|hp h IH] using rev_ind; intros i o Ho.
  - destruct i; discriminate.
  - pose proof (sinv_run h) as Hinv. rewrite hrun_snoc in *.
    destruct (hrun (hstart base) h) as [[D objs] log] eqn:E. simpl in IH.
    destruct Hinv as [HD1 [HD2 HD3]]. unfold Dof, objs_of, log_of in *. simpl in *.
    destruct hp as [xm dm opt|j p v|j d]; simpl in *.
    + pose proof (create_indep D xm dm opt HD1) as Hc.
      destruct (create D xm dm opt) as [D' [ob|e]] eqn:Ec; simpl in *.
      * destruct (Nat.eq_dec i (length objs)) as [->|Hne].
        -- rewrite nth_error_app2 in Ho by lia. rewrite Nat.sub_diag in Ho. simpl in Ho. inversion Ho. subst ob.
           exists h, xm, dm, opt, []. split; [reflexivity|]. split; [rewrite E; reflexivity|].
           unfold alone. simpl. destruct (create base xm dm opt) as [D2 [ob2|e2]]; simpl in Hc; [|discriminate].
           inversion Hc. subst ob2. exists D2, []. split; [reflexivity|].
           symmetry. unfold outcomes. replace (filter (fun e => fst e =? length objs) log) with (@nil (nat * option err)); [reflexivity|].
           symmetry. clear -HD3. induction log as [|[j e] log IHl]; [reflexivity|]. simpl.
           specialize (IHl (fun i e' H => HD3 i e' (or_intror H))).
           specialize (HD3 j e (or_introl eq_refl)). destruct (Nat.eqb_spec j (length objs)); [lia|exact IHl].
        -- rewrite nth_error_app1 in Ho
             by (assert (i < length (objs ++ [ob])) by (apply nth_error_Some; congruence); rewrite app_length in *; simpl in *; lia).
           destruct (IH i o Ho) as (h1 & xm1 & dm1 & opt1 & h2 & Hh & Hl & Ha).
           exists h1, xm1, dm1, opt1, (h2 ++ [HCreate xm dm opt]). split; [rewrite Hh, <- app_assoc; reflexivity|].
           split; [exact Hl|]. rewrite own_ops_snoc. simpl. rewrite app_nil_r. exact Ha.
      * destruct (IH i o Ho) as (h1 & xm1 & dm1 & opt1 & h2 & Hh & Hl & Ha).
        exists h1, xm1, dm1, opt1, (h2 ++ [HCreate xm dm opt]). split; [rewrite Hh, <- app_assoc; reflexivity|].
        split; [exact Hl|]. rewrite own_ops_snoc. simpl. rewrite app_nil_r. exact Ha.
    + destruct (nth_error objs j) as [ob|] eqn:Ej.
      * assert (Hne : objs <> []) by (intros ->; destruct j; discriminate). specialize (HD2 Hne).
        destruct (obj_set D ob p v) as [ob' e] eqn:Es. simpl in Ho. rewrite nth_upd_nth in Ho. simpl.
        rewrite outcomes_snoc. simpl.
        destruct (Nat.eqb_spec i j) as [->|Hij].
        -- assert (Hlt : j < length objs) by (apply nth_error_Some; congruence).
           rewrite (proj2 (Nat.ltb_lt _ _) Hlt) in Ho. inversion Ho. subst o.
           destruct (IH j ob Ej) as (h1 & xm1 & dm1 & opt1 & h2 & Hh & Hl & Ha).
           exists h1, xm1, dm1, opt1, (h2 ++ [HSet j p v]). split; [rewrite Hh, <- app_assoc; reflexivity|].
           split; [exact Hl|]. rewrite own_ops_snoc. simpl. rewrite Nat.eqb_refl. simpl.
           pose proof (alone_step xm1 dm1 opt1 (own_ops j h2) ob (outcomes j log) (fun D ob => obj_set D ob p v) (HSet 0 p v) D HD2) as HA.
           simpl in HA. rewrite Es in HA. simpl in HA. apply HA; [| |exact Ha].
           ++ intros D1 D2' ob1 Hal. apply obj_set_alike. exact Hal.
           ++ intros D1 ob1 log1. simpl. destruct (obj_set D1 ob1 p v). reflexivity.
        -- destruct (Nat.eqb_spec j i) as [Hji|_]; [congruence|]. rewrite app_nil_r.
           destruct (IH i o Ho) as (h1 & xm1 & dm1 & opt1 & h2 & Hh & Hl & Ha).
           exists h1, xm1, dm1, opt1, (h2 ++ [HSet j p v]). split; [rewrite Hh, <- app_assoc; reflexivity|].
           split; [exact Hl|]. rewrite own_ops_snoc. simpl.
           destruct (Nat.eqb_spec j i) as [Hji|_]; [congruence|]. simpl. rewrite app_nil_r. exact Ha.
      * destruct (IH i o Ho) as (h1 & xm1 & dm1 & opt1 & h2 & Hh & Hl & Ha).
        exists h1, xm1, dm1, opt1, (h2 ++ [HSet j p v]). split; [rewrite Hh, <- app_assoc; reflexivity|].
        split; [exact Hl|]. rewrite own_ops_snoc. simpl.
        destruct (Nat.eqb_spec j i) as [->|_]; [simpl in Ho; congruence|]. simpl. rewrite app_nil_r. exact Ha.
    + destruct (nth_error objs j) as [ob|] eqn:Ej.
      * assert (Hne : objs <> []) by (intros ->; destruct j; discriminate). specialize (HD2 Hne).
        destruct (obj_update D ob d) as [ob' e] eqn:Es. simpl in Ho. rewrite nth_upd_nth in Ho. simpl.
        rewrite outcomes_snoc. simpl.
        destruct (Nat.eqb_spec i j) as [->|Hij].
        -- assert (Hlt : j < length objs) by (apply nth_error_Some; congruence).
           rewrite (proj2 (Nat.ltb_lt _ _) Hlt) in Ho. inversion Ho. subst o.
           destruct (IH j ob Ej) as (h1 & xm1 & dm1 & opt1 & h2 & Hh & Hl & Ha).
           exists h1, xm1, dm1, opt1, (h2 ++ [HUpdate j d]). split; [rewrite Hh, <- app_assoc; reflexivity|].
           split; [exact Hl|]. rewrite own_ops_snoc. simpl. rewrite Nat.eqb_refl. simpl.
           pose proof (alone_step xm1 dm1 opt1 (own_ops j h2) ob (outcomes j log) (fun D ob => obj_update D ob d) (HUpdate 0 d) D HD2) as HA.
           simpl in HA. rewrite Es in HA. simpl in HA. apply HA; [| |exact Ha].
           ++ intros D1 D2' ob1 Hal. apply obj_update_alike. exact Hal.
           ++ intros D1 ob1 log1. simpl. destruct (obj_update D1 ob1 d). reflexivity.
        -- destruct (Nat.eqb_spec j i) as [Hji|_]; [congruence|]. rewrite app_nil_r.
           destruct (IH i o Ho) as (h1 & xm1 & dm1 & opt1 & h2 & Hh & Hl & Ha).
           exists h1, xm1, dm1, opt1, (h2 ++ [HUpdate j d]). split; [rewrite Hh, <- app_assoc; reflexivity|].
           split; [exact Hl|]. rewrite own_ops_snoc. simpl.
           destruct (Nat.eqb_spec j i) as [Hji|_]; [congruence|]. simpl. rewrite app_nil_r. exact Ha.
      * destruct (IH i o Ho) as (h1 & xm1 & dm1 & opt1 & h2 & Hh & Hl & Ha).
        exists h1, xm1, dm1, opt1, (h2 ++ [HUpdate j d]). split; [rewrite Hh, <- app_assoc; reflexivity|].
        split; [exact Hl|]. rewrite own_ops_snoc. simpl.
        destruct (Nat.eqb_spec j i) as [->|_]; [simpl in Ho; congruence|]. simpl. rewrite app_nil_r. exact Ha.
Qed.
End P.
