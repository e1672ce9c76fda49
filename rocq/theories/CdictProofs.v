(** Proofs about the model of sporco/cdict.py. *)
Require Import List String Bool Arith Lia.
Require Import Verif.CdictModel Verif.CdictSpec.
Import ListNotations.

Section Proofs.
Context {A : Type}.
Notation tr := (tree A).
Notation items := (list (key * tr)).
Implicit Types (l d dn self dc dl vl la lb dflt : items) (v t : tr) (k : key) (p q : list key).

Lemma tree_ind2 (P : tr -> Prop) :
  (forall a, P (Leaf a)) ->
  (forall l, (forall k v, In (k, v) l -> P v) -> P (Node l)) ->
  forall t, P t.
Proof.
  intros Hl Hn. fix IH 1. intros [a|l]; [apply Hl|apply Hn].
  induction l as [|[k v] l' IHl]; intros k0 v0 [].
  - pose proof (IH v) as Hv. assert (He : v = v0) by (inversion H; reflexivity).
    exact (match He in _ = w return P w with eq_refl => Hv end).
  - eapply IHl. exact H.
Qed.

Lemma wf_node l : wf (Node l) <-> NoDup (map fst l) /\ (forall k v, In (k, v) l -> wf v).
Proof.
  simpl. split.
  - intros [Hn Ha]. split; [exact Hn|]. clear Hn. induction l as [|[k v] l' IH]; intros k0 v0 [].
    + inversion H; subst; tauto.
    + apply (IH (proj2 Ha) k0 v0 H).
  - intros [Hn Ha]. split; [exact Hn|]. clear Hn. induction l as [|[k v] l' IH]; [exact I|].
    split; [apply (Ha k v); left; reflexivity|]. apply IH. intros k0 v0 H. apply (Ha k0 v0). right; exact H.
Qed.

Lemma assoc_ins k k' v l : assoc k (ins k' v l) = if String.eqb k k' then Some v else assoc k l.
Proof.
  induction l as [|[k0 v0] l IH]; simpl.
  - destruct (String.eqb_spec k k'); reflexivity.
  - destruct (String.eqb_spec k' k0) as [->|Hne]; simpl.
    + destruct (String.eqb_spec k k0); reflexivity.
    + destruct (String.eqb_spec k k0) as [->|Hne2].
      * destruct (String.eqb_spec k0 k'); [congruence|reflexivity].
      * exact IH.
Qed.

Lemma assoc_ins_eq k v l : assoc k (ins k v l) = Some v.
Proof. rewrite assoc_ins, String.eqb_refl. reflexivity. Qed.

Lemma assoc_ins_ne k k' v l : k <> k' -> assoc k (ins k' v l) = assoc k l.
Proof. intros H. rewrite assoc_ins. destruct (String.eqb_spec k k'); [congruence|reflexivity]. Qed.

Lemma ins_same k v l : assoc k l = Some v -> ins k v l = l.
Proof.
  induction l as [|[k0 v0] l IH]; simpl; [discriminate|].
  destruct (String.eqb_spec k k0) as [->|H].
  - intros H. inversion H. reflexivity.
  - intros H1. rewrite IH by exact H1. reflexivity.
Qed.

Lemma assoc_in k v l : assoc k l = Some v -> In (k, v) l.
Proof.
  induction l as [|[k0 v0] l IH]; simpl; [discriminate|].
  destruct (String.eqb_spec k k0) as [->|H]; intros H1.
  - inversion H1. left; reflexivity.
  - right. apply IH. exact H1.
Qed.

Lemma assoc_none k l : assoc k l = None <-> ~ In k (map fst l).
Proof.
  induction l as [|[k0 v0] l IH]; simpl; [tauto|].
  destruct (String.eqb_spec k k0) as [->|H].
  - split; [discriminate|]. intros Hx. exfalso. apply Hx. left. reflexivity.
  - rewrite IH. split; [intros Hx [Hy|Hy]; [congruence|tauto]|tauto].
Qed.

Lemma in_assoc k v l : NoDup (map fst l) -> In (k, v) l -> assoc k l = Some v.
Proof.
  induction l as [|[k0 v0] l IH]; simpl; [tauto|].
  intros Hn [He|Hi].
  - inversion He. subst. rewrite String.eqb_refl. reflexivity.
  - inversion Hn. subst. destruct (String.eqb_spec k k0) as [->|H]; [|apply IH; assumption].
    exfalso. apply H1. apply in_map_iff. exists (k0, v). split; [reflexivity|exact Hi].
Qed.

(** ** Shapes *)

Lemma same_keys_refl t : same_keys t t.
Proof. intros p. reflexivity. Qed.

Lemma same_keys_sym t (u : tr) : same_keys t u -> same_keys u t.
Proof. intros H p. symmetry. apply H. Qed.

Lemma same_keys_trans t (u w : tr) : same_keys t u -> same_keys u w -> same_keys t w.
Proof. intros H1 H2 p. rewrite H1. apply H2. Qed.

Lemma same_keys_leaf (a b : A) : same_keys (Leaf a) (Leaf b).
Proof. intros [|k p]; reflexivity. Qed.

Lemma same_keys_node l d :
  same_keys (Node l) (Node d) <->
  (forall k, match assoc k l, assoc k d with
             | None, None => True
             | Some t, Some u => same_keys t u
             | _, _ => False
             end).
Proof.
  split.
  - intros H k. destruct (assoc k l) as [t|] eqn:E1, (assoc k d) as [u|] eqn:E2; try exact I.
    + intros p. specialize (H (k :: p)). simpl in H. rewrite E1, E2 in H. exact H.
    + specialize (H [k]). simpl in H. rewrite E1, E2 in H. destruct t; discriminate.
    + specialize (H [k]). simpl in H. rewrite E1, E2 in H. destruct u; discriminate.
  - intros H [|k p]; [reflexivity|]. simpl. specialize (H k).
    destruct (assoc k l), (assoc k d); try tauto; apply H.
Qed.

Lemma same_keys_is_node t (u : tr) : same_keys t u -> is_node t = is_node u.
Proof. intros H. specialize (H []). simpl in H. destruct t, u; simpl in *; congruence. Qed.

(** Everything present in [self] is a well-shaped entry of [dn]. *)
Definition sub_shape dn self : Prop :=
  forall k v, assoc k self = Some v -> exists d : tr, assoc k dn = Some d /\ same_keys d v.

Lemma sub_full dn self :
  sub_shape dn self -> (forall k, assoc k dn <> None -> assoc k self <> None) ->
  same_keys (Node dn) (Node self).
Proof.
  intros Hs Hf. apply same_keys_node. intros k. specialize (Hs k). specialize (Hf k).
  destruct (assoc k self) as [v|] eqn:E.
  - destruct (Hs v eq_refl) as [d [Hd Hk]]. rewrite Hd. exact Hk.
  - destruct (assoc k dn); [|exact I]. apply Hf; congruence.
Qed.

Lemma full_sub dn self : same_keys (Node dn) (Node self) -> sub_shape dn self.
Proof.
  intros H k v E. pose proof (proj1 (same_keys_node dn self) H k) as Hk. rewrite E in Hk.
  destruct (assoc k dn) as [d|]; [|contradiction]. exists d. split; [reflexivity|exact Hk].
Qed.

Lemma full_keys dn self k :
  same_keys (Node dn) (Node self) -> (assoc k dn = None <-> assoc k self = None).
Proof.
  intros H. pose proof (proj1 (same_keys_node dn self) H k) as Hk.
  destruct (assoc k dn), (assoc k self); try contradiction; split; congruence.
Qed.

Lemma sub_ins dn self k (d : tr) v :
  sub_shape dn self -> assoc k dn = Some d -> same_keys d v -> sub_shape dn (ins k v self).
Proof.
  intros Hs Hd Hk k' v'. rewrite assoc_ins. destruct (String.eqb_spec k' k) as [->|Hne].
  - intros H. inversion H. subst. exists d. tauto.
  - apply Hs.
Qed.

Lemma sub_nil dn : sub_shape dn [].
Proof. intros k v H. discriminate. Qed.

(** Generic facts about the update loop. *)
Lemma update_inv (P : items -> Prop) setf self d :
  (forall s k v, P s -> P (fst (setf s k v))) -> P self -> P (fst (update_with setf self d)).
Proof.
  intros H. revert self. induction d as [|[k v] d IH]; intros self Hp; simpl; [exact Hp|].
  pose proof (H self k v Hp) as H1. destruct (setf self k v) as [s' [e|]]; simpl in *; [exact H1|].
  apply IH. exact H1.
Qed.

Lemma update_app setf self d1 d2 :
  update_with setf self (d1 ++ d2) =
  match update_with setf self d1 with
  | (s, None) => update_with setf s d2
  | (s, Some e) => (s, Some e)
  end.
Proof.
  revert self. induction d1 as [|[k v] d1 IH]; intros self; simpl; [reflexivity|].
  destruct (setf self k v) as [s [e|]]; [reflexivity|apply IH].
Qed.

(** Keys never disappear, and a successful assignment leaves its key present. *)
Lemma setitem_keys fuel dn self k v k' :
  assoc k' self <> None -> assoc k' (fst (setitem fuel dn self k v)) <> None.
Proof.
  intros H. destruct fuel as [|fuel]; [exact H|]. simpl.
  assert (Hins : forall w, assoc k' (ins k w self) <> None).
  { intros w. rewrite assoc_ins. destruct (String.eqb k' k); [discriminate|exact H]. }
  destruct v as [a|d].
  - destruct (check dn k (Leaf a)); simpl; [exact H|apply Hins].
  - destruct (assoc k self) as [[b|sub]|] eqn:E; simpl.
    + exact H.
    + destruct (update_with _ _ _) as [s e]. simpl. apply Hins.
    + destruct (assoc k dn) as [[b|dc]|]; simpl; try exact H.
      destruct (update_with _ [] dc) as [o [e|]]; [exact H|].
      destruct (update_with _ o d) as [o' [e|]]; [exact H|]. apply Hins.
Qed.

Lemma setitem_ok_key fuel dn self k v s :
  setitem fuel dn self k v = (s, None) -> assoc k s <> None.
Proof.
  destruct fuel as [|fuel]; [discriminate|]. simpl.
  destruct v as [a|d].
  - destruct (check dn k (Leaf a)); intros H; inversion H; subst. rewrite assoc_ins_eq. discriminate.
  - destruct (assoc k self) as [[b|sub]|] eqn:E; simpl.
    + discriminate.
    + destruct (update_with _ _ _) as [s1 e]. intros H. inversion H. subst. rewrite assoc_ins_eq. discriminate.
    + destruct (assoc k dn) as [[b|dc]|]; simpl; try discriminate.
      destruct (update_with _ [] dc) as [o [e|]]; [discriminate|].
      destruct (update_with _ o d) as [o' [e|]]; [discriminate|].
      intros H. inversion H. subst. rewrite assoc_ins_eq. discriminate.
Qed.

Lemma update_keys fuel dn self d k' :
  assoc k' self <> None -> assoc k' (fst (update_with (setitem fuel dn) self d)) <> None.
Proof.
  apply (update_inv (fun s => assoc k' s <> None)). intros s k v. apply setitem_keys.
Qed.

Lemma update_ok_keys fuel dn self d s :
  update_with (setitem fuel dn) self d = (s, None) ->
  forall k, In k (map fst d) -> assoc k s <> None.
Proof.
  revert self. induction d as [|[k v] d IH]; intros self H k' Hi; [destruct Hi|].
  simpl in H. destruct (setitem fuel dn self k v) as [s1 [e|]] eqn:E1; [discriminate|].
  simpl in Hi. destruct Hi as [<-|Hi].
  - pose proof (update_keys fuel dn s1 d k (setitem_ok_key _ _ _ _ _ _ E1)) as Hk. rewrite H in Hk. exact Hk.
  - exact (IH s1 H k' Hi).
Qed.

Lemma assoc_dec_in k l : assoc k l <> None -> In k (map fst l).
Proof.
  intros H. destruct (in_dec string_dec k (map fst l)) as [Hi|Hi]; [exact Hi|].
  apply assoc_none in Hi. contradiction.
Qed.

(** The invariant: nothing outside the defaults ever enters. *)
Lemma setitem_sub fuel : forall dn self k v,
  sub_shape dn self -> sub_shape dn (fst (setitem fuel dn self k v)).
Proof.
  induction fuel as [|fuel IH]; intros dn self k v Hs; [exact Hs|]. simpl.
  destruct v as [a|d].
  - unfold check. destruct (assoc k dn) as [[b|dl]|] eqn:Ek; simpl; try exact Hs.
    eapply sub_ins; [exact Hs|exact Ek|apply same_keys_leaf].
  - destruct (assoc k self) as [[b|sub]|] eqn:E; simpl.
    + exact Hs.
    + destruct (Hs _ _ E) as [dt [Hd Hk]].
      pose proof (same_keys_is_node _ _ Hk) as Hnode. destruct dt as [b|dc]; [discriminate|].
      unfold child. rewrite Hd.
      assert (H1 : same_keys (Node dc) (Node (fst (update_with (setitem fuel dc) sub d)))).
      { apply sub_full.
        - apply (update_inv (sub_shape dc)); [intros; apply IH; assumption|]. apply full_sub. exact Hk.
        - intros k' Hk'. apply update_keys. intros Hn. apply Hk'. apply (full_keys _ _ k' Hk). exact Hn. }
      destruct (update_with (setitem fuel dc) sub d) as [sub' e]. simpl in *.
      eapply sub_ins; eassumption.
    + destruct (assoc k dn) as [[b|dc]|] eqn:Ek; simpl; try exact Hs.
      destruct (update_with (setitem fuel dc) [] dc) as [o [e|]] eqn:Eo; [exact Hs|].
      assert (Ho : same_keys (Node dc) (Node o)).
      { apply sub_full.
        - replace o with (fst (update_with (setitem fuel dc) [] dc)) by (rewrite Eo; reflexivity).
          apply (update_inv (sub_shape dc)); [intros; apply IH; assumption|]. apply sub_nil.
        - intros k' Hk'. apply (update_ok_keys _ _ _ _ _ Eo). apply assoc_dec_in. exact Hk'. }
      assert (H1 : same_keys (Node dc) (Node (fst (update_with (setitem fuel dc) o d)))).
      { apply sub_full.
        - apply (update_inv (sub_shape dc)); [intros; apply IH; assumption|]. apply full_sub. exact Ho.
        - intros k' Hk'. apply update_keys. intros Hn. apply Hk'. apply (full_keys _ _ k' Ho). exact Hn. }
      destruct (update_with (setitem fuel dc) o d) as [o' [e|]]; [exact Hs|]. simpl in *.
      eapply sub_ins; eassumption.
Qed.

Lemma setitem_full fuel dn self k v :
  same_keys (Node dn) (Node self) -> same_keys (Node dn) (Node (fst (setitem fuel dn self k v))).
Proof.
  intros H. apply sub_full.
  - apply setitem_sub. apply full_sub. exact H.
  - intros k' Hk'. apply setitem_keys. intros Hn. apply Hk'. apply (full_keys _ _ k' H). exact Hn.
Qed.

Lemma update_full fuel dn self d :
  same_keys (Node dn) (Node self) ->
  same_keys (Node dn) (Node (fst (update_with (setitem fuel dn) self d))).
Proof. apply (update_inv (fun s => same_keys (Node dn) (Node s))). intros. apply setitem_full. assumption. Qed.

Lemma same_keys_ins dn self k t v :
  same_keys (Node dn) (Node self) -> assoc k dn = Some t -> same_keys t v ->
  same_keys (Node dn) (Node (ins k v self)).
Proof.
  intros H Ek Hv. apply same_keys_node. intros k'. rewrite assoc_ins.
  destruct (String.eqb_spec k' k) as [->|Hne].
  - rewrite Ek. exact Hv.
  - exact (proj1 (same_keys_node _ _) H k').
Qed.

Lemma setpath_full fuel p : forall dn self v,
  same_keys (Node dn) (Node self) -> same_keys (Node dn) (Node (fst (setpath fuel dn self p v))).
Proof.
  induction p as [|k p IH]; intros dn self v H; [exact H|].
  destruct p as [|k2 p]; [apply setitem_full; exact H|].
  change (setpath fuel dn self (k :: k2 :: p) v) with
    (match assoc k self with
      | None => (self, Some EUnknown)
      | Some (Leaf _) => (self, Some (match (k2 :: p) with [_] => EOther | _ => EInvalid end))
      | Some (Node sub) =>
          match setpath fuel (child dn k) sub (k2 :: p) v with
          | (sub', e) => (ins k (Node sub') self, e)
          end
      end).
  destruct (assoc k self) as [[a|sub]|] eqn:E; try exact H.
  pose proof (proj1 (same_keys_node _ _) H k) as Hk. rewrite E in Hk.
  destruct (assoc k dn) as [t|] eqn:Ek; [|contradiction].
  pose proof (same_keys_is_node _ _ Hk) as Hn. destruct t as [b|dc]; [discriminate|].
  unfold child. rewrite Ek. specialize (IH dc sub v Hk).
  destruct (setpath fuel dc sub (k2 :: p) v) as [sub' e]. simpl in *.
  eapply same_keys_ins; eassumption.
Qed.

Lemma run_full dflt ops : forall self,
  same_keys (Node dflt) (Node self) -> same_keys (Node dflt) (Node (run dflt self ops)).
Proof.
  induction ops as [|o ops IH]; intros self H; [exact H|]. apply (IH (fst (step dflt self o))).
  destruct o as [p v|d]; cbn [step]; [apply setpath_full|apply update_full]; exact H.
Qed.

(** ** Construction succeeds and starts from the defaults *)

Lemma depth_node l : depth (Node l) = S (fold_right (fun kv m => Nat.max (depth (snd kv)) m) 0 l).
Proof. reflexivity. Qed.

Lemma depth_in k v l : In (k, v) l -> depth v < depth (Node l).
Proof.
  intros H. rewrite depth_node. induction l as [|[k0 v0] l IH]; [destruct H|].
  simpl fold_right. destruct H as [H|H].
  - inversion H. subst. simpl. lia.
  - specialize (IH H). simpl in *. lia.
Qed.

Lemma depth_pos t : 1 <= depth t.
Proof. destruct t; simpl; lia. Qed.

Lemma update_self_ok n : forall fuel dc d,
  depth (Node dc) <= n -> depth (Node dc) <= fuel -> wf (Node dc) ->
  (forall k v, In (k, v) d -> In (k, v) dc) ->
  update_with (setitem fuel dc) dc d = (dc, None).
Proof.
  induction n as [|n IH]; intros fuel dc d Hn Hf Hw Hin; [pose proof (depth_pos (Node dc)); lia|].
  induction d as [|[k v] d IHd]; [reflexivity|].
  cbn [update_with].
  assert (Hi : In (k, v) dc) by (apply Hin; left; reflexivity).
  pose proof (depth_in _ _ _ Hi) as Hdv.
  assert (Hav : assoc k dc = Some v) by (apply in_assoc; [exact (proj1 (proj1 (wf_node dc) Hw))|exact Hi]).
  assert (Hset : setitem fuel dc dc k v = (dc, None)).
  { destruct fuel as [|fuel]; [pose proof (depth_pos (Node dc)); lia|]. simpl.
    destruct v as [a|dv].
    - unfold check. rewrite Hav. simpl. rewrite ins_same by exact Hav. reflexivity.
    - rewrite Hav. unfold child. rewrite Hav.
      rewrite (IH fuel dv dv).
      + rewrite ins_same by exact Hav. reflexivity.
      + lia.
      + lia.
      + apply (proj2 (proj1 (wf_node dc) Hw) k). exact Hi.
      + tauto. }
  rewrite Hset. apply IHd. intros k' v' H'. apply Hin. right. exact H'.
Qed.

Lemma ins_fresh k v l : assoc k l = None -> ins k v l = l ++ [(k, v)].
Proof.
  induction l as [|[k0 v0] l IH]; simpl; [reflexivity|].
  destruct (String.eqb k k0); [discriminate|]. intros H. rewrite IH by exact H. reflexivity.
Qed.

Lemma update_nil_ok n : forall fuel dc,
  depth (Node dc) <= n -> depth (Node dc) <= fuel -> wf (Node dc) ->
  update_with (setitem fuel dc) [] dc = (dc, None).
Proof.
  induction n as [|n IH]; intros fuel dc Hn Hf Hw; [pose proof (depth_pos (Node dc)); lia|].
  assert (Hgen : forall d done, dc = done ++ d -> update_with (setitem fuel dc) done d = (dc, None)).
  { induction d as [|[k v] d IHd]; intros done E.
    - rewrite app_nil_r in E. subst. reflexivity.
    - cbn [update_with].
      assert (Hi : In (k, v) dc) by (rewrite E; apply in_or_app; right; left; reflexivity).
      pose proof (depth_in _ _ _ Hi) as Hdv.
      pose proof (proj1 (wf_node dc) Hw) as [Hnd Hwv].
      assert (Hav : assoc k dc = Some v) by (apply in_assoc; assumption).
      assert (Hfresh : assoc k done = None).
      { apply assoc_none. rewrite E in Hnd. rewrite map_app in Hnd. simpl in Hnd.
        apply NoDup_remove_2 in Hnd. intros Hx. apply Hnd. apply in_or_app. left. exact Hx. }
      assert (Hset : setitem fuel dc done k v = (done ++ [(k, v)], None)).
      { destruct fuel as [|fuel]; [pose proof (depth_pos (Node dc)); lia|]. simpl.
        destruct v as [a|dv].
        - unfold check. rewrite Hav. simpl. rewrite ins_fresh by exact Hfresh. reflexivity.
        - rewrite Hfresh, Hav.
          rewrite (IH fuel dv) by (try lia; apply (Hwv k); exact Hi).
          rewrite (update_self_ok n fuel dv dv) by (try lia; try (apply (Hwv k); exact Hi); tauto).
          rewrite ins_fresh by exact Hfresh. reflexivity. }
      rewrite Hset. apply IHd. rewrite <- app_assoc. exact E. }
  apply (Hgen dc []). reflexivity.
Qed.

Lemma init_defaults dflt :
  wf (Node dflt) -> update_with (setitem (fuel_of dflt) dflt) [] dflt = (dflt, None).
Proof. intros H. apply (update_nil_ok (fuel_of dflt)); [| |exact H]; unfold fuel_of; lia. Qed.

Lemma init_empty dflt : wf (Node dflt) -> init dflt [] = inl dflt.
Proof. intros H. unfold init. rewrite init_defaults by exact H. reflexivity. Qed.

Lemma init_shape dflt d self :
  wf (Node dflt) -> init dflt d = inl self -> same_keys (Node dflt) (Node self).
Proof.
  intros Hw H. unfold init in H. rewrite init_defaults in H by exact Hw.
  pose proof (update_full (fuel_of dflt) dflt dflt d (same_keys_refl _)) as Hs.
  destruct (update_with _ dflt d) as [o [e|]]; inversion H. subst. exact Hs.
Qed.

(** ** Acceptance *)

Lemma child_depth dn k dc : assoc k dn = Some (Node dc) -> depth (Node dc) < depth (Node dn).
Proof. intros H. apply (depth_in k). apply assoc_in. exact H. Qed.

Lemma fits_leaf_inv (dt : tr) (b : A) : fits dt (Leaf b) <-> exists a, dt = Leaf a.
Proof. split; [intros H; inversion H; eauto|intros [a ->]; constructor]. Qed.

Lemma fits_node_inv (dt : tr) vl : fits dt (Node vl) <->
  exists dl, dt = Node dl /\ forall k v, In (k, v) vl -> exists d : tr, assoc k dl = Some d /\ fits d v.
Proof. split; [intros H; inversion H; eauto|intros [dl [-> H]]; constructor; exact H]. Qed.

Lemma update_accept_gen (Q : key -> tr -> Prop) setf (I : items -> Prop) :
  (forall s k v, I s -> I (fst (setf s k v))) ->
  (forall s k v, I s -> (snd (setf s k v) = None <-> Q k v)) ->
  forall d s, I s -> (snd (update_with setf s d) = None <-> forall k v, In (k, v) d -> Q k v).
Proof.
  intros Hi Hq. induction d as [|[k v] d IH]; intros s Hs; simpl.
  - split; [intros _ k v []|reflexivity].
  - pose proof (Hi s k v Hs) as Hi1. pose proof (Hq s k v Hs) as Hq1.
    destruct (setf s k v) as [s' [e|]]; simpl in *.
    + split; [discriminate|]. intros H. exfalso. assert (Some e = None) by (apply Hq1; apply H; left; reflexivity).
      discriminate.
    + rewrite (IH s' Hi1). split.
      * intros H k' v' [He|Hin]; [inversion He; subst; apply Hq1; reflexivity|apply H; exact Hin].
      * intros H k' v' Hin. apply H. right. exact Hin.
Qed.

Lemma setitem_accept fuel : forall dn self k v,
  depth (Node dn) <= fuel -> same_keys (Node dn) (Node self) ->
  (snd (setitem fuel dn self k v) = None <-> exists dt, assoc k dn = Some dt /\ fits dt v).
Proof.
  induction fuel as [|fuel IH]; intros dn self k v Hd Hs; [pose proof (depth_pos (Node dn)); lia|].
  simpl. destruct v as [b|d].
  - unfold check. destruct (assoc k dn) as [[a|dl]|] eqn:Ek; simpl.
    + split; [|reflexivity]. intros _. exists (Leaf a). split; [reflexivity|constructor].
    + split; [discriminate|]. intros [dt [He Hf]]. inversion He. subst. inversion Hf.
    + split; [discriminate|]. intros [dt [He Hf]]. discriminate.
  - pose proof (proj1 (same_keys_node _ _) Hs k) as Hk.
    destruct (assoc k self) as [[b|sub]|] eqn:E; destruct (assoc k dn) as [dt|] eqn:Ek; try contradiction.
    + pose proof (same_keys_is_node _ _ Hk) as Hn. destruct dt as [a|dl]; [|discriminate]. simpl.
      split; [discriminate|]. intros [dt [He Hf]]. inversion He. subst. inversion Hf.
    + pose proof (same_keys_is_node _ _ Hk) as Hn. destruct dt as [a|dl]; [discriminate|].
      unfold child. rewrite Ek.
      pose proof (child_depth _ _ _ Ek) as Hcd.
      assert (H1 : snd (update_with (setitem fuel dl) sub d) = None <->
                   forall k v, In (k, v) d -> exists dt, assoc k dl = Some dt /\ fits dt v).
      { apply (update_accept_gen _ _ (fun s => same_keys (Node dl) (Node s))).
        - intros. apply setitem_full. assumption.
        - intros s k' v' Hs'. apply IH; [lia|exact Hs'].
        - exact Hk. }
      destruct (update_with (setitem fuel dl) sub d) as [sub' e]. simpl in *. rewrite H1. split.
      * intros H. exists (Node dl). split; [reflexivity|constructor; exact H].
      * intros [dt [He Hf]]. inversion He. subst. apply fits_node_inv in Hf. destruct Hf as [dl' [He2 Hf]].
        inversion He2. subst. exact Hf.
    + simpl. split; [discriminate|]. intros [dt [He Hf]]. discriminate.
Qed.

Lemma update_accept dflt self d :
  same_keys (Node dflt) (Node self) ->
  (snd (update_with (setitem (fuel_of dflt) dflt) self d) = None <-> fits (Node dflt) (Node d)).
Proof.
  intros Hs.
  rewrite (update_accept_gen (fun k v => exists dt, assoc k dflt = Some dt /\ fits dt v) _
             (fun s => same_keys (Node dflt) (Node s))).
  - rewrite fits_node_inv. split.
    + intros H. exists dflt. split; [reflexivity|exact H].
    + intros [dl [He H]]. inversion He. subst. exact H.
  - intros. apply setitem_full. assumption.
  - intros s k v Hs'. apply setitem_accept; [unfold fuel_of; lia|exact Hs'].
  - exact Hs.
Qed.

(** Errors of the assignment of a leaf, by the kind of the path in the defaults. *)
Definition parent_leaf (dn : items) (p : list key) : Prop :=
  exists q k, p = q ++ [k] /\ q <> [] /\ kind_of (lookup (Node dn) q) = KLeaf.

Lemma setpath_cons fuel dn self k k2 p v :
  setpath fuel dn self (k :: k2 :: p) v =
    (match assoc k self with
      | None => (self, Some EUnknown)
      | Some (Leaf _) => (self, Some (match (k2 :: p) with [_] => EOther | _ => EInvalid end))
      | Some (Node sub) =>
          match setpath fuel (child dn k) sub (k2 :: p) v with
          | (sub', e) => (ins k (Node sub') self, e)
          end
      end).
Proof. reflexivity. Qed.

Definition leaf_err (dn : items) (p : list key) : option err :=
  (* expected outcome from kinds only *)
  match kind_of (lookup (Node dn) p) with
  | KLeaf => None
  | KNode => match p with [] => Some EOther | _ => Some EInvalid end
  | KAbsent => Some EUnknown
  end.

Lemma depth_child_le fuel dn k dc : assoc k dn = Some (Node dc) -> depth (Node dn) <= fuel -> depth (Node dc) <= fuel.
Proof. intros H1 H2. pose proof (child_depth _ _ _ H1). lia. Qed.

Lemma setpath_leaf_accept fuel p : forall dn self a,
  depth (Node dn) <= fuel -> same_keys (Node dn) (Node self) ->
  (snd (setpath fuel dn self p (Leaf a)) = None <-> kind_of (lookup (Node dn) p) = KLeaf).
Proof.
  induction p as [|k p IH]; intros dn self a Hd Hs; [simpl; split; discriminate|].
  destruct p as [|k2 p].
  - unfold setpath. rewrite (setitem_accept fuel dn self k (Leaf a) Hd Hs). simpl.
    destruct (assoc k dn) as [[b|l]|].
    + split; [reflexivity|]. intros _. exists (Leaf b). split; [reflexivity|constructor].
    + split; [|discriminate]. intros [dt [He Hf]]. inversion He. subst. inversion Hf.
    + split; [|discriminate]. intros [dt [He Hf]]. discriminate.
  - rewrite setpath_cons.
    pose proof (proj1 (same_keys_node _ _) Hs k) as Hk.
    destruct (assoc k self) as [[b|sub]|] eqn:E; destruct (assoc k dn) as [dt|] eqn:Ek; try contradiction;
      simpl lookup; rewrite Ek.
    + pose proof (same_keys_is_node _ _ Hk) as Hn. destruct dt as [c|dl]; [|discriminate]. simpl.
      split; discriminate.
    + pose proof (same_keys_is_node _ _ Hk) as Hn. destruct dt as [c|dl]; [discriminate|].
      unfold child. rewrite Ek.
      specialize (IH dl sub a (depth_child_le _ _ _ _ Ek Hd) Hk).
      destruct (setpath fuel dl sub (k2 :: p) (Leaf a)) as [sub' e]. cbn [snd] in *. exact IH.
    + simpl. split; discriminate.
Qed.

Lemma setpath_leaf_errors fuel p : forall dn self a,
  depth (Node dn) <= fuel -> same_keys (Node dn) (Node self) ->
  (kind_of (lookup (Node dn) p) = KNode -> p <> [] -> snd (setpath fuel dn self p (Leaf a)) = Some EInvalid) /\
  (forall q k r, p = q ++ k :: r -> kind_of (lookup (Node dn) q) = KNode ->
                 kind_of (lookup (Node dn) (q ++ [k])) = KAbsent ->
                 snd (setpath fuel dn self p (Leaf a)) = Some EUnknown) /\
  (forall q r, p = q ++ r -> r <> [] -> kind_of (lookup (Node dn) q) = KLeaf ->
                 snd (setpath fuel dn self p (Leaf a)) = Some (match r with [_] => EOther | _ => EInvalid end)).
Proof.
  induction p as [|k p IH]; intros dn self a Hd Hs.
  - split; [intros _ H; congruence|]. split.
    + intros q k r H. destruct q; discriminate.
    + intros q r H Hr. destruct q; [|discriminate]. simpl in H. congruence.
  - destruct p as [|k2 p].
    + pose proof (setpath_leaf_accept fuel [k] dn self a Hd Hs) as Hacc.
      split; [|split].
      * simpl. destruct fuel as [|fuel]; [pose proof (depth_pos (Node dn)); lia|]. simpl. unfold check.
        destruct (assoc k dn) as [[b|l]|]; try discriminate. reflexivity.
      * intros q k' r H Hq Ha. destruct q as [|k0 q].
        -- simpl in H. inversion H. subst. simpl in Ha.
           destruct fuel as [|fuel]; [pose proof (depth_pos (Node dn)); lia|]. simpl. unfold check.
           destruct (assoc k' dn) as [[b|l]|]; try discriminate. reflexivity.
        -- destruct q; discriminate.
      * intros q r H Hr Hq. destruct q as [|k0 q]; [discriminate|]. destruct q; simpl in H.
        -- destruct r; [congruence|discriminate].
        -- destruct q; discriminate.
    + rewrite setpath_cons.
      pose proof (proj1 (same_keys_node _ _) Hs k) as Hk.
      destruct (assoc k self) as [[b|sub]|] eqn:E; destruct (assoc k dn) as [dt|] eqn:Ek; try contradiction.
      * pose proof (same_keys_is_node _ _ Hk) as Hn. destruct dt as [c|dl]; [|discriminate].
        cbn [snd]. split; [|split].
        -- simpl lookup. rewrite Ek. discriminate.
        -- intros q k' r H Hq Ha. destruct q as [|k0 q].
           ++ simpl in H. inversion H. subst. simpl in Ha. rewrite Ek in Ha. discriminate.
           ++ simpl in H. inversion H. subst. simpl in Hq. rewrite Ek in Hq. destruct q; discriminate.
        -- intros q r H Hr Hq. destruct q as [|k0 q].
           ++ discriminate.
           ++ simpl in H. inversion H. subst. simpl in Hq. rewrite Ek in Hq. destruct q as [|k1 q].
              ** simpl in H2. subst. reflexivity.
              ** discriminate.
      * pose proof (same_keys_is_node _ _ Hk) as Hn. destruct dt as [c|dl]; [discriminate|].
        unfold child. rewrite Ek.
        destruct (IH dl sub a (depth_child_le _ _ _ _ Ek Hd) Hk) as [IH1 [IH2 IH3]].
        destruct (setpath fuel dl sub (k2 :: p) (Leaf a)) as [sub' e]. cbn [snd] in *.
        split; [|split].
        -- intros H _. simpl lookup in H. rewrite Ek in H. apply IH1; [exact H|discriminate].
        -- intros q k' r H Hq Ha. destruct q as [|k0 q].
           ++ simpl in H. inversion H. subst. simpl in Ha. rewrite Ek in Ha. discriminate.
           ++ simpl in H. inversion H. subst. simpl in Hq, Ha. rewrite Ek in Hq, Ha. eapply IH2; eauto.
        -- intros q r H Hr Hq. destruct q as [|k0 q]; [discriminate|].
           simpl in H. inversion H. subst. simpl in Hq. rewrite Ek in Hq. eapply IH3; eauto.
      * cbn [snd]. split; [|split].
        -- simpl lookup. rewrite Ek. discriminate.
        -- intros. reflexivity.
        -- intros q r H Hr Hq. destruct q as [|k0 q]; [discriminate|].
           simpl in H. inversion H. subst. simpl in Hq. rewrite Ek in Hq. discriminate.
Qed.

(** ** Get after set, and frame *)

Lemma setpath_leaf_fail fuel p : forall dn self a,
  snd (setpath fuel dn self p (Leaf a)) <> None -> fst (setpath fuel dn self p (Leaf a)) = self.
Proof.
  induction p as [|k p IH]; intros dn self a H; [reflexivity|].
  destruct p as [|k2 p].
  - simpl in *. destruct fuel as [|fuel]; [reflexivity|]. simpl in *.
    destruct (check dn k (Leaf a)); [reflexivity|]. simpl in H. congruence.
  - rewrite setpath_cons in *. destruct (assoc k self) as [[b|sub]|] eqn:E; try reflexivity.
    specialize (IH (child dn k) sub a).
    destruct (setpath fuel (child dn k) sub (k2 :: p) (Leaf a)) as [sub' e]. cbn [fst snd] in *.
    rewrite (IH H). apply ins_same. exact E.
Qed.

Lemma setpath_leaf_get fuel p : forall dn self a s,
  setpath fuel dn self p (Leaf a) = (s, None) -> lookup (Node s) p = Some (Leaf a).
Proof.
  induction p as [|k p IH]; intros dn self a s H; [discriminate|].
  destruct p as [|k2 p].
  - simpl in *. destruct fuel as [|fuel]; [discriminate|]. simpl in *.
    destruct (check dn k (Leaf a)); inversion H. subst. rewrite assoc_ins_eq. reflexivity.
  - rewrite setpath_cons in H. destruct (assoc k self) as [[b|sub]|] eqn:E; try discriminate.
    destruct (setpath fuel (child dn k) sub (k2 :: p) (Leaf a)) as [sub' e] eqn:E1. inversion H. subst.
    change (lookup (Node (ins k (Node sub') self)) (k :: k2 :: p)) with
      (match assoc k (ins k (Node sub') self) with Some t' => lookup t' (k2 :: p) | None => None end).
    rewrite assoc_ins_eq. eapply IH. exact E1.
Qed.

Lemma setpath_leaf_frame fuel p : forall dn self a q,
  ~ prefix p q -> ~ prefix q p ->
  lookup (Node (fst (setpath fuel dn self p (Leaf a)))) q = lookup (Node self) q.
Proof.
  induction p as [|k p IH]; intros dn self a q H1 H2.
  { exfalso. apply H1. exists q. reflexivity. }
  destruct q as [|k' q]; [exfalso; apply H2; exists (k :: p); reflexivity|].
  assert (Hins : forall w, k' <> k -> lookup (Node (ins k w self)) (k' :: q) = lookup (Node self) (k' :: q)).
  { intros w Hne. simpl. rewrite assoc_ins_ne by exact Hne. reflexivity. }
  destruct p as [|k2 p].
  - assert (Hne : k' <> k) by (intros ->; apply H1; exists q; reflexivity).
    simpl setpath. destruct fuel as [|fuel]; [reflexivity|]. simpl setitem.
    destruct (check dn k (Leaf a)); [reflexivity|]. apply Hins. exact Hne.
  - rewrite setpath_cons. destruct (assoc k self) as [[b|sub]|] eqn:E; try reflexivity.
    specialize (IH (child dn k) sub a q).
    destruct (setpath fuel (child dn k) sub (k2 :: p) (Leaf a)) as [sub' e]. cbn [fst] in *.
    destruct (string_dec k' k) as [->|Hne]; [|apply Hins; exact Hne].
    simpl. rewrite assoc_ins_eq, E. apply IH.
    + intros [r Hr]. apply H1. exists r. rewrite Hr. reflexivity.
    + intros [r Hr]. apply H2. exists r. rewrite Hr. reflexivity.
Qed.

Lemma getpath_lookup p : forall (self : items) t, p <> [] ->
  (getpath self p = inl t <-> lookup (Node self) p = Some t).
Proof.
  induction p as [|k p IH]; intros self t Hp; [congruence|].
  destruct p as [|k2 p].
  - simpl. destruct (assoc k self); [|split; discriminate]. split; intros H; inversion H; reflexivity.
  - change (getpath self (k :: k2 :: p)) with
      (match assoc k self with
      | None => inr EUnknown
      | Some (Leaf _) => inr (match (k2 :: p) with [_] => EOther | _ => EInvalid end)
      | Some (Node sub) => getpath sub (k2 :: p)
      end).
    change (lookup (Node self) (k :: k2 :: p)) with
      (match assoc k self with Some t' => lookup t' (k2 :: p) | None => None end).
    destruct (assoc k self) as [[a|sub]|].
    + simpl. destruct p; split; discriminate.
    + apply IH. discriminate.
    + split; discriminate.
Qed.

(** ** Bulk update: the new leaves overlay the old ones *)

Lemma leaf_at_nil (l : items) : leaf_at (Node l) [] = None.
Proof. reflexivity. Qed.

Lemma leaf_at_cons l k p :
  leaf_at (Node l) (k :: p) = match assoc k l with Some t => leaf_at t p | None => None end.
Proof. unfold leaf_at. simpl. destruct (assoc k l); reflexivity. Qed.

Lemma same_keys_leaf_at t (u : tr) p : same_keys t u -> (leaf_at t p = None <-> leaf_at u p = None).
Proof.
  intros H. specialize (H p). unfold leaf_at.
  destruct (lookup t p) as [[a|x]|], (lookup u p) as [[b|y]|]; simpl in H; try discriminate H; split; congruence.
Qed.

Lemma setitem_overlay fuel : forall dn self k v s,
  same_keys (Node dn) (Node self) -> wf v ->
  setitem fuel dn self k v = (s, None) ->
  (forall p, leaf_at (Node s) (k :: p) = match leaf_at v p with Some a => Some a
                                         | None => leaf_at (Node self) (k :: p) end) /\
  (forall k' p, k' <> k -> leaf_at (Node s) (k' :: p) = leaf_at (Node self) (k' :: p)).
Proof.
  induction fuel as [|fuel IH]; intros dn self k v s Hs Hw H; [discriminate|]. simpl in H.
  assert (Hne : forall w k' p, k' <> k ->
      leaf_at (Node (ins k w self)) (k' :: p) = leaf_at (Node self) (k' :: p)).
  { intros w k' p Hk. rewrite !leaf_at_cons, assoc_ins_ne by exact Hk. reflexivity. }
  destruct v as [a|d].
  - unfold check in H. pose proof (proj1 (same_keys_node _ _) Hs k) as Hk.
    destruct (assoc k dn) as [[b|dl]|] eqn:Ek; try discriminate. simpl in H. inversion H. subst.
    split; [|apply Hne]. intros p. rewrite !leaf_at_cons, assoc_ins_eq.
    destruct p as [|k2 p]; [reflexivity|].
    destruct (assoc k self) as [t|]; [|contradiction].
    pose proof (same_keys_is_node _ _ Hk) as Hn. destruct t; [reflexivity|discriminate].
  - pose proof (proj1 (same_keys_node _ _) Hs k) as Hk.
    destruct (assoc k self) as [[b|sub]|] eqn:E; destruct (assoc k dn) as [dt|] eqn:Ek; try contradiction;
      try discriminate.
    pose proof (same_keys_is_node _ _ Hk) as Hn. destruct dt as [c|dl]; [discriminate|].
    unfold child in H. rewrite Ek in H.
    destruct (update_with (setitem fuel dl) sub d) as [sub' e] eqn:Eu. inversion H. subst.
    split; [|apply Hne]. intros p. rewrite !leaf_at_cons, assoc_ins_eq, E.
    (* inner update *)
    assert (Hup : forall d s0 s1, same_keys (Node dl) (Node s0) -> wf (Node d) ->
      update_with (setitem fuel dl) s0 d = (s1, None) ->
      forall p, leaf_at (Node s1) p = match leaf_at (Node d) p with Some a => Some a
                                      | None => leaf_at (Node s0) p end).
    { clear - IH. induction d as [|[k v] d IHd]; intros s0 s1 Hs Hw Hu p.
      - simpl in Hu. inversion Hu. subst. destruct p; reflexivity.
      - simpl in Hu. destruct (setitem fuel dl s0 k v) as [s2 [e|]] eqn:E2; [discriminate|].
        pose proof (proj1 (wf_node _) Hw) as [Hnd Hwv].
        destruct (IH dl s0 k v s2 Hs (Hwv k v (or_introl eq_refl)) E2) as [IHa IHb].
        assert (Hs2 : same_keys (Node dl) (Node s2)).
        { replace s2 with (fst (setitem fuel dl s0 k v)) by (rewrite E2; reflexivity). apply setitem_full. exact Hs. }
        assert (Hwd : wf (Node d)).
        { apply wf_node. inversion Hnd. subst. split; [assumption|]. intros k' v' Hi. apply (Hwv k' v'). right; exact Hi. }
        specialize (IHd s2 s1 Hs2 Hwd Hu).
        destruct p as [|k' p]; [reflexivity|].
        rewrite (IHd (k' :: p)). rewrite !leaf_at_cons. simpl assoc.
        destruct (String.eqb_spec k' k) as [->|Hne].
        + inversion Hnd as [|x0 l0 Hx Hy]; subst. apply assoc_none in Hx. rewrite Hx.
          rewrite <- leaf_at_cons. rewrite IHa. rewrite leaf_at_cons. reflexivity.
        + destruct (assoc k' d) as [t|]; [destruct (leaf_at t p); [reflexivity|]|];
            rewrite <- leaf_at_cons; rewrite IHb by exact Hne; rewrite leaf_at_cons; reflexivity. }
    exact (Hup d sub sub' Hk Hw Eu p).
Qed.

Lemma update_overlay fuel dn : forall d s0 s1,
  same_keys (Node dn) (Node s0) -> wf (Node d) ->
  update_with (setitem fuel dn) s0 d = (s1, None) ->
  forall p, leaf_at (Node s1) p = match leaf_at (Node d) p with Some a => Some a
                                  | None => leaf_at (Node s0) p end.
Proof.
  induction d as [|[k v] d IHd]; intros s0 s1 Hs Hw Hu p.
  - simpl in Hu. inversion Hu. subst. destruct p; reflexivity.
  - simpl in Hu. destruct (setitem fuel dn s0 k v) as [s2 [e|]] eqn:E2; [discriminate|].
    pose proof (proj1 (wf_node _) Hw) as [Hnd Hwv].
    destruct (setitem_overlay fuel dn s0 k v s2 Hs (Hwv k v (or_introl eq_refl)) E2) as [IHa IHb].
    assert (Hs2 : same_keys (Node dn) (Node s2)).
    { replace s2 with (fst (setitem fuel dn s0 k v)) by (rewrite E2; reflexivity). apply setitem_full. exact Hs. }
    assert (Hwd : wf (Node d)).
    { apply wf_node. inversion Hnd. subst. split; [assumption|]. intros k' v' Hi. apply (Hwv k' v'). right; exact Hi. }
    specialize (IHd s2 s1 Hs2 Hwd Hu).
    destruct p as [|k' p]; [reflexivity|].
    rewrite (IHd (k' :: p)). rewrite !leaf_at_cons. simpl assoc.
    destruct (String.eqb_spec k' k) as [->|Hne].
    + inversion Hnd as [|x0 l0 Hx Hy]; subst. apply assoc_none in Hx. rewrite Hx.
      rewrite <- leaf_at_cons. rewrite IHa. rewrite leaf_at_cons. reflexivity.
    + destruct (assoc k' d) as [t|]; [destruct (leaf_at t p); [reflexivity|]|];
        rewrite <- leaf_at_cons; rewrite IHb by exact Hne; rewrite leaf_at_cons; reflexivity.
Qed.

(** After any update, failed or not, each leaf is the old one or the one given. *)
Lemma setitem_mixed fuel : forall dn self k v,
  same_keys (Node dn) (Node self) -> wf v ->
  let s := fst (setitem fuel dn self k v) in
  (forall p, leaf_at (Node s) (k :: p) = leaf_at (Node self) (k :: p) \/
             leaf_at (Node s) (k :: p) = leaf_at v p /\ leaf_at v p <> None) /\
  (forall k' p, k' <> k -> leaf_at (Node s) (k' :: p) = leaf_at (Node self) (k' :: p)).
Proof.
  induction fuel as [|fuel IH]; intros dn self k v Hs Hw; [simpl; split; [left; reflexivity|reflexivity]|].
  cbv zeta. simpl setitem.
  assert (Hne : forall w k' p, k' <> k ->
      leaf_at (Node (ins k w self)) (k' :: p) = leaf_at (Node self) (k' :: p)).
  { intros w k' p Hk. rewrite !leaf_at_cons, assoc_ins_ne by exact Hk. reflexivity. }
  destruct v as [a|d].
  - unfold check. pose proof (proj1 (same_keys_node _ _) Hs k) as Hk.
    destruct (assoc k dn) as [[b|dl]|] eqn:Ek; simpl fst; try (split; [left; reflexivity|reflexivity]).
    split; [|apply Hne]. intros p. rewrite !leaf_at_cons, assoc_ins_eq.
    destruct p as [|k2 p]; [right; split; [reflexivity|discriminate]|]. left.
    destruct (assoc k self) as [t|]; [|contradiction].
    pose proof (same_keys_is_node _ _ Hk) as Hn. destruct t; [reflexivity|discriminate].
  - pose proof (proj1 (same_keys_node _ _) Hs k) as Hk.
    destruct (assoc k self) as [[b|sub]|] eqn:E; destruct (assoc k dn) as [dt|] eqn:Ek; try contradiction;
      simpl fst; try (split; [left; reflexivity|reflexivity]).
    pose proof (same_keys_is_node _ _ Hk) as Hn. destruct dt as [c|dl]; [discriminate|].
    unfold child. rewrite Ek.
    assert (Hup : forall d s0, same_keys (Node dl) (Node s0) -> wf (Node d) ->
      forall p, let s1 := fst (update_with (setitem fuel dl) s0 d) in
        leaf_at (Node s1) p = leaf_at (Node s0) p \/
        leaf_at (Node s1) p = leaf_at (Node d) p /\ leaf_at (Node d) p <> None).
    { clear - IH. induction d as [|[k v] d IHd]; intros s0 Hs Hw p; cbv zeta; [left; reflexivity|].
      cbn [update_with].
      pose proof (proj1 (wf_node _) Hw) as [Hnd Hwv].
      destruct (IH dl s0 k v Hs (Hwv k v (or_introl eq_refl))) as [IHa IHb].
      pose proof (setitem_full fuel dl s0 k v Hs) as Hs2.
      destruct (setitem fuel dl s0 k v) as [s2 e2]. cbn [fst] in *.
      assert (Hone : leaf_at (Node s2) p = leaf_at (Node s0) p \/
         leaf_at (Node s2) p = leaf_at (Node ((k, v) :: d)) p /\ leaf_at (Node ((k, v) :: d)) p <> None).
      { destruct p as [|k' p]; [left; reflexivity|].
        destruct (string_dec k' k) as [->|Hne].
        - rewrite (leaf_at_cons ((k, v) :: d)). simpl assoc. rewrite String.eqb_refl. apply IHa.
        - left. apply IHb. exact Hne. }
      destruct e2 as [e|]; [exact Hone|].
      assert (Hwd : wf (Node d)).
      { apply wf_node. inversion Hnd. subst. split; [assumption|]. intros k' v' Hi. apply (Hwv k' v'). right; exact Hi. }
      destruct (IHd s2 Hs2 Hwd p) as [H1|[H1 H2]]; cbv zeta in *.
      - rewrite H1. exact Hone.
      - right. destruct p as [|k' p]; [exfalso; apply H2; reflexivity|].
        rewrite H1. rewrite !leaf_at_cons in *. simpl assoc.
        destruct (String.eqb_spec k' k) as [->|Hne]; [|split; [reflexivity|exact H2]].
        exfalso. inversion Hnd as [|x0 l0 Hx Hy]; subst. apply assoc_none in Hx. rewrite Hx in H2. congruence. }
    specialize (Hup d sub Hk Hw).
    destruct (update_with (setitem fuel dl) sub d) as [sub' e]. cbn [fst] in *.
    split; [|apply Hne]. intros p. rewrite !leaf_at_cons, assoc_ins_eq, E. exact (Hup p).
Qed.

Lemma update_mixed fuel dn : forall d s0,
  same_keys (Node dn) (Node s0) -> wf (Node d) ->
  forall p, let s1 := fst (update_with (setitem fuel dn) s0 d) in
    leaf_at (Node s1) p = leaf_at (Node s0) p \/
    leaf_at (Node s1) p = leaf_at (Node d) p /\ leaf_at (Node d) p <> None.
Proof.
  induction d as [|[k v] d IHd]; intros s0 Hs Hw p; cbv zeta; [left; reflexivity|].
  cbn [update_with].
  pose proof (proj1 (wf_node _) Hw) as [Hnd Hwv].
  destruct (setitem_mixed fuel dn s0 k v Hs (Hwv k v (or_introl eq_refl))) as [IHa IHb].
  pose proof (setitem_full fuel dn s0 k v Hs) as Hs2.
  destruct (setitem fuel dn s0 k v) as [s2 e2]. cbn [fst] in *.
  assert (Hone : leaf_at (Node s2) p = leaf_at (Node s0) p \/
     leaf_at (Node s2) p = leaf_at (Node ((k, v) :: d)) p /\ leaf_at (Node ((k, v) :: d)) p <> None).
  { destruct p as [|k' p]; [left; reflexivity|].
    destruct (string_dec k' k) as [->|Hne].
    - rewrite (leaf_at_cons ((k, v) :: d)). simpl assoc. rewrite String.eqb_refl. apply IHa.
    - left. apply IHb. exact Hne. }
  destruct e2 as [e|]; [exact Hone|].
  assert (Hwd : wf (Node d)).
  { apply wf_node. inversion Hnd. subst. split; [assumption|]. intros k' v' Hi. apply (Hwv k' v'). right; exact Hi. }
  destruct (IHd s2 Hs2 Hwd p) as [H1|[H1 H2]]; cbv zeta in *.
  - rewrite H1. exact Hone.
  - right. destruct p as [|k' p]; [exfalso; apply H2; reflexivity|].
    rewrite H1. rewrite !leaf_at_cons in *. simpl assoc.
    destruct (String.eqb_spec k' k) as [->|Hne]; [|split; [reflexivity|exact H2]].
    exfalso. inversion Hnd as [|x0 l0 Hx Hy]; subst. apply assoc_none in Hx. rewrite Hx in H2. congruence.
Qed.

(** ** Fuel is never exhausted *)
Lemma update_nofuel_gen setf (I : items -> Prop) :
  (forall s k v, I s -> I (fst (setf s k v))) ->
  (forall s k v, I s -> snd (setf s k v) <> Some EFuel) ->
  forall d s, I s -> snd (update_with setf s d) <> Some EFuel.
Proof.
  intros Hi Hq. induction d as [|[k v] d IH]; intros s Hs; simpl; [discriminate|].
  pose proof (Hi s k v Hs) as Hi1. pose proof (Hq s k v Hs) as Hq1.
  destruct (setf s k v) as [s' [e|]]; simpl in *; [exact Hq1|apply IH; exact Hi1].
Qed.

Lemma setitem_nofuel fuel : forall dn self k v,
  depth (Node dn) <= fuel -> same_keys (Node dn) (Node self) ->
  snd (setitem fuel dn self k v) <> Some EFuel.
Proof.
  induction fuel as [|fuel IH]; intros dn self k v Hd Hs; [pose proof (depth_pos (Node dn)); lia|].
  simpl. destruct v as [b|d].
  - unfold check. destruct (assoc k dn) as [[a|dl]|]; simpl; discriminate.
  - pose proof (proj1 (same_keys_node _ _) Hs k) as Hk.
    destruct (assoc k self) as [[b|sub]|] eqn:E; destruct (assoc k dn) as [dt|] eqn:Ek; try contradiction;
      simpl; try discriminate.
    pose proof (same_keys_is_node _ _ Hk) as Hn. destruct dt as [c|dl]; [discriminate|].
    unfold child. rewrite Ek. pose proof (child_depth _ _ _ Ek) as Hcd.
    assert (H1 : snd (update_with (setitem fuel dl) sub d) <> Some EFuel).
    { apply (update_nofuel_gen _ (fun s => same_keys (Node dl) (Node s))).
      - intros. apply setitem_full. assumption.
      - intros s k' v' Hs'. apply IH; [lia|exact Hs'].
      - exact Hk. }
    destruct (update_with (setitem fuel dl) sub d) as [sub' e]. exact H1.
Qed.

(** ** keycmp *)
Lemma keycmp_ok lb : forall la, keycmp (Node la) (Node lb) = None <-> kc_ok (Node la) (Node lb).
Proof.
  assert (G : forall b la, match b with Leaf _ => True | Node lb =>
     keycmp (Node la) (Node lb) = None <-> kc_ok (Node la) (Node lb) end).
  { induction b as [a|l IH] using tree_ind2; intros la; [exact I|].
    assert (Hiff : kc_ok (Node la) (Node l) <->
      (forall k v, In (k, v) l -> exists d : tr, assoc k la = Some d /\ kc_ok d v)).
    { split; [intros H; inversion H; subst; assumption|intros H; constructor; exact H]. }
    rewrite Hiff. clear Hiff. simpl.
    induction l as [|[k v] l IHl]; [split; [intros _ k v []|reflexivity]|].
    assert (IHl' : (fix go (l : list (key * tree A)) : option err :=
         match l with
         | [] => None
         | (k, vb) :: l' =>
             match assoc k la with
             | None => Some EUnknown
             | Some (Leaf _) => go l'
             | Some (Node la') =>
                 match vb with
                 | Leaf _ => Some EInvalid
                 | Node _ => match keycmp (Node la') vb with
                             | Some e => Some e
                             | None => go l'
                             end
                 end
             end
         end) l = None <-> (forall k v, In (k, v) l -> exists d : tr, assoc k la = Some d /\ kc_ok d v)).
    { apply IHl. intros k0 v0 Hi. apply (IH k0 v0). right. exact Hi. }
    clear IHl.
    assert (Hsplit : (forall k0 v0, In (k0, v0) ((k, v) :: l) -> exists d : tr, assoc k0 la = Some d /\ kc_ok d v0) <->
       (exists d : tr, assoc k la = Some d /\ kc_ok d v) /\
       (forall k0 v0, In (k0, v0) l -> exists d : tr, assoc k0 la = Some d /\ kc_ok d v0)).
    { split.
      - intros H. split; [apply H; left; reflexivity|]. intros k0 v0 Hi. apply H. right. exact Hi.
      - intros [H1 H2] k0 v0 [He|Hi]; [inversion He; subst; exact H1|apply H2; exact Hi]. }
    rewrite Hsplit, <- IHl'. clear Hsplit.
    destruct (assoc k la) as [[a|la']|] eqn:Ek.
    - split; [intros H; split; [|exact H]; exists (Leaf a); split; [reflexivity|constructor]|tauto].
    - destruct v as [b|lv].
      + split; [discriminate|]. intros [[d [He Hk]] _]. inversion He. subst. inversion Hk.
      + pose proof (IH k (Node lv) (or_introl eq_refl) la') as Hv. cbv beta iota in Hv.
        destruct (keycmp (Node la') (Node lv)) as [e|].
        * split; [discriminate|]. intros [[d [He Hk]] _]. inversion He. subst.
          destruct Hv as [_ Hv]. specialize (Hv Hk). discriminate.
        * split; [intros H; split; [|exact H]|tauto]. exists (Node la'). split; [reflexivity|]. apply Hv. reflexivity.
    - split; [discriminate|]. intros [[d [He _]] _]. discriminate. }
  intros la. exact (G (Node lb) la).
Qed.

End Proofs.
