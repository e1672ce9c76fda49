(** C65: the effect of constructing a dictionary learning object on the caller's options object. *)
Require Import List String Bool Arith Lia.
Require Import Verif.CdictModel Verif.CdictSpec Verif.CdictProofs Verif.OptShareModel Verif.OptMutModel.
Import ListNotations.
Local Open Scope string_scope.
Local Open Scope list_scope.

Section Props.
Context {A : Type}.
Notation tr := (tree A).
Notation items := (list (key * tr)).

(** The nested options object of the dictionary update as its class makes it: its defaults have leaf entries ZeroMean and
    those written, and it has the same entries. *)
Definition proper (c : dlclass) (o : obj (A := A)) : Prop :=
  (forall k, In k ("ZeroMean" :: wkeys c) -> (exists a, assoc k (own (cc o)) = Some (Leaf a)) /\
                                            (exists a, assoc k (contents (cc o)) = Some (Leaf a))).

Lemma set_leaf : forall (own c : items) k a b n, assoc k own = Some (Leaf b) ->
  setitem (S n) own c k (Leaf a) = (ins k (Leaf a) c, None).
Proof. intros own c k a b n H. simpl. unfold check. rewrite H. reflexivity. Qed.

Fixpoint ins_all (l : items) (c : items) : items :=
  match l with [] => c | (k, v) :: l' => ins_all l' (ins k v c) end.

Lemma upd_leaves : forall (l : items) (own c : items) n,
  (forall k v, In (k, v) l -> (exists a, v = Leaf a) /\ exists b, assoc k own = Some (Leaf b)) ->
  update_with (setitem (S n) own) c l = (ins_all l c, None).
Proof.
  induction l as [|[k v] l IH]; intros own c n H; [reflexivity | ].
  cbn [update_with ins_all]. destruct (H k v (or_introl eq_refl)) as [[a ->] [b Hb]].
  rewrite (set_leaf own c k a b n Hb). apply IH. intros k' v' Hk. apply H. right. exact Hk.
Qed.

Lemma written_keys : forall c (a : arrays) (zm : A), map fst (written c a zm) = wkeys c.
Proof. intros c a zm. destruct c as [| |m|m]; try destruct m; reflexivity. Qed.

Lemma written_leaf : forall c (a : arrays) (zm : A) k v, In (k, v) (written c a zm) -> exists b, v = Leaf b.
Proof.
  intros c a zm k v H. destruct c as [| |m|m]; try destruct m; simpl in H;
    repeat (destruct H as [H|H]; [injection H as <- <-; eexists; reflexivity | ]); contradiction.
Qed.

Lemma construct_eq : forall c (a : arrays) sub_ok (o : obj (A := A)), proper c o ->
  exists zm, assoc "ZeroMean" (contents (cc o)) = Some (Leaf zm) /\
  construct c false a sub_ok o =
    let d' := ins_all (written c a zm) (contents (cc o)) in
    (mkObj (top o) (cb o) (mkSub (own (cc o)) d'),
     if sub_ok (contents (cb o)) d' then OBuilt (contents (cb o)) d' else OSubErr).
Proof.
  intros c a sub_ok o P. destruct (P "ZeroMean" (or_introl eq_refl)) as [_ [zm Hzm]]. exists zm. split; [exact Hzm | ].
  unfold construct. cbn [getpath]. rewrite Hzm. unfold sub_update, fuel_of.
  rewrite upd_leaves; [reflexivity | ].
  intros k v Hk. split; [exact (written_leaf c a zm k v Hk) | ].
  apply (in_map fst) in Hk. rewrite written_keys in Hk. apply (P k). right. exact Hk.
Qed.

Lemma assoc_ins_all : forall (l c : items) k, NoDup (map fst l) ->
  assoc k (ins_all l c) = match assoc k l with Some v => Some v | None => assoc k c end.
Proof.
  induction l as [|[k0 v0] l IH]; intros c k Hn; [reflexivity | ].
  cbn [ins_all map fst] in *. inversion Hn as [|? ? Hk Hl]; subst. rewrite IH by exact Hl. cbn [assoc].
  rewrite assoc_ins. destruct (String.eqb_spec k k0) as [->|Hne]; [ | reflexivity].
  assert (E : assoc k0 l = None) by (apply assoc_none; exact Hk). rewrite E. reflexivity.
Qed.

Lemma wkeys_nodup : forall c, NoDup (wkeys c).
Proof. intros c. destruct c as [| |m|m]; try destruct m; repeat (constructor; [simpl; intuition discriminate | ]); constructor. Qed.

(** Exactly what changes: the entries for the initial values in the nested object of the dictionary update are replaced,
    everything else in the options object stays as it was, whether or not the construction then succeeds. *)
Theorem C65_changes : forall c (a : arrays) sub_ok (o o' : obj (A := A)) out, proper c o ->
  construct c false a sub_ok o = (o', out) ->
  top o' = top o /\ cb o' = cb o /\ own (cc o') = own (cc o) /\
  (forall k, ~ In k (wkeys c) -> assoc k (contents (cc o')) = assoc k (contents (cc o))) /\
  (exists zm, assoc "ZeroMean" (contents (cc o)) = Some (Leaf zm) /\
     forall k v, In (k, v) (written c a zm) -> assoc k (contents (cc o')) = Some v) /\
  map fst (contents (cc o')) = map fst (contents (cc o)).
Proof.
  intros c a sub_ok o o' out P E. destruct (construct_eq c a sub_ok o P) as (zm & Hzm & Q). rewrite Q in E. cbv zeta in E.
  injection E as <- _. cbn [top cb cc own contents].
  assert (Nd : NoDup (map fst (written c a zm))) by (rewrite written_keys; apply wkeys_nodup).
  repeat (split; [reflexivity | ]). split; [ | split].
  - intros k Hk. rewrite assoc_ins_all by exact Nd. replace (assoc k (written c a zm)) with (@None tr); [reflexivity | ].
    symmetry. apply assoc_none. rewrite written_keys. exact Hk.
  - exists zm. split; [exact Hzm | ]. intros k v Hk. rewrite assoc_ins_all by exact Nd.
    rewrite (in_assoc k v _ Nd Hk). reflexivity.
  - assert (I : forall (l d : items), (forall k, In k (map fst l) -> In k (map fst d)) -> map fst (ins_all l d) = map fst d).
    { assert (J : forall k v (d : items), In k (map fst d) -> map fst (ins k v d) = map fst d).
      { intros k v d. induction d as [|[k1 v1] d IH]; simpl; [contradiction | ].
        destruct (String.eqb_spec k k1) as [->|Hne]; [reflexivity | ]. intros [H|H]; [symmetry in H; contradiction | ].
        simpl. rewrite (IH H). reflexivity. }
      induction l as [|[k v] l IH]; intros d H; [reflexivity | ]. cbn [ins_all].
      rewrite IH; [apply J; apply H; left; reflexivity | ].
      intros k' Hk'. rewrite J by (apply H; left; reflexivity). apply H. right. exact Hk'. }
    apply I. intros k Hk. rewrite written_keys in Hk. destruct (P k (or_intror Hk)) as [_ [b Hb]].
    apply assoc_in in Hb. apply (in_map fst) in Hb. exact Hb.
Qed.

(** The values themselves, class by class: proximal gradient updates start at the dictionary in X0, the others in Y0, where the mask decoupling
    updates other than the consensus one have a block of zeros in front; only BPDNDictLearn also sets a dual variable. *)
Theorem C65_initial : forall c (a : arrays) sub_ok (o o' : obj (A := A)) out, proper c o -> construct c false a sub_ok o = (o', out) ->
  exists zm, assoc "ZeroMean" (contents (cc o)) = Some (Leaf zm) /\
    (c = CBpdn -> assoc "Y0" (contents (cc o')) = Some (Leaf (ar_dict a zm)) /\ assoc "U0" (contents (cc o')) = Some (Leaf (ar_zeros a))) /\
    (c = CWbpdn \/ c = CConv Mpgm \/ c = CMask Mpgm -> assoc "X0" (contents (cc o')) = Some (Leaf (ar_dict a zm)) /\
                                                      assoc "Y0" (contents (cc o')) = assoc "Y0" (contents (cc o))) /\
    ((exists m, m <> Mpgm /\ c = CConv m) \/ c = CMask Mcns -> assoc "Y0" (contents (cc o')) = Some (Leaf (ar_dict a zm)) /\
                                                      assoc "X0" (contents (cc o')) = assoc "X0" (contents (cc o))) /\
    (c = CMask Mism \/ c = CMask Mcg -> assoc "Y0" (contents (cc o')) = Some (Leaf (ar_cat a zm)) /\
                                        assoc "X0" (contents (cc o')) = assoc "X0" (contents (cc o))).
Proof.
  intros c a sub_ok o o' out P E. destruct (C65_changes c a sub_ok o o' out P E) as (_ & _ & _ & Fr & (zm & Hz & W) & _).
  exists zm. split; [exact Hz | ]. repeat split.
  - subst c. apply W. simpl. auto.
  - subst c. apply W. simpl. auto.
  - destruct H as [->|[->| ->]]; apply W; simpl; auto.
  - destruct H as [->|[->| ->]]; apply Fr; simpl; intuition discriminate.
  - destruct H as [(m & Hm & ->)| ->]; [destruct m; [congruence | | | ]|]; apply W; simpl; auto.
  - destruct H as [(m & Hm & ->)| ->]; [destruct m; [congruence | | | ]|]; apply Fr; simpl; intuition discriminate.
  - destruct H as [->| ->]; apply W; simpl; auto.
  - destruct H as [->| ->]; apply Fr; simpl; intuition discriminate.
Qed.

(** So the options object is unchanged only if it already held those initial values. *)
Theorem C65_unchanged_iff : forall c (a : arrays) sub_ok (o : obj (A := A)), proper c o ->
  (fst (construct c false a sub_ok o) = o <->
   exists zm, assoc "ZeroMean" (contents (cc o)) = Some (Leaf zm) /\
     forall k v, In (k, v) (written c a zm) -> assoc k (contents (cc o)) = Some v).
Proof.
  intros c a sub_ok o P. destruct (construct_eq c a sub_ok o P) as (zm & Hzm & Q).
  destruct (construct c false a sub_ok o) as [o' out] eqn:E. cbn [fst].
  destruct (C65_changes c a sub_ok o o' out P E) as (_ & _ & _ & _ & (zm' & Hzm' & W) & _).
  split.
  - intros ->. exists zm'. split; assumption.
  - intros (z & Hz & H). rewrite Hzm in Hz. injection Hz as <-. cbv zeta in Q. injection Q as -> _.
    destruct o as [t b d]. destruct d as [ow ct]. cbn [top cb cc own contents] in *. f_equal. f_equal.
    assert (I : forall l : items, (forall k v, In (k, v) l -> assoc k ct = Some v) -> ins_all l ct = ct).
    { induction l as [|[k v] l IH]; intros Hl; [reflexivity | ]. cbn [ins_all].
      rewrite ins_same by (apply Hl; left; reflexivity). apply IH. intros k' v' Hk'. apply Hl. right. exact Hk'. }
    apply I. exact H.
Qed.

(** Whatever the outcome, and whatever options object is given: the entries outside the dictionary update's initial values
    are not touched, and the object is not touched at all if the method names do not match. *)
Lemma upd_frame : forall (l own c c' : items) n e, (forall k v, In (k, v) l -> exists a, v = Leaf a) ->
  update_with (setitem n own) c l = (c', e) ->
  forall k, ~ In k (map fst l) -> assoc k c' = assoc k c.
Proof.
  induction l as [|[k0 v0] l IH]; intros own c c' n e Hl E k Hk.
  - simpl in E. injection E as <- _. reflexivity.
  - cbn [update_with] in E. destruct (Hl k0 v0 (or_introl eq_refl)) as [a ->].
    assert (Hk0 : k <> k0) by (intros ->; apply Hk; left; reflexivity).
    assert (Hkl : ~ In k (map fst l)) by (intros H; apply Hk; right; exact H).
    assert (Hl' : forall k v, In (k, v) l -> exists a, v = Leaf a) by (intros k' v' H; apply (Hl k' v'); right; exact H).
    assert (D : setitem n own c k0 (Leaf a) = (ins k0 (Leaf a) c, None) \/ exists e', setitem n own c k0 (Leaf a) = (c, Some e')).
    { destruct n as [|n]; cbn [setitem]; [right; eexists; reflexivity | ].
      destruct (check own k0 (Leaf a)); [right; eexists; reflexivity | left; reflexivity]. }
    destruct D as [D|[e' D]]; rewrite D in E.
    + rewrite (IH own _ _ n e Hl' E k Hkl). apply assoc_ins_ne. exact Hk0.
    + injection E as <- _. reflexivity.
Qed.

Theorem C65_frame : forall c mism (a : arrays) sub_ok (o o' : obj (A := A)) out,
  construct c mism a sub_ok o = (o', out) ->
  top o' = top o /\ cb o' = cb o /\ own (cc o') = own (cc o) /\
  (forall k, ~ In k (wkeys c) -> assoc k (contents (cc o')) = assoc k (contents (cc o))) /\
  (mism = true -> o' = o /\ forall x d, out <> OBuilt x d).
Proof.
  intros c mism a sub_ok o o' out E. unfold construct in E. destruct mism.
  - injection E as <- <-. do 4 (split; [reflexivity | ]). 
    intros _. split; [reflexivity | discriminate].
  - destruct (getpath (contents (cc o)) ["ZeroMean"]) as [[zm|nd]|e];
      try (injection E as <- <-; do 4 (split; [reflexivity | ]); discriminate).
    unfold sub_update in E.
    destruct (update_with (setitem (fuel_of (own (cc o))) (own (cc o))) (contents (cc o)) (written c a zm)) as [c' oe] eqn:U.
    assert (F : forall k, ~ In k (wkeys c) -> assoc k c' = assoc k (contents (cc o))).
    { intros k Hk. apply (upd_frame _ _ _ _ _ _ (written_leaf c a zm) U). rewrite written_keys. exact Hk. }
    destruct oe; cbv zeta in E; injection E as <- _; cbn [top cb cc own contents];
      (do 3 (split; [reflexivity | ]); split; [exact F | discriminate]).
Qed.

(** Nothing leaks from one construction into the next with the same options object: the second solver reads the same
    options as if the object had been fresh. *)
Lemma ins_ins : forall k (v v' : tr) d, ins k v (ins k v' d) = ins k v d.
Proof.
  intros k v v' d. induction d as [|[k1 v1] d IH]; simpl.
  - rewrite String.eqb_refl. reflexivity.
  - destruct (String.eqb_spec k k1) as [->|Hne]; simpl.
    + rewrite String.eqb_refl. reflexivity.
    + destruct (String.eqb_spec k k1); [contradiction | ]. rewrite IH. reflexivity.
Qed.

Lemma ins_comm : forall k1 k2 (v1 v2 : tr) d, k1 <> k2 -> In k1 (map fst d) -> In k2 (map fst d) ->
  ins k1 v1 (ins k2 v2 d) = ins k2 v2 (ins k1 v1 d).
Proof.
  intros k1 k2 v1 v2 d Hne. induction d as [|[k v] d IH]; simpl; [contradiction | ]. intros H1 H2.
  destruct (String.eqb_spec k2 k) as [->|N2]; destruct (String.eqb_spec k1 k) as [->|N1]; simpl.
  - contradiction.
  - destruct (String.eqb_spec k1 k); [contradiction | ]. rewrite String.eqb_refl. reflexivity.
  - rewrite String.eqb_refl. destruct (String.eqb_spec k2 k); [contradiction | ]. reflexivity.
  - destruct (String.eqb_spec k1 k); [contradiction | ]. destruct (String.eqb_spec k2 k); [contradiction | ].
    rewrite IH; [reflexivity | |]; [destruct H1 as [H1|H1] | destruct H2 as [H2|H2]]; congruence.
Qed.

Theorem C65_no_leak : forall c (a1 a2 : arrays) ok1 ok2 (o : obj (A := A)), proper c o ->
  construct c false a2 ok2 (fst (construct c false a1 ok1 o)) = construct c false a2 ok2 o.
Proof.
  intros c a1 a2 ok1 ok2 o P.
  destruct (construct_eq c a1 ok1 o P) as (zm & Hzm & Q1).
  destruct (construct_eq c a2 ok2 o P) as (zm2 & Hzm2 & Q2). rewrite Hzm in Hzm2. injection Hzm2 as <-.
  destruct (construct c false a1 ok1 o) as [o1 out1] eqn:E1. cbn [fst].
  destruct (C65_changes c a1 ok1 o o1 out1 P E1) as (T & B & Ow & F & W & K).
  assert (P1 : proper c o1).
  { intros k Hk. rewrite Ow. destruct (P k Hk) as [D1 D2]. split; [exact D1 | ].
    destruct (in_dec string_dec k (wkeys c)) as [Hw|Hw].
    - destruct W as (z & _ & W). rewrite <- (written_keys c a1 z) in Hw. apply in_map_iff in Hw.
      destruct Hw as ((k', v) & Ek & Hv). simpl in Ek. subst k'. destruct (written_leaf c a1 z k v Hv) as [b ->].
      exists b. apply W. exact Hv.
    - rewrite F by exact Hw. exact D2. }
  destruct (construct_eq c a2 ok2 o1 P1) as (zm3 & Hzm3 & Q3).
  assert (Z : zm3 = zm).
  { rewrite F in Hzm3 by (destruct c as [| |m|m]; try destruct m; simpl; intuition discriminate). congruence. }
  subst zm3. rewrite Q3, Q2. cbv zeta in Q1. injection Q1 as Q1 _. subst o1.
  cbn [top cb cc own contents] in *. cbv zeta.
  assert (S : ins_all (written c a2 zm) (ins_all (written c a1 zm) (contents (cc o))) = ins_all (written c a2 zm) (contents (cc o))).
  { assert (Pr : forall k, In k (wkeys c) -> In k (map fst (contents (cc o)))).
    { intros k Hk. destruct (P k (or_intror Hk)) as [_ [b Hb]]. apply assoc_in in Hb. apply (in_map fst) in Hb. exact Hb. }
    destruct c as [| |m|m]; try destruct m; simpl; rewrite ?ins_ins; try reflexivity.
    rewrite (ins_comm "U0" "Y0" _ _ (contents (cc o))); [ | discriminate | apply Pr; simpl; tauto | apply Pr; simpl; tauto].
    rewrite ins_ins.
    rewrite (ins_comm "Y0" "U0" _ _ (contents (cc o))); [ | discriminate | apply Pr; simpl; tauto | apply Pr; simpl; tauto].
    rewrite ins_ins. reflexivity. }
  rewrite S. reflexivity.
Qed.
End Props.

(** The claim is false: with leaves 0 for None and False, 5 for a dictionary, constructing changes the caller's object, and
    does so even if the construction fails. *)
Definition ex_sub : sub (A := nat) :=
  mkSub [("ZeroMean", Leaf 0); ("Y0", Leaf 0); ("U0", Leaf 0); ("X0", Leaf 0); ("MaxMainIter", Leaf 1)]
        [("ZeroMean", Leaf 0); ("Y0", Leaf 0); ("U0", Leaf 0); ("X0", Leaf 0); ("MaxMainIter", Leaf 2)].
Definition ex_obj : obj (A := nat) := mkObj [("Verbose", Leaf 0)] (mkSub [("lmbda", Leaf 3)] [("lmbda", Leaf 3)]) ex_sub.
Definition ex_arrays : arrays (A := nat) := {| ar_dict := fun z => 5 + z; ar_zeros := 7; ar_cat := fun z => 9 + z |}.

Theorem C65_refuted : forall c ok, fst (construct c false ex_arrays ok ex_obj) <> ex_obj.
Proof.
  intros c ok H. destruct c as [| |m|m]; try destruct m; vm_compute in H; discriminate H.
Qed.

Example C65_ex_proper : forall c, proper c ex_obj.
Proof.
  intros c k Hk. destruct c as [| |m|m]; try destruct m; simpl in Hk;
    repeat (destruct Hk as [<-|Hk]; [split; eexists; reflexivity | ]); contradiction.
Qed.

Print Assumptions C65_changes.
Print Assumptions C65_initial.
Print Assumptions C65_unchanged_iff.
Print Assumptions C65_frame.
Print Assumptions C65_no_leak.
Print Assumptions C65_refuted.
