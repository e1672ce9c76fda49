Require Import Reals List Arith Bool Lia Lra FunctionalExtensionality.
Require Import Verif.RVec Verif.ProxModel Verif.ProxProofs Verif.InterModel Verif.InterProofs Verif.AssignModel Verif.AssignProofs Verif.PrlCnsModel.
Import ListNotations.

Lemma karr_eqb_spec : forall a b, reflect (a = b) (karr_eqb a b).
Proof. intros a b; destruct a, b; simpl; constructor; congruence. Qed.
Lemma sarr_eqb_spec : forall a b, reflect (a = b) (sarr_eqb a b).
Proof. intros a b; destruct a, b; simpl; constructor; congruence. Qed.
Lemma ploc_eqb_spec : forall a b, reflect (a = b) (ploc_eqb a b).
Proof.
  intros [a k p|a p] [b j q|b q]; simpl; try (constructor; congruence).
  - destruct (karr_eqb_spec a b), (Nat.eqb_spec k j), (Nat.eqb_spec p q); simpl; constructor; congruence.
  - destruct (sarr_eqb_spec a b), (Nat.eqb_spec p q); simpl; constructor; congruence.
Qed.

Section Cfg.
Variable c : pcfg.
Definition owner (l : ploc) : option nat := match l with K _ k _ => if k <? nK c then Some k else None | S _ _ => None end.
Lemma owner_lt : forall l i, owner l = Some i -> i < nK c.
Proof. intros [a k p|a p] i H; simpl in H; [ | discriminate]. destruct (Nat.ltb_spec k (nK c)); [injection H as <-; assumption | discriminate]. Qed.

Notation own := (own_stmt owner).
Notation agree := (vagree owner).

Lemma kv_agree : forall k v v' a, k < nK c -> agree k v v' -> kv v a k = kv v' a k.
Proof.
  intros k v v' a Hk H. apply functional_extensionality. intros p. apply H. left. simpl.
  destruct (Nat.ltb_spec k (nK c)); [reflexivity | lia].
Qed.
Lemma sv_agree : forall k v v' a, agree k v v' -> sv v a = sv v' a.
Proof. intros k v v' a H. apply functional_extensionality. intros p. apply H. right. reflexivity. Qed.

Lemma kset_own : forall a k e, k < nK c -> (forall v v', agree k v v' -> e v = e v') -> own k (kset c a k e).
Proof.
  intros a k e Hk He. split.
  - intros l Hl. simpl in Hl. apply in_map_iff in Hl. destruct Hl as (p & <- & _). simpl. destruct (Nat.ltb_spec k (nK c)); [reflexivity | lia].
  - intros v v' l _ H. simpl. rewrite (He v v' H). reflexivity.
Qed.

Ltac ksolve := repeat constructor; apply kset_own; try assumption; intros v v' H;
  repeat (match goal with
  | |- context [kv v ?a ?k] => rewrite (kv_agree k v v' a) by assumption
  | |- context [sv v ?a] => rewrite (sv_agree _ v v' a H)
  end); try reflexivity.

Lemma yu0_agree : forall k v v', k < nK c -> agree k v v' -> yu0 v k = yu0 v' k.
Proof. intros k v v' Hk H. unfold yu0. rewrite !(kv_agree k v v') by assumption. reflexivity. Qed.
Lemma yu1_agree : forall k v v', k < nK c -> agree k v v' -> yu1 v k = yu1 v' k.
Proof. intros k v v' Hk H. unfold yu1. rewrite !(kv_agree k v v') by assumption. reflexivity. Qed.
Lemma du0_agree : forall k v v', k < nK c -> agree k v v' -> du0 v k = du0 v' k.
Proof. intros k v v' Hk H. unfold du0. rewrite !(kv_agree k v v'), !(sv_agree k v v') by assumption. reflexivity. Qed.
Lemma du1_agree : forall k v v', k < nK c -> agree k v v' -> du1 v k = du1 v' k.
Proof. intros k v v' Hk H. unfold du1. rewrite !(kv_agree k v v') by assumption. reflexivity. Qed.
Lemma mask_agree : forall k v v', k < nK c -> agree k v v' -> mask c v k = mask c v' k.
Proof. intros k v v' Hk H. unfold mask. rewrite !(kv_agree k v v'), !(sv_agree k v v') by assumption. reflexivity. Qed.

Lemma xstep_own : forall k, k < nK c -> Forall (own k) (cbpdn_xstep c k). Proof. intros k Hk. ksolve. Qed.
Lemma relax_own : forall k, k < nK c -> Forall (own k) (cbpdn_relax c k). Proof. intros k Hk. ksolve. Qed.
Lemma ystep_own : forall k, k < nK c -> Forall (own k) (cbpdn_ystep c k). Proof. intros k Hk. ksolve. Qed.
Lemma ustep_own : forall k, k < nK c -> Forall (own k) (cbpdn_ustep c k). Proof. intros k Hk. ksolve. Qed.
Lemma setcoef_own : forall k, k < nK c -> Forall (own k) (ccmod_setcoef c k). Proof. intros k Hk. ksolve. Qed.
Lemma dxstep_own : forall k, k < nK c -> Forall (own k) (ccmod_xstep c k). Proof. intros k Hk. ksolve. Qed.
Lemma drelax_own : forall k, k < nK c -> Forall (own k) (ccmod_relax c k). Proof. intros k Hk. ksolve. Qed.
Lemma if_own : forall (b : bool) k p, Forall (own k) p -> Forall (own k) (if b then p else []).
Proof. intros [|] k p H; [exact H | constructor]. Qed.

Lemma step_group_own : forall k, k < nK c -> Forall (own k) (step_group c k).
Proof.
  intros k Hk. unfold step_group.
  apply Forall_app; split; [apply xstep_own; exact Hk | ].
  apply Forall_app; split; [apply if_own, relax_own; exact Hk | ].
  apply Forall_app; split; [apply ystep_own; exact Hk | ].
  apply Forall_app; split; [apply ustep_own; exact Hk | ].
  apply Forall_app; split; [apply setcoef_own; exact Hk | ].
  apply Forall_app; split; [apply dxstep_own; exact Hk | ].
  apply if_own, drelax_own; exact Hk.
Qed.

Ltac msolve := repeat constructor; apply kset_own; try assumption; intros v v' H;
  rewrite ?(yu0_agree _ v v'), ?(yu1_agree _ v v'), ?(du0_agree _ v v'), ?(du1_agree _ v v'), ?(mask_agree _ v v') by assumption;
  repeat (match goal with
  | |- context [kv v ?a ?k] => rewrite (kv_agree k v v' a) by assumption
  | |- context [sv v ?a] => rewrite (sv_agree _ v v' a H)
  end); try reflexivity.
Lemma md_step_group_own : forall k, k < nK c -> Forall (own k) (md_step_group c k).
Proof.
  intros k Hk. unfold md_step_group.
  apply Forall_app; split; [msolve | ].
  apply Forall_app; split; [apply if_own; msolve | ].
  apply Forall_app; split; [msolve | ].
  apply Forall_app; split; [msolve | ].
  apply Forall_app; split; [msolve | ].
  apply Forall_app; split; [msolve | ].
  apply if_own; msolve.
Qed.

(** The two classes. *)
Definition ok (d : cls) : Prop := forall k, k < nK c -> Forall (own k) (group d k).
Lemma plain_ok : ok (plain c). Proof. intros k Hk. apply step_group_own. exact Hk. Qed.
Lemma masked_ok : ok (masked c). Proof. intros k Hk. apply md_step_group_own. exact Hk. Qed.

Definition fair (d : cls) (s : list nat) : Prop := forall k, k < nK c -> length (tasks c d k) <= count_occ Nat.eq_dec s k.

Lemma tasks_eq : forall d, tasks c d = tasks_of ploc_eqb (nK c) (group d).
Proof. reflexivity. Qed.

Lemma step_par_vars : forall d s m, ok d -> fair d s ->
  vars (step_par c d s m) = do_prog ploc_eqb (rest d) (do_seq ploc_eqb (nK c) (group d) (vars m)).
Proof.
  intros d s m Hd Hs. unfold step_par, rest_exec. rewrite (exec_prog ploc_eqb ploc_eqb_spec). f_equal.
  rewrite tasks_eq. apply (schedule ploc_eqb ploc_eqb_spec owner (nK c) owner_lt (group d) s m Hd).
  apply enough_turns. exact Hs.
Qed.
Lemma step_0_vars : forall d m, vars (step_0 c d m) = do_prog ploc_eqb (rest d) (do_seq ploc_eqb (nK c) (group d) (vars m)).
Proof.
  intros d m. unfold step_0, rest_exec. rewrite (exec_prog ploc_eqb ploc_eqb_spec). f_equal.
  apply (sequential_prog ploc_eqb ploc_eqb_spec (nK c) (group d) m).
Qed.

(** Loops whose steps act in the same way on the variables. *)
Lemma loop_vars : forall (Ev : Type) (ev : _ -> Ev) cb s1 s2 mx j o1 o2,
  (forall i m1 m2, vars m1 = vars m2 -> vars (s1 i m1) = vars (s2 i m2)) ->
  vars (om o1) = vars (om o2) -> oj o1 = oj o2 -> ost o1 = ost o2 ->
  let r1 := loop ev cb s1 mx j o1 in let r2 := loop ev cb s2 mx j o2 in
  vars (om r1) = vars (om r2) /\ oj r1 = oj r2 /\ ost r1 = ost r2.
Proof.
  intros Ev ev cb s1 s2 mx. induction mx as [|mx IH]; intros j o1 o2 Hs Hm Hj Ho; cbv zeta; [repeat split; assumption | ].
  cbn [loop]. cbv zeta. pose proof (Hs j _ _ Hm) as E. rewrite E. destruct (cb j (vars (s2 j (om o2)))).
  - cbn [om oj ost]. rewrite Ho. repeat split. exact E.
  - apply IH; [exact Hs | exact E | reflexivity | cbn [ost]; rewrite Ho; reflexivity].
Qed.

(** Stage by stage. *)
Section Stages.
Notation DS := (do_seq ploc_eqb (nK c)).
Lemma ds_app : forall p q v, (forall k, k < nK c -> Forall (own k) (p k)) -> (forall k, k < nK c -> Forall (own k) (q k)) ->
  DS (fun k => p k ++ q k) v = DS q (DS p v).
Proof. intros p q v. apply (do_seq_app ploc_eqb ploc_eqb_spec owner (nK c) owner_lt). Qed.
Lemma ds_nil : forall v, DS (fun _ => []) v = v.
Proof. intros v. unfold do_seq. generalize (seq 0 (nK c)) as l. intros l. induction l as [|k l IH]; [reflexivity | exact IH]. Qed.
Lemma ds_if : forall (x : R) p v, DS (fun k => if neq1 x then p k else []) v = if eqb x 1 then v else DS p v.
Proof. intros x p v. unfold neq1. destruct (eqb x 1); simpl; [apply ds_nil | reflexivity]. Qed.

Lemma step_group_stages : forall v,
  DS (step_group c) v =
  (let v := DS (cbpdn_xstep c) v in
   let v := if eqb (xrlx c) 1 then v else DS (cbpdn_relax c) v in
   let v := DS (ccmod_setcoef c) (DS (cbpdn_ustep c) (DS (cbpdn_ystep c) v)) in
   let v := DS (ccmod_xstep c) v in
   if eqb (drlx c) 1 then v else DS (ccmod_relax c) v).
Proof.
  intros v. cbv zeta.
  pose proof xstep_own as H1. pose proof relax_own as H2. pose proof ystep_own as H3. pose proof ustep_own as H4.
  pose proof setcoef_own as H5. pose proof dxstep_own as H6. pose proof drelax_own as H7.
  set (R1 := fun k => if neq1 (xrlx c) then cbpdn_relax c k else []).
  set (R2 := fun k => if neq1 (drlx c) then ccmod_relax c k else []).
  assert (H2' : forall k, k < nK c -> Forall (own k) (R1 k)) by (intros k Hk; apply if_own; apply H2; exact Hk).
  assert (H7' : forall k, k < nK c -> Forall (own k) (R2 k)) by (intros k Hk; apply if_own; apply H7; exact Hk).
  change (step_group c) with (fun k => cbpdn_xstep c k ++ (fun k => R1 k ++ (fun k => cbpdn_ystep c k ++ (fun k => cbpdn_ustep c k ++
    (fun k => ccmod_setcoef c k ++ (fun k => ccmod_xstep c k ++ R2 k) k) k) k) k) k).
  assert (A6 : forall k, k < nK c -> Forall (own k) (ccmod_xstep c k ++ R2 k)) by (intros k Hk; apply Forall_app; split; auto).
  assert (A5 : forall k, k < nK c -> Forall (own k) (ccmod_setcoef c k ++ ccmod_xstep c k ++ R2 k)) by (intros k Hk; apply Forall_app; split; auto).
  assert (A4 : forall k, k < nK c -> Forall (own k) (cbpdn_ustep c k ++ ccmod_setcoef c k ++ ccmod_xstep c k ++ R2 k)) by (intros k Hk; apply Forall_app; split; auto).
  assert (A3 : forall k, k < nK c -> Forall (own k) (cbpdn_ystep c k ++ cbpdn_ustep c k ++ ccmod_setcoef c k ++ ccmod_xstep c k ++ R2 k)) by (intros k Hk; apply Forall_app; split; auto).
  assert (A2 : forall k, k < nK c -> Forall (own k) (R1 k ++ cbpdn_ystep c k ++ cbpdn_ustep c k ++ ccmod_setcoef c k ++ ccmod_xstep c k ++ R2 k)) by (intros k Hk; apply Forall_app; split; auto).
  rewrite (ds_app (cbpdn_xstep c)) by assumption. rewrite (ds_app R1) by assumption. rewrite (ds_app (cbpdn_ystep c)) by assumption.
  rewrite (ds_app (cbpdn_ustep c)) by assumption. rewrite (ds_app (ccmod_setcoef c)) by assumption. rewrite (ds_app (ccmod_xstep c)) by assumption.
  unfold R1, R2. rewrite !ds_if. reflexivity.
Qed.
End Stages.
End Cfg.

(** Numbering of the iteration records. *)
Lemma loop_numbers : forall (Ev : Type) (ev : _ -> Ev) cb s mx j o, map fst (ost o) = seq 0 j -> mx <> 0 ->
  let r := loop ev cb s mx j o in map fst (ost r) = seq 0 (Datatypes.S (oj r)).
Proof.
  intros Ev ev cb s mx. induction mx as [|mx IH]; intros j o Ho Hm; [contradiction | ]. cbv zeta. cbn [loop]. cbv zeta.
  set (o' := mkO _ _ _).
  assert (E : map fst (ost o') = seq 0 (Datatypes.S j)).
  { cbn [ost o']. rewrite map_app, Ho, seq_S. reflexivity. }
  destruct (cb j _); [exact E | ]. destruct mx as [|mx]; [exact E | ]. apply IH; [exact E | discriminate].
Qed.

(** Whole-array statements. *)
Lemma in_kall : forall c a e a' k p, inl ploc_eqb (K a' k p) (dst (kall c a e)) = karr_eqb a' a && (k <? nK c) && (p <? ksize c a).
Proof.
  intros c a e a' k p. apply eq_true_iff_eq. rewrite (inl_in ploc_eqb ploc_eqb_spec), !andb_true_iff, !Nat.ltb_lt. cbn [dst kall].
  rewrite in_flat_map. split.
  - intros (x & Hx & H). apply in_map_iff in H. destruct H as (q & E & Hq). injection E as -> -> ->. apply in_seq in Hx, Hq.
    split; [split | ]; [ destruct (karr_eqb_spec a' a'); congruence | lia | lia].
  - intros [[H1 H2] H3]. destruct (karr_eqb_spec a' a) as [->|]; [ | discriminate]. exists k. split; [apply in_seq; lia | ].
    apply in_map. apply in_seq. lia.
Qed.
Lemma in_kset : forall c a k0 e a' k p, inl ploc_eqb (K a' k p) (dst (kset c a k0 e)) = karr_eqb a' a && (k =? k0) && (p <? ksize c a).
Proof.
  intros c a k0 e a' k p. apply eq_true_iff_eq. rewrite (inl_in ploc_eqb ploc_eqb_spec), !andb_true_iff, !Nat.ltb_lt, Nat.eqb_eq. cbn [dst kset]. split.
  - intros H. apply in_map_iff in H. destruct H as (q & E & Hq). injection E as -> -> ->. apply in_seq in Hq.
    split; [split | ]; [ destruct (karr_eqb_spec a' a'); congruence | reflexivity | lia].
  - intros [[H1 H2] H3]. destruct (karr_eqb_spec a' a) as [->|]; [ | discriminate]. subst. apply in_map, in_seq. lia.
Qed.
Lemma in_sset : forall c a e a' p, inl ploc_eqb (S a' p) (dst (sset c a e)) = sarr_eqb a' a && (p <? ssize c a).
Proof.
  intros c a e a' p. apply eq_true_iff_eq. rewrite (inl_in ploc_eqb ploc_eqb_spec), !andb_true_iff, !Nat.ltb_lt. cbn [dst sset]. split.
  - intros H. apply in_map_iff in H. destruct H as (q & E & Hq). injection E as -> ->. apply in_seq in Hq.
    split; [destruct (sarr_eqb_spec a' a'); congruence | lia].
  - intros [H1 H3]. destruct (sarr_eqb_spec a' a) as [->|]; [ | discriminate]. apply in_map, in_seq. lia.
Qed.
Lemma in_kall_s : forall c a e a' p, inl ploc_eqb (S a' p) (dst (kall c a e)) = false.
Proof.
  intros c a e a' p. apply not_true_iff_false. rewrite (inl_in ploc_eqb ploc_eqb_spec). cbn [dst kall]. rewrite in_flat_map.
  intros (x & _ & H). apply in_map_iff in H. destruct H as (q & E & _). discriminate.
Qed.
Lemma in_sset_k : forall c a e a' k p, inl ploc_eqb (K a' k p) (dst (sset c a e)) = false.
Proof.
  intros c a e a' k p. apply not_true_iff_false. rewrite (inl_in ploc_eqb ploc_eqb_spec). cbn [dst sset]. 
  intros H. apply in_map_iff in H. destruct H as (q & E & _). discriminate.
Qed.
