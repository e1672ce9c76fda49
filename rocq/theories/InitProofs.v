Require Import String List Bool.
Require Import Verif.InitModel.
Import ListNotations.
Local Open Scope string_scope.
Local Open Scope list_scope.

Section P.
Context {V : Type}.
Implicit Types (s : store V) (a : args V).

(** ** set_attr in isolation *)
Lemma put_same n v s : put n v s n = Some v.
Proof. unfold put. rewrite String.eqb_refl. reflexivity. Qed.

Lemma put_other n m v s : m <> n -> put n v s m = s m.
Proof. intros H. unfold put. apply String.eqb_neq in H. rewrite H. reflexivity. Qed.

Lemma calls_app n u l1 l2 s : calls n u (l1 ++ l2) s = calls n u l2 (calls n u l1 s).
Proof. apply fold_left_app. Qed.

Lemma set_attr_user n v d r s : s n = None \/ s n = Some None \/ s n = Some (Some v) ->
  set_attr n (Some v) d r s n = Some (Some v).
Proof.
  intros H. unfold set_attr. destruct r; [apply put_same|].
  destruct H as [H|[H|H]]; rewrite H; try apply put_same. exact H.
Qed.

Lemma calls_user n v l : forall s, s n = Some (Some v) -> calls n (Some v) l s n = Some (Some v).
Proof.
  induction l as [|[d r] l IH]; intros s H; simpl; [exact H|]. apply IH. apply set_attr_user. tauto.
Qed.

Lemma calls_kept n l : forall s v, s n = Some (Some v) -> (forall c, In c l -> snd c = false) ->
  calls n None l s n = Some (Some v).
Proof.
  induction l as [|[d r] l IH]; intros s v H Hr; simpl; [exact H|]. apply IH.
  - pose proof (Hr (d, r) (or_introl eq_refl)) as E. simpl in E. subst r. unfold set_attr. rewrite H. exact H.
  - intros c Hc. apply Hr. right. exact Hc.
Qed.

Lemma calls_none n l : forall s, (s n = None \/ s n = Some None) -> (forall c, In c l -> fst c = None) ->
  calls n None l s n = None \/ calls n None l s n = Some None.
Proof.
  induction l as [|[d r] l IH]; intros s H Hd; simpl; [exact H|]. apply IH.
  - pose proof (Hd (d, r) (or_introl eq_refl)) as E. simpl in E. subst d. unfold set_attr.
    destruct r; [right; apply put_same|]. destruct H as [H|H]; rewrite H; right; apply put_same.
  - intros c Hc. apply Hd. right. exact Hc.
Qed.

(** The first call with a default decides, if no call after it resets. *)
Lemma calls_first n l1 d r l2 s : (s n = None \/ s n = Some None) ->
  (forall c, In c l1 -> fst c = None) -> (forall c, In c l2 -> snd c = false) ->
  calls n None (l1 ++ (Some d, r) :: l2) s n = Some (Some d).
Proof.
  intros H H1 H2. rewrite calls_app. simpl. apply calls_kept; [|exact H2].
  pose proof (calls_none n l1 s H H1) as H3. unfold set_attr. destruct r; [apply put_same|].
  destruct H3 as [H3|H3]; rewrite H3; apply put_same.
Qed.

(** A call with reset decides, if no later call resets. *)
Lemma calls_reset n l1 d l2 s : (forall c, In c l2 -> snd c = false) ->
  calls n None (l1 ++ (Some d, true) :: l2) s n = Some (Some d).
Proof.
  intros H2. rewrite calls_app. simpl. apply calls_kept; [|exact H2]. unfold set_attr. apply put_same.
Qed.

(** ** The classes *)
(** Conditions under which the constructor fails. *)
Definition fails (c : cls) (a : args V) : bool :=
  match c with
  | MinL1InL2Ball | ConvMinL1InL2Ball | ConvBPDNMaskDcpl | SplineL1 | ConvBPDN | ConvElasticNet | ConvBPDNGradReg =>
      y0 a && negb (u0 a)
  | ConvBPDNJoint => (y0 a && negb (u0 a)) || negb (own_opt a)
  | ConvL1L1Grd => (y0 a && negb (u0 a)) || highmem a
  | _ => false
  end.

(** Abstract runs: which attributes are defined, and the value of one attribute. *)
Definition defines (st : stmt V) (dom : list string) : list string :=
  match st with SSetAttr n _ _ _ => n :: dom | SAssign n _ => n :: dom | SUse _ => dom end.

Fixpoint okrun (p : list (stmt V)) (dom : list string) : bool :=
  match p with
  | [] => true
  | SUse n :: p' => existsb (String.eqb n) dom && okrun p' dom
  | st :: p' => okrun p' (defines st dom)
  end.

Definition tr_set (v d : option V) (r : bool) (x : option (option V)) : option (option V) :=
  let w := match v with None => d | Some _ => v end in
  if r then Some w else match x with Some (Some _) => x | _ => Some w end.

Fixpoint track (n : string) (p : list (stmt V)) (x : option (option V)) : option (option V) :=
  match p with
  | [] => x
  | SSetAttr m v d r :: p' => track n p' (if String.eqb n m then tr_set v d r x else x)
  | SAssign m v :: p' => track n p' (if String.eqb n m then Some v else x)
  | SUse _ :: p' => track n p' x
  end.

Lemma set_attr_at n m v d r s :
  set_attr m v d r s n = if String.eqb n m then tr_set v d r (s n) else s n.
Proof.
  unfold set_attr, tr_set, put. destruct (String.eqb_spec n m) as [->|Hn].
  - destruct r; [rewrite String.eqb_refl; reflexivity|].
    destruct (s m) as [[w|]|] eqn:E; try (rewrite String.eqb_refl; reflexivity). exact E.
  - assert (F : (n =? m)%string = false) by (apply String.eqb_neq; exact Hn).
    destruct r; [rewrite F; reflexivity|]. destruct (s m) as [[w|]|]; try (rewrite F; reflexivity). reflexivity.
Qed.

Lemma run_track n p : forall s s', run p s = Built s' -> s' n = track n p (s n).
Proof.
  induction p as [|[m v d r|m v|m] p IH]; intros s s' H; simpl in *.
  - inversion H. reflexivity.
  - rewrite (IH _ _ H). rewrite set_attr_at. reflexivity.
  - rewrite (IH _ _ H). reflexivity.
  - destruct (s m); [apply IH; exact H|discriminate].
Qed.

Lemma set_attr_dom n m v d r s : set_attr m v d r s n <> None <-> n = m \/ s n <> None.
Proof.
  rewrite set_attr_at. destruct (String.eqb_spec n m) as [->|Hn]; [|tauto].
  split; [tauto|]. intros _. unfold tr_set. destruct r; [discriminate|]. destruct (s m) as [[w|]|]; discriminate.
Qed.

Lemma run_ok p : forall s dom, (forall n, s n <> None <-> In n dom) ->
  (exists s', run p s = Built s') <-> okrun p dom = true.
Proof.
  induction p as [|[m v d r|m v|m] p IH]; intros s dom Hd; simpl.
  - split; [reflexivity|]. intros _. exists s. reflexivity.
  - apply IH. intros n. rewrite set_attr_dom. rewrite Hd. simpl. split; intros [H|H]; auto.
  - apply IH. intros n. unfold put. simpl. destruct (String.eqb_spec n m) as [->|Hn].
    + split; [auto|discriminate].
    + rewrite Hd. split; [auto|]. intros [H|H]; [congruence|exact H].
  - destruct (s m) eqn:E.
    + assert (Hb : existsb (String.eqb m) dom = true).
      { apply existsb_exists. exists m. split; [|apply String.eqb_refl]. apply Hd. rewrite E. discriminate. }
      rewrite Hb. simpl. apply IH. exact Hd.
    + assert (Hb : existsb (String.eqb m) dom = false).
      { destruct (existsb (String.eqb m) dom) eqn:F; [|reflexivity]. apply existsb_exists in F.
        destruct F as (x & Hx & Ex). apply String.eqb_eq in Ex. subst x. apply Hd in Hx. congruence. }
      rewrite Hb. simpl. split; [intros [? H]; discriminate|discriminate].
Qed.

Lemma okrun_fails c a : okrun (prog c a) [] = negb (fails c a).
Proof.
  destruct a as [one tok rho xi crho cxi [] [] [] []]; destruct c; vm_compute; reflexivity.
Qed.

Lemma construct_iff c a : (exists s, construct c a = Built s) <-> fails c a = false.
Proof.
  unfold construct. rewrite (run_ok _ empty_store []).
  - rewrite okrun_fails. destruct (fails c a); simpl; split; congruence.
  - intros n. unfold empty_store. simpl. split; [congruence|tauto].
Qed.

Lemma construct_track n c a s : construct c a = Built s -> s n = track n (prog c a) None.
Proof. intros H. exact (run_track n _ _ _ H). Qed.

Lemma construct_user c a s v : construct c a = Built s -> rho_opt a = Some v -> s (par_name c) = Some (Some v).
Proof.
  intros H E. rewrite (construct_track _ _ _ _ H). clear H.
  destruct a as [one tok rho xi crho cxi [] [] [] []]; simpl in E; subst rho;
    destruct c; vm_compute; reflexivity.
Qed.

Definition default_effective (c : cls) : bool :=
  match c with
  | BPDN | BPDNJoint | ElasticNet | ConvBPDN | ConvBPDNJoint | ConvElasticNet | ConvBPDNGradReg
  | TVL1Denoise | TVL1Deconv | TVL2Denoise | TVL2Deconv | SplineL1 | RobustPCA | ParConvBPDN => true
  | _ => false
  end.

Definition default_ignored (c : cls) : bool :=
  match c with
  | CnstrMOD | ConvCnstrMOD_IterSM | ConvCnstrMOD_CG | ConvCnstrMOD_Consensus | ConvBPDNScalarTV | ConvBPDNRecTV
  | PGM_ConvCnstrMOD => true
  | _ => false
  end.

Lemma construct_default c a s : construct c a = Built s -> rho_opt a = None -> default_effective c = true ->
  s (par_name c) = Some (Some (cls_rho a)).
Proof.
  intros H E Hc. rewrite (construct_track _ _ _ _ H). clear H.
  destruct a as [one tok rho xi crho cxi [] [] [] []]; simpl in E; subst rho;
    destruct c; try discriminate Hc; vm_compute; reflexivity.
Qed.

Lemma construct_ignored c a s : construct c a = Built s -> rho_opt a = None -> default_ignored c = true ->
  s (par_name c) = Some (Some (one a)).
Proof.
  intros H E Hc. rewrite (construct_track _ _ _ _ H). clear H.
  destruct a as [one tok rho xi crho cxi [] [] [] []]; simpl in E; subst rho;
    destruct c; try discriminate Hc; vm_compute; reflexivity.
Qed.

(** Later resets: the target ratio of the automatic penalty rule behaves in the same way. *)
Lemma construct_xi_user c a s v : construct c a = Built s -> xi_opt a = Some v -> par_name c = "rho" ->
  s "rho_xi" = Some (Some v).
Proof.
  intros H E Hc. rewrite (construct_track _ _ _ _ H). clear H.
  destruct a as [one tok rho xi crho cxi [] [] [] []]; simpl in E; subst xi;
    destruct c; try discriminate Hc; vm_compute; reflexivity.
Qed.
End P.
