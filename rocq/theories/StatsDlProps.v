(** C52, continued: the records of the dictionary learning classes. *)
Require Import String Bool Arith Reals List Lra Lia.
Require Import Verif.StatsModel Verif.StatsSpec.
Import ListNotations.
Local Open Scope string_scope.
Local Open Scope list_scope.
Local Open Scope R_scope.

Ltac each_in H := simpl in H; repeat (destruct H as [H | H]; [subst | ]); [.. | contradiction].

Ltac nodup := repeat (constructor; [simpl; intuition discriminate | ]); constructor.

(** ** Dictionary learning *)

(** The configuration is coherent for the records [rx], [rd] of the two sub-problem solvers: a record is built, its fields
    are the declared ones in order and without repetition, none is None, each holds what its name stands for, and each
    displayed column holds what its heading stands for. *)
Definition coherent (cfg : isconfig) (acc : bool) (cx cd : cls) : Prop :=
  forall ex ed rx rd xs ds j t dfd rl1 lmbda,
    iteration_stats cx ex = Some rx -> iteration_stats cd ed = Some rd ->
    exists rec,
      dl_record cfg cx cd j t (xs ++ [rx]) (ds ++ [rd]) (evaluate acc dfd rl1 lmbda) = Some rec /\
      map fst rec = isfld cfg /\ NoDup (isfld cfg) /\
      (forall f, In f (isfld cfg) ->
         exists x, dl_doc_value acc cx ex ed j t dfd rl1 lmbda f = Some x /\ vgetattr rec f = Some (VNum x)) /\
      exists vs, printed cfg rec = Some vs /\
                 map Some vs = map (dl_doc_column acc cx ex ed j dfd rl1 lmbda) (ihdrtxt cfg) /\ NoDup (ihdrtxt cfg).

Ltac coh :=
  intros ex ed rx rd xs ds j t dfd rl1 lmbda Hx Hd;
  unfold dl_record, last_record; rewrite !rev_unit;
  vm_compute in Hx; vm_compute in Hd; injection Hx as <-; injection Hd as <-;
  eexists; split; [vm_compute; reflexivity | ]; split; [reflexivity | ]; split; [cbv -[In]; nodup | ]; split;
  [ intros f Hf; each_in Hf; eexists; (split; [reflexivity | ]); simpl; f_equal; try reflexivity; f_equal; ring
  | eexists; split; [reflexivity | ]; split;
    [cbv -[Rplus Rmult]; repeat (f_equal; try reflexivity; try ring) | cbv -[In]; nodup] ].

(** All combinations of methods and options of the convolutional classes, with and without a mask. *)
Theorem C52_cbpdndl : forall x d btx btd acc mask,
  coherent (cbpdndl_config x d btx btd acc) acc (xclass mask x) (dclass mask d).
Proof.
  intros x d btx btd acc mask. destruct mask, acc, x, d, btx, btd; coh.
Qed.

Theorem C52_bpdndl : forall acc, coherent (bpdndl_config acc) acc KBPDN KCnstrMOD.
Proof. intros acc. destruct acc; coh. Qed.

Theorem C52_wbpdndl : forall acc, coherent (wbpdndl_config acc) acc KPgmWeightedBPDN KPgmWeightedCnstrMOD.
Proof. intros acc. destruct acc; coh. Qed.

(** The default configuration serves exactly the sub-problem solvers that are ADMM solvers, the first with an objective
    function and the second with a data fidelity term. *)
Lemma getattr_in : forall l v f, length l = length v ->
  (exists x, getattr (combine l v) f = Some x) <-> In f l.
Proof.
  induction l as [|a l IH]; intros v f Hl; destruct v as [|b v]; simpl in Hl; try discriminate.
  - simpl. split; [intros [x Hx]; discriminate | contradiction].
  - simpl. destruct (String.eqb_spec a f) as [->|Hn].
    + split; [left; reflexivity | intros _; exists b; reflexivity].
    + rewrite IH by lia. split; [right; assumption | intros [H|H]; [contradiction | assumption]].
Qed.

Lemma record_fields : forall c e r, iteration_stats c e = Some r -> forall f,
  (exists x, getattr r f = Some x) <-> In f (itstat_fields c).
Proof.
  intros c e r H f. unfold iteration_stats in H.
  destruct (eval_objfn c e) as [o|]; [ | discriminate].
  destruct (lookup 8 own_itstat_extra c) as [x|]; [ | discriminate].
  unfold mk_record in H.
  match type of H with context [Nat.eqb _ (length ?v)] => generalize dependent v; intros vals H end.
  destruct (Nat.eqb (length (itstat_fields c)) (length vals)) eqn:E; [ | discriminate].
  apply Nat.eqb_eq in E. cbn [negb] in H. inversion H; subst r. apply (getattr_in _ _ f E).
Qed.

Definition default_ok (cx cd : cls) : Prop :=
  pgm_class cx = false /\ In "ObjFun" (itstat_fields cx) /\ pgm_class cd = false /\ In "DFid" (itstat_fields cd).

Lemma admm_fields : forall c, concrete c = true ->
  (pgm_class c = false <-> (In "PrimalRsdl" (itstat_fields c) /\ In "DualRsdl" (itstat_fields c) /\
                             In "Rho" (itstat_fields c))).
Proof.
  intros c Hc.
  assert (D : forall x l, In x l <-> existsb (String.eqb x) l = true).
  { intros x l. rewrite existsb_exists. split.
    - intros H. exists x. rewrite String.eqb_refl. auto.
    - intros (y & Hy & E). apply String.eqb_eq in E. subst y. exact Hy. }
  rewrite !D. destruct c; try discriminate Hc; vm_compute; intuition discriminate.
Qed.

Lemma seq_some : forall {A} (l : list (option A)), (exists r, sequence l = Some r) <-> Forall (fun o => exists x, o = Some x) l.
Proof.
  intros A l. induction l as [|o l IH]; simpl.
  - split; [constructor | eexists; reflexivity].
  - split.
    + intros [r Hr]. destruct o as [a|]; [ | discriminate]. destruct (sequence l) as [q|] eqn:E; [ | discriminate].
      constructor; [eexists; reflexivity | apply IH; eexists; reflexivity].
    + intros H. inversion H as [|? ? [x ->] Hl]; subst. apply IH in Hl. destruct Hl as [q ->]. eexists. reflexivity.
Qed.

Theorem C52_default_config : forall cx cd ex ed rx rd xs ds j t,
  concrete cx = true -> concrete cd = true ->
  iteration_stats cx ex = Some rx -> iteration_stats cd ed = Some rd ->
  ((exists rec, dl_record dictlrn_config cx cd j t (xs ++ [rx]) (ds ++ [rd]) None = Some rec)
   <-> default_ok cx cd).
Proof.
  intros cx cd ex ed rx rd xs ds j t Cx Cd Hx Hd.
  unfold dl_record, last_record. rewrite !rev_unit.
  pose proof (record_fields cx ex rx Hx) as Fx. pose proof (record_fields cd ed rd Hd) as Fd.
  pose proof (admm_fields cx Cx) as Ax. pose proof (admm_fields cd Cd) as Ad.
  assert (Q : forall r f, (exists v, (match getattr r f with Some v => Some (VNum v) | None => None end) = Some v)
                          <-> exists x, getattr r f = Some x).
  { intros r f. destruct (getattr r f) as [x|]; split; intros [v Hv]; try discriminate; eexists; reflexivity. }
  transitivity (exists r, sequence (map (istat_value dictlrn_config j t rx rd None) (isfld dictlrn_config)) = Some r).
  { unfold iterstats. destruct (sequence _) as [q|]; split; intros [r Hr]; try discriminate; eexists; reflexivity. }
  rewrite seq_some. unfold default_ok. rewrite Ax, Ad, <- !Fx, <- !Fd.
  cbn [map isfld dictlrn_config]. unfold istat_value. cbn [dget isxmap isdmap evlmap dictlrn_config String.eqb Ascii.eqb Bool.eqb].
  rewrite !Forall_cons_iff, !Q. split.
  - tauto.
  - intros ((A1 & A2 & A3) & B & (C1 & C2 & C3) & D). repeat split; try assumption; try (eexists; reflexivity). constructor.
Qed.

(** In particular the proximal gradient solvers cannot be used without a configuration of one's own. *)
Theorem C52_default_config_refuted : forall ex ed rx rd xs ds j t,
  iteration_stats KPgmBPDN ex = Some rx -> iteration_stats KPgmCnstrMOD ed = Some rd ->
  dl_record dictlrn_config KPgmBPDN KPgmCnstrMOD j t (xs ++ [rx]) (ds ++ [rd]) None = None.
Proof.
  intros ex ed rx rd xs ds j t Hx Hd.
  destruct (dl_record dictlrn_config KPgmBPDN KPgmCnstrMOD j t (xs ++ [rx]) (ds ++ [rd]) None) as [rec|] eqn:E; [ | reflexivity].
  exfalso. destruct (proj1 (C52_default_config KPgmBPDN KPgmCnstrMOD _ _ _ _ xs ds j t eq_refl eq_refl Hx Hd)) as [H _];
    [eexists; exact E | discriminate H].
Qed.

(** Switching the option AccurateDFid off after construction makes every later iteration fail. *)
Theorem C52_option_change_refuted : forall x d btx btd mask ex ed rx rd xs ds j t dfd rl1 lmbda,
  iteration_stats (xclass mask x) ex = Some rx -> iteration_stats (dclass mask d) ed = Some rd ->
  dl_record (cbpdndl_config x d btx btd true) (xclass mask x) (dclass mask d) j t (xs ++ [rx]) (ds ++ [rd])
            (evaluate false dfd rl1 lmbda) = None.
Proof.
  intros x d btx btd mask ex ed rx rd xs ds j t dfd rl1 lmbda Hx Hd. unfold dl_record, last_record. rewrite !rev_unit.
  destruct mask, x, d, btx, btd; injection Hx as <-; injection Hd as <-; reflexivity.
Qed.

(** With the FastSolve option the sub-problem solvers keep no records: zeros are reported in their place. *)
Theorem C52_fastsolve : forall x d btx btd acc mask j t dfd rl1 lmbda,
  exists rec,
    dl_record (cbpdndl_config x d btx btd acc) (xclass mask x) (dclass mask d) j t [] [] (evaluate acc dfd rl1 lmbda) = Some rec /\
    map fst rec = c_isfld x d btx btd /\
    (forall f, In f (c_isfld x d btx btd) ->
       exists v, dl_doc_value acc (xclass mask x) (fun _ => 0) (fun _ => 0) j t dfd rl1 lmbda f = Some v /\
                 vgetattr rec f = Some (VNum v)).
Proof.
  intros x d btx btd acc mask j t dfd rl1 lmbda. destruct mask, acc, x, d, btx, btd;
    (eexists; split; [reflexivity | ]; split; [reflexivity | ]; intros f Hf; each_in Hf;
     eexists; (split; [reflexivity | ]); simpl; f_equal; try reflexivity; f_equal; ring).
Qed.

Print Assumptions C52_cbpdndl.
Print Assumptions C52_bpdndl.
Print Assumptions C52_wbpdndl.
Print Assumptions C52_default_config.
Print Assumptions C52_default_config_refuted.
Print Assumptions C52_option_change_refuted.
Print Assumptions C52_fastsolve.
