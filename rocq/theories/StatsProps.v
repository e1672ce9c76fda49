(** C52: the records of iteration statistics and the displayed columns. *)
Require Import String Bool Arith Reals List Lra Lia.
Require Import Verif.StatsModel Verif.StatsSpec.
Import ListNotations.
Local Open Scope string_scope.
Local Open Scope list_scope.
Local Open Scope R_scope.

Ltac each_in H := simpl in H; repeat (destruct H as [H | H]; [subst | ]); [.. | contradiction].

Ltac nodup := repeat (constructor; [simpl; intuition discriminate | ]); constructor.

(** For every solver class that can be instantiated, a record can be built (the numbers of declared fields and of values
    agree), its fields are the declared ones without repetition, and each holds the quantity its name stands for. *)
Theorem C52_record : forall c e, concrete c = true ->
  exists r, iteration_stats c e = Some r /\ map fst r = itstat_fields c /\ NoDup (itstat_fields c) /\
            (forall f, In f (itstat_fields c) -> exists x, doc_value c e f = Some x /\ getattr r f = Some x).
Proof.
  intros c e Hc. destruct c; try discriminate Hc; eexists; (split; [reflexivity | split; [reflexivity | split]]);
    try solve [cbv -[In]; nodup];
    intros f Hf; each_in Hf; eexists; (split; [reflexivity | ]); simpl; f_equal; try reflexivity; ring.
Qed.

(** The fields listed in the documentation of a class are present, in the documented order; some classes also have
    undocumented fields.  The base class of the proximal gradient solvers is the exception. *)
Theorem C52_documented : forall c l, c <> KPGM -> doc_fields c = Some l -> subseq l (itstat_fields c).
Proof.
  intros c l Hc Hl. destruct c; try discriminate Hl; try (exfalso; apply Hc; reflexivity);
    injection Hl as <-; cbv;
    repeat first [apply sub_keep | apply sub_skip; (apply sub_keep || (apply sub_skip; apply sub_keep) ||
                  (apply sub_skip; apply sub_skip; apply sub_keep)) | apply sub_nil].
Qed.

Theorem C52_documented_refuted :
  exists f l, doc_fields KPGM = Some l /\ In f l /\ forall e r, iteration_stats KPGM e = Some r -> getattr r f = None.
Proof.
  exists "IterBtrack". eexists. split; [reflexivity | ]. split; [simpl; tauto | ].
  intros e r Hr. injection Hr as <-. reflexivity.
Qed.

(** The display: whatever the options, there are as many values as column headings, each value is the one its heading
    stands for, and the headings are distinct. *)
Theorem C52_display : forall c e full r, concrete c = true -> iteration_stats c e = Some r ->
  exists vs, shown_values c full r = Some vs /\ map Some vs = map (doc_column c e) (shown_header c full) /\
             NoDup (shown_header c full).
Proof.
  intros c e full r Hc Hr. destruct c; try discriminate Hc; injection Hr as <-; destruct full;
    (eexists; split; [reflexivity | ]; split;
     [cbv -[Rplus Rmult]; repeat (f_equal; try reflexivity; try ring) | cbv -[In]; nodup]).
Qed.

(** What is left out: the penalty parameter when it does not vary, and the backtracking columns without backtracking. *)
Theorem C52_display_hidden : forall c, concrete c = true ->
  hdrtxt c = shown_header c true /\
  hdrtxt c = shown_header c false ++ (if pgm_class c then ["F"; "Q"; "It_Bt"; "L"] else ["rho"]).
Proof. intros c Hc. destruct c; try discriminate Hc; split; reflexivity. Qed.

(** ** Online and parallel dictionary learning *)

Theorem C52_online : forall e rx j cnstr dltd eta tk, iteration_stats KConvBPDN e = Some rx ->
  exists r, online_stats j (Some rx) cnstr dltd eta tk = Some r /\ map fst r = online_fields /\ NoDup online_fields /\
    getattr r "Iter" = Some j /\ getattr r "ObjFun" = Some (doc_objective KConvBPDN e) /\
    getattr r "DFid" = Some (e TDfd) /\ getattr r "RegL1" = Some (e TL1) /\
    getattr r "PrimalRsdl" = Some (e ARsdlR) /\ getattr r "DualRsdl" = Some (e ARsdlS) /\ getattr r "Rho" = Some (e ARho) /\
    getattr r "Cnstr" = Some cnstr /\ getattr r "DeltaD" = Some dltd /\ getattr r "Eta" = Some eta /\
    getattr r "Time" = Some tk /\
    online_shown r = Some [j; e ARsdlR; e ARsdlS; e ARho; cnstr; dltd; eta] /\
    length online_hdrtxt = 7%nat /\ NoDup online_hdrtxt.
Proof.
  intros e rx j cnstr dltd eta tk H. injection H as <-. eexists. split; [reflexivity | ].
  split; [reflexivity | ]. split; [cbv -[In]; nodup | ].
  repeat (split; [reflexivity | ]). cbv -[In]; nodup.
Qed.

Theorem C52_online_norecord : forall j cnstr dltd eta tk,
  exists r, online_stats j None cnstr dltd eta tk = Some r /\ map fst r = online_fields /\
    online_shown r = Some [j; 0; 0; 0; cnstr; dltd; eta].
Proof. intros. eexists. split; [reflexivity | split; reflexivity]. Qed.

Theorem C52_parallel : forall j dfd rl1 lmbda tk,
  exists r, prl_record j dfd rl1 lmbda tk = Some r /\ map fst r = prl_fields /\ NoDup prl_fields /\
    getattr r "Iter" = Some j /\ getattr r "ObjFun" = Some (dfd + lmbda * rl1) /\ getattr r "DFid" = Some dfd /\
    getattr r "RegL1" = Some rl1 /\ getattr r "Time" = Some tk /\
    prl_shown r = [j; dfd + lmbda * rl1; dfd; rl1] /\ length prl_hdrtxt = 4%nat.
Proof.
  intros. eexists. split; [reflexivity | ]. split; [reflexivity | ]. split; [cbv -[In]; nodup | ].
  repeat split; reflexivity.
Qed.

(** A record of one class, with values all different. *)
Example C52_ex :
  exists r, iteration_stats KConvProdDictL1L1GrdJoint
              (fun t => match t with TDfd => 2 | TL21 => 3 | TGrad => 5 | Lmbda => 7 | Mu => 11 | AK => 13 | _ => 0 end) = Some r
            /\ getattr r "ObjFun" = Some 78 /\ getattr r "RegL21" = Some 3 /\ getattr r "RegGrad" = Some 5.
Proof.
  eexists. split; [reflexivity | ]. split; [simpl; f_equal; ring | split; reflexivity].
Qed.

Print Assumptions C52_record.
Print Assumptions C52_documented.
Print Assumptions C52_documented_refuted.
Print Assumptions C52_display.
Print Assumptions C52_display_hidden.
Print Assumptions C52_online.
Print Assumptions C52_online_norecord.
Print Assumptions C52_parallel.
