(** C43 and C58: parameters and failures of the initialiser chains. *)
Require Import String List Bool Arith Lia.
Require Import Verif.InitModel Verif.InitProofs.
Import ListNotations.
Local Open Scope string_scope.
Local Open Scope list_scope.

(** C43, rule: over any sequence of set_attr calls for one parameter, made on a fresh attribute and all reading the same
    user option, a user value wins; otherwise the first class default that is not None wins, unless a later call asks
    for a reset, in which case the last such call wins. *)
Theorem C43_rule :
  forall {V : Type} (n : string) (s : store V), s n = None ->
  (forall v c l, calls n (Some v) (c :: l) s n = Some (Some v)) /\
  (forall l1 d r l2, (forall c, In c l1 -> fst c = None) -> (forall c, In c l2 -> snd c = false) ->
     calls n None (l1 ++ (Some d, r) :: l2) s n = Some (Some d)) /\
  (forall l1 d l2, (forall c, In c l2 -> snd c = false) ->
     calls n None (l1 ++ (Some d, true) :: l2) s n = Some (Some d)).
Proof.
  intros V n s Hs. repeat split.
  - intros v [d r] l. exact (calls_user n v l (set_attr n (Some v) d r s) (set_attr_user n v d r s (or_introl Hs))).
  - intros. apply calls_first; auto.
  - intros. apply calls_reset; auto.
Qed.
Print Assumptions C43_rule.

(** C43: for each modelled class, whatever the arguments, a penalty (or step) parameter given by the user is the one the
    constructed solver has, and so is a given target ratio. *)
Theorem C43_user_value_wins :
  forall {V : Type} (c : cls) (a : args V) s, construct c a = Built s ->
  (forall v, rho_opt a = Some v -> s (par_name c) = Some (Some v)) /\
  (forall v, xi_opt a = Some v -> par_name c = "rho" -> s "rho_xi" = Some (Some v)).
Proof.
  intros V c a s H. split; intros v E.
  - exact (construct_user c a s v H E).
  - intros P. exact (construct_xi_user c a s v H E P).
Qed.
Print Assumptions C43_user_value_wins.

(** C43: classes whose own default takes effect. *)
Theorem C43_class_default_partial :
  forall {V : Type} (c : cls) (a : args V) s,
  In c [BPDN; BPDNJoint; ElasticNet; ConvBPDN; ConvBPDNJoint; ConvElasticNet; ConvBPDNGradReg; TVL1Denoise; TVL1Deconv;
        TVL2Denoise; TVL2Deconv; SplineL1; RobustPCA; ParConvBPDN] ->
  construct c a = Built s -> rho_opt a = None -> s (par_name c) = Some (Some (cls_rho a)).
Proof.
  intros V c a s Hc H E. apply (construct_default c a s H E).
  simpl in Hc. repeat (destruct Hc as [<-|Hc]; [reflexivity|]). contradiction.
Qed.
Print Assumptions C43_class_default_partial.

(** C43 is false for these classes: their own default never takes effect, the base class' constant does. *)
Theorem C43_class_default_refuted :
  forall {V : Type} (c : cls) (a : args V) s,
  In c [CnstrMOD; ConvCnstrMOD_IterSM; ConvCnstrMOD_CG; ConvCnstrMOD_Consensus; ConvBPDNScalarTV; ConvBPDNRecTV;
        PGM_ConvCnstrMOD] ->
  construct c a = Built s -> rho_opt a = None -> cls_rho a <> one a ->
  s (par_name c) = Some (Some (one a)) /\ s (par_name c) <> Some (Some (cls_rho a)).
Proof.
  intros V c a s Hc H E N.
  assert (G : s (par_name c) = Some (Some (one a))).
  { apply (construct_ignored c a s H E).
    simpl in Hc. repeat (destruct Hc as [<-|Hc]; [reflexivity|]). contradiction. }
  split; [exact G|]. rewrite G. congruence.
Qed.
Print Assumptions C43_class_default_refuted.

(** C58: construction succeeds exactly outside of the listed combinations. *)
Theorem C58_construct_iff :
  forall {V : Type} (c : cls) (a : args V),
  (exists s, construct c a = Built s) <->
  ~ ((In c [MinL1InL2Ball; ConvMinL1InL2Ball; ConvBPDNMaskDcpl; ConvL1L1Grd; SplineL1; ConvBPDN; ConvBPDNJoint;
            ConvElasticNet; ConvBPDNGradReg] /\ y0 a = true /\ u0 a = false)
     \/ (c = ConvBPDNJoint /\ own_opt a = false)
     \/ (c = ConvL1L1Grd /\ highmem a = true)).
Proof.
  intros V c a. rewrite construct_iff. unfold fails.
  destruct c; destruct (y0 a), (u0 a), (highmem a), (own_opt a); simpl;
    (split; [intros H; try discriminate H; intuition discriminate | intros H; try reflexivity; exfalso; apply H; intuition congruence]).
Qed.
Print Assumptions C58_construct_iff.

(** C58 is false: with a starting value Y0 and no U0, ConvBPDN fails on the attribute lmbda, and so on. *)
Theorem C58_valid_options_refuted :
  forall {V : Type} (a : args V), y0 a = true -> u0 a = false ->
  construct MinL1InL2Ball a = AttributeError "S" /\
  construct ConvBPDN a = AttributeError "lmbda" /\
  construct ConvMinL1InL2Ball a = AttributeError "sl.atleast_nd" /\
  construct ConvBPDNMaskDcpl a = AttributeError "W" /\
  construct SplineL1 a = AttributeError "Wdf".
Proof.
  intros V [o t r x cr cx y u h ow] Hy Hu. simpl in Hy, Hu. subst. destruct r, x; repeat split; reflexivity.
Qed.
Print Assumptions C58_valid_options_refuted.

Definition ex_args (r : option nat) (y u : bool) : args nat := mkArgs 1 0 r None 42 5 y u true true.

Example C43_example :
  (exists s, construct ConvBPDN (ex_args None false false) = Built s /\ s "rho" = Some (Some 42)) /\
  (exists s, construct CnstrMOD (ex_args None false false) = Built s /\ s "rho" = Some (Some 1)) /\
  (exists s, construct CnstrMOD (ex_args (Some 9) true false) = Built s /\ s "rho" = Some (Some 9)).
Proof. repeat split; eexists; split; reflexivity. Qed.

Example C58_example :
  (exists s, construct BPDN (ex_args None true false) = Built s) /\
  construct ConvL1L1Grd (ex_args None false false) = AttributeError "mu".
Proof. split; [eexists|]; reflexivity. Qed.
