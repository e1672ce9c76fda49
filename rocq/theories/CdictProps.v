(** Properties C01-C04 of options objects (sporco/cdict.py). *)
Require Import List String Bool Arith.
Require Import Verif.CdictModel Verif.CdictSpec Verif.CdictProofs.
Import ListNotations.
Local Open Scope string_scope.
Local Open Scope list_scope.

(** A default tree used in the examples: a fragment of ADMM.Options.defaults (admm/admm.py 148-161). *)
Definition ex_dflt : list (key * tree nat) :=
  [("MaxMainIter", Leaf 1000);
   ("AutoRho", Node [("Enabled", Leaf 0); ("Period", Leaf 10)]);
   ("Verbose", Leaf 0)].

Example ex_dflt_wf : wf (Node ex_dflt).
Proof. simpl. repeat split; repeat constructor; simpl; intuition discriminate. Qed.

(** C01: after construction and any history of assignments and updates, failing or not, the object has the keys of the
    default tree at every level, and no others. *)
Theorem C01_keys_invariant :
  forall (A : Type) (dflt d self : list (key * tree A)) (ops : list (@op A)),
    wf (Node dflt) -> init dflt d = inl self ->
    same_keys (Node dflt) (Node (run dflt self ops)).
Proof. intros A dflt d self ops Hw Hi. exact (run_full dflt ops self (init_shape dflt d self Hw Hi)). Qed.
Print Assumptions C01_keys_invariant.

Example C01_example :
  init ex_dflt [("AutoRho", Node [("Period", Leaf 5)])] =
    inl [("MaxMainIter", Leaf 1000);
         ("AutoRho", Node [("Enabled", Leaf 0); ("Period", Leaf 5)]);
         ("Verbose", Leaf 0)] /\
  run ex_dflt ex_dflt [OpSet ["AutoRho"; "Typo"] (Leaf 3);
                       OpUpdate [("Verbose", Leaf 1); ("NoSuchKey", Leaf 1); ("MaxMainIter", Leaf 7)]] =
    [("MaxMainIter", Leaf 1000);
     ("AutoRho", Node [("Enabled", Leaf 0); ("Period", Leaf 10)]);
     ("Verbose", Leaf 1)].
Proof. split; reflexivity. Qed.

(** Construction without arguments succeeds and gives the defaults. *)
Theorem C01_init_defaults :
  forall (A : Type) (dflt : list (key * tree A)), wf (Node dflt) -> init dflt [] = inl dflt.
Proof. intros A dflt H. exact (init_empty dflt H). Qed.
Print Assumptions C01_init_defaults.

(** A value which is an options object of another class is not checked: keys outside the default tree get in. *)
Theorem C01_foreign_object_refuted :
  exists (dflt : list (key * tree nat)) self k contents s,
    wf (Node dflt) /\ init dflt [] = inl self /\ setitem_cd dflt self k contents = (s, None) /\
    ~ same_keys (Node dflt) (Node s).
Proof.
  exists ex_dflt, ex_dflt, "AutoRho", [("Typo", Leaf 1)], (ins "AutoRho" (Node [("Typo", Leaf 1)]) ex_dflt).
  split; [exact ex_dflt_wf|]. split; [reflexivity|]. split; [reflexivity|].
  intros H. specialize (H ["AutoRho"; "Typo"]). discriminate H.
Qed.
Print Assumptions C01_foreign_object_refuted.

(** C02: a successful assignment of a non-dict value can be read back. *)
Theorem C02_get_after_set :
  forall (A : Type) fuel (dflt self s : list (key * tree A)) p a,
    setpath fuel dflt self p (Leaf a) = (s, None) -> getpath s p = inl (Leaf a).
Proof.
  intros A fuel dflt self s p a H.
  assert (Hp : p <> []) by (intros ->; discriminate H).
  exact (proj2 (getpath_lookup p s (Leaf a) Hp) (setpath_leaf_get fuel p dflt self a s H)).
Qed.
Print Assumptions C02_get_after_set.

(** C02: it leaves every unrelated path alone, and a failing one leaves the whole object alone. *)
Theorem C02_frame :
  forall (A : Type) fuel (dflt self : list (key * tree A)) p a q,
    ~ prefix p q -> ~ prefix q p ->
    lookup (Node (fst (setpath fuel dflt self p (Leaf a)))) q = lookup (Node self) q.
Proof. intros A fuel dflt self p a q H1 H2. exact (setpath_leaf_frame fuel p dflt self a q H1 H2). Qed.
Print Assumptions C02_frame.

Theorem C02_failed_set_no_change :
  forall (A : Type) fuel (dflt self : list (key * tree A)) p a,
    snd (setpath fuel dflt self p (Leaf a)) <> None -> fst (setpath fuel dflt self p (Leaf a)) = self.
Proof. intros A fuel dflt self p a H. exact (setpath_leaf_fail fuel p dflt self a H). Qed.
Print Assumptions C02_failed_set_no_change.

Example C02_example :
  setpath (fuel_of ex_dflt) ex_dflt ex_dflt ["AutoRho"; "Period"] (Leaf 3) =
    ([("MaxMainIter", Leaf 1000);
      ("AutoRho", Node [("Enabled", Leaf 0); ("Period", Leaf 3)]);
      ("Verbose", Leaf 0)], None) /\
  ~ prefix ["AutoRho"; "Period"] ["AutoRho"; "Enabled"] /\ ~ prefix ["AutoRho"; "Enabled"] ["AutoRho"; "Period"].
Proof. split; [reflexivity|]. split; intros [r H]; discriminate H. Qed.

(** C02 for dict values: a successful update stores exactly the given leaves and keeps all others. *)
Theorem C02_update_overlays :
  forall (A : Type) (dflt self s d : list (key * tree A)),
    same_keys (Node dflt) (Node self) -> wf (Node d) ->
    step dflt self (OpUpdate d) = (s, None) ->
    forall p, leaf_at (Node s) p = match leaf_at (Node d) p with
                                   | Some a => Some a
                                   | None => leaf_at (Node self) p
                                   end.
Proof. intros A dflt self s d Hs Hw H. exact (update_overlay (fuel_of dflt) dflt d self s Hs Hw H). Qed.
Print Assumptions C02_update_overlays.

Example C02_update_example :
  step ex_dflt ex_dflt (OpUpdate [("AutoRho", Node [("Enabled", Leaf 1)])]) =
    ([("MaxMainIter", Leaf 1000);
      ("AutoRho", Node [("Enabled", Leaf 1); ("Period", Leaf 10)]);
      ("Verbose", Leaf 0)], None).
Proof. reflexivity. Qed.

(** C03: assignment of a non-dict value to a path is accepted iff the path is a leaf of the defaults. *)
Theorem C03_leaf_accepted_iff :
  forall (A : Type) (dflt self : list (key * tree A)) p a,
    same_keys (Node dflt) (Node self) ->
    (snd (step dflt self (OpSet p (Leaf a))) = None <-> exists b, lookup (Node dflt) p = Some (Leaf b)).
Proof.
  intros A dflt self p a Hs.
  assert (Hd : depth (Node dflt) <= fuel_of dflt) by (unfold fuel_of; apply Nat.le_succ_diag_r).
  pose proof (setpath_leaf_accept (fuel_of dflt) p dflt self a Hd Hs) as H.
  cbn [step]. rewrite H. destruct (lookup (Node dflt) p) as [[b|l]|]; simpl; split; intros H0;
    try discriminate; try (destruct H0; discriminate); eauto.
Qed.
Print Assumptions C03_leaf_accepted_iff.

(** C03: which exception is raised otherwise.  A scalar for a sub-dict is an invalid value; a path that leaves the tree
    at a dict is an unknown key; a path that goes on below a leaf is an invalid value, except when it goes on by
    exactly one key, when another exception escapes. *)
Theorem C03_leaf_errors :
  forall (A : Type) (dflt self : list (key * tree A)) p a,
    same_keys (Node dflt) (Node self) ->
    (kind_of (lookup (Node dflt) p) = KNode -> p <> [] ->
       snd (step dflt self (OpSet p (Leaf a))) = Some EInvalid) /\
    (forall q k r, p = q ++ k :: r -> kind_of (lookup (Node dflt) q) = KNode ->
       kind_of (lookup (Node dflt) (q ++ [k])) = KAbsent ->
       snd (step dflt self (OpSet p (Leaf a))) = Some EUnknown) /\
    (forall q r, p = q ++ r -> r <> [] -> kind_of (lookup (Node dflt) q) = KLeaf ->
       snd (step dflt self (OpSet p (Leaf a))) = Some (match r with [_] => EOther | _ => EInvalid end)).
Proof.
  intros A dflt self p a Hs.
  assert (Hd : depth (Node dflt) <= fuel_of dflt) by (unfold fuel_of; apply Nat.le_succ_diag_r).
  exact (setpath_leaf_errors (fuel_of dflt) p dflt self a Hd Hs).
Qed.
Print Assumptions C03_leaf_errors.

(** C03 for nested dictionaries: an update is accepted iff each of its entries, at every depth, names an entry of the
    defaults, with dicts exactly where the defaults have dicts; and it never runs out of the model's fuel. *)
Theorem C03_update_accepted_iff :
  forall (A : Type) (dflt self d : list (key * tree A)),
    same_keys (Node dflt) (Node self) ->
    (snd (step dflt self (OpUpdate d)) = None <-> fits (Node dflt) (Node d)).
Proof. intros A dflt self d Hs. exact (update_accept dflt self d Hs). Qed.
Print Assumptions C03_update_accepted_iff.

Theorem C03_no_fuel :
  forall (A : Type) (dflt self d : list (key * tree A)),
    same_keys (Node dflt) (Node self) -> snd (step dflt self (OpUpdate d)) <> Some EFuel.
Proof.
  intros A dflt self d Hs.
  refine (update_nofuel_gen _ (fun s => same_keys (Node dflt) (Node s)) _ _ d self Hs).
  - intros. apply setitem_full. assumption.
  - intros s k v Hs'. apply setitem_nofuel; [unfold fuel_of; apply Nat.le_succ_diag_r|exact Hs'].
Qed.
Print Assumptions C03_no_fuel.

Example C03_example :
  step ex_dflt ex_dflt (OpSet ["AutoRho"] (Leaf 1)) = (ex_dflt, Some EInvalid) /\
  step ex_dflt ex_dflt (OpSet ["AutoRho"; "Typo"] (Leaf 1)) = (ex_dflt, Some EUnknown) /\
  snd (step ex_dflt ex_dflt (OpUpdate [("Verbose", Node [])])) = Some EOther.
Proof. repeat split; reflexivity. Qed.

(** The property as stated is false at one place: an unknown path below a leaf does not give one of the two documented
    exceptions. *)
Theorem C03_documented_errors_refuted :
  exists (dflt : list (key * tree nat)) self p a,
    wf (Node dflt) /\ init dflt [] = inl self /\ snd (step dflt self (OpSet p (Leaf a))) = Some EOther.
Proof.
  exists ex_dflt, ex_dflt, ["Verbose"; "x"], 1. split; [exact ex_dflt_wf|]. split; reflexivity.
Qed.
Print Assumptions C03_documented_errors_refuted.

(** C03: keycmp accepts exactly the dictionaries all of whose keys are keys of the reference, recursively under
    reference dicts. *)
Theorem C03_keycmp_iff :
  forall (A : Type) (la lb : list (key * tree A)),
    keycmp (Node la) (Node lb) = None <-> kc_ok (Node la) (Node lb).
Proof. intros A la lb. exact (keycmp_ok lb la). Qed.
Print Assumptions C03_keycmp_iff.

Example C03_keycmp_example :
  keycmp (Node ex_dflt) (Node [("AutoRho", Node [("Period", Leaf 1)]); ("Verbose", Node [("any", Leaf 2)])]) = None /\
  keycmp (Node ex_dflt) (Node [("AutoRho", Node [("Typo", Leaf 1)])]) = Some EUnknown.
Proof. split; reflexivity. Qed.

(** C04 is false: a failing update has changed the object. *)
Theorem C04_atomic_update_refuted :
  exists (dflt : list (key * tree nat)) self d s e,
    wf (Node dflt) /\ wf (Node d) /\ init dflt [] = inl self /\
    step dflt self (OpUpdate d) = (s, Some e) /\ s <> self.
Proof.
  exists ex_dflt, ex_dflt, [("Verbose", Leaf 1); ("NoSuchKey", Leaf 1)],
    [("MaxMainIter", Leaf 1000); ("AutoRho", Node [("Enabled", Leaf 0); ("Period", Leaf 10)]); ("Verbose", Leaf 1)],
    EUnknown.
  split; [exact ex_dflt_wf|]. split; [simpl; repeat split; repeat constructor; simpl; intuition discriminate|].
  split; [reflexivity|]. split; [reflexivity|discriminate].
Qed.
Print Assumptions C04_atomic_update_refuted.

(** What does hold: after an update, failing or not, every option has its old value or the one given, and the keys are
    those of the defaults. *)
Theorem C04_update_mixed_partial :
  forall (A : Type) (dflt self d : list (key * tree A)) p,
    same_keys (Node dflt) (Node self) -> wf (Node d) ->
    let s := fst (step dflt self (OpUpdate d)) in
    same_keys (Node dflt) (Node s) /\
    (leaf_at (Node s) p = leaf_at (Node self) p \/
     leaf_at (Node s) p = leaf_at (Node d) p /\ leaf_at (Node d) p <> None).
Proof.
  intros A dflt self d p Hs Hw. split.
  - exact (update_full (fuel_of dflt) dflt self d Hs).
  - exact (update_mixed (fuel_of dflt) dflt d self Hs Hw p).
Qed.
Print Assumptions C04_update_mixed_partial.
