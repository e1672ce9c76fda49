(** C05: creating an options object does not affect existing ones. *)
Require Import String List Bool Arith Lia.
Require Import Verif.CdictModel Verif.OptShareModel Verif.OptShareProofs.
Import ListNotations.
Local Open Scope string_scope.
Local Open Scope list_scope.

(** C05: in every history of creations (also failed ones), assignments and updates on any number of options objects of
    the class, each object ends with the contents, and each operation on it with the outcome, that one gets by creating
    that object alone with the same arguments and applying only its own operations - although all objects share and
    change one dict of defaults. *)
Theorem C05_objects_independent :
  forall {A M} (base : list (key * tree A)) (xcls xdfl dcls ddfl : M -> list (key * tree A)),
  (forall k v, In (k, v) base -> is_node v = false /\ k <> "CBPDN" /\ k <> "CCMOD") ->
  forall h i o,
  let run := hrun xcls xdfl dcls ddfl (hstart base) in
  nth_error (snd (fst (run h))) i = Some o ->
  exists h1 xm dm opt h2 D log,
    h = h1 ++ HCreate xm dm opt :: h2 /\ List.length (snd (fst (run h1))) = i /\
    run (HCreate xm dm opt :: own_ops i h2) = (D, [o], log) /\
    map snd log = outcomes i (snd (run h)).
Proof.
  intros A M base xcls xdfl dcls ddfl Hb h i o run Ho.
  destruct (noninterference base xcls xdfl dcls ddfl Hb h i o Ho) as (h1 & xm & dm & opt & h2 & H1 & H2 & D & log & H3 & H4).
  exists h1, xm, dm, opt, h2, D, log. repeat split; assumption.
Qed.
Print Assumptions C05_objects_independent.

(** A history with two objects of different methods, in which the first is used after the creation of the second. *)
Definition ex_base : list (key * tree nat) := [("Verbose", Leaf 0); ("DictSize", Leaf 7)].
Definition ex_cls (m : bool) : list (key * tree nat) :=
  if m then [("rho", Leaf 1); ("AutoRho", Node [("Enabled", Leaf 1); ("Period", Leaf 1)])]
  else [("L", Leaf 2)].
Definition ex_dfl (m : bool) : list (key * tree nat) :=
  if m then [("rho", Leaf 1); ("AutoRho", Node [("Period", Leaf 10)])] else [("L", Leaf 2)].

Example C05_example :
  let run := hrun ex_cls ex_dfl ex_cls ex_dfl (hstart ex_base) in
  let h := [HCreate true false [("Verbose", Leaf 1)]; HCreate false true [];
            HSet 0 ["CBPDN"; "AutoRho"; "Period"] (Leaf 5); HSet 0 ["CCMOD"; "rho"] (Leaf 3); HSet 1 ["CCMOD"; "rho"] (Leaf 3)] in
  map snd (snd (run h)) = [None; Some EUnknown; None] /\
  List.length (snd (fst (run h))) = 2.
Proof. vm_compute. split; reflexivity. Qed.
