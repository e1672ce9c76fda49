(** Specification vocabulary for option trees, independent of the operations of the model. *)
Require Import List String Bool.
Require Import Verif.CdictModel.
Import ListNotations.

Section Spec.
Context {A : Type}.

(** The value found by following a path of keys from a value. *)
Fixpoint lookup (t : tree A) (p : list key) : option (tree A) :=
  match p with
  | [] => Some t
  | k :: p' =>
      match t with
      | Leaf _ => None
      | Node l => match assoc k l with Some t' => lookup t' p' | None => None end
      end
  end.

Inductive kind := KAbsent | KLeaf | KNode.

Definition kind_of (o : option (tree A)) : kind :=
  match o with None => KAbsent | Some (Leaf _) => KLeaf | Some (Node _) => KNode end.

(** The leaf value stored at a path, if there is a leaf there. *)
Definition leaf_at (t : tree A) (p : list key) : option A :=
  match lookup t p with Some (Leaf a) => Some a | _ => None end.

(** Two trees have the same keys at every level and the same nesting. *)
Definition same_keys (t u : tree A) : Prop :=
  forall p, kind_of (lookup t p) = kind_of (lookup u p).

(** No repeated key at any level: true of every Python dict. *)
Fixpoint wf (t : tree A) : Prop :=
  match t with
  | Leaf _ => True
  | Node l => NoDup (map fst l) /\ (fix all (l : list (key * tree A)) : Prop :=
                 match l with [] => True | (_, v) :: l' => wf v /\ all l' end) l
  end.

(** [v] may be assigned where the default is [d]: a leaf for a leaf, and for a dict a dict all of whose entries name
    entries of [d] that they fit. *)
Inductive fits : tree A -> tree A -> Prop :=
| fits_leaf : forall a b, fits (Leaf a) (Leaf b)
| fits_node : forall dl vl,
    (forall k v, In (k, v) vl -> exists d, assoc k dl = Some d /\ fits d v) ->
    fits (Node dl) (Node vl).

(** [b] names only keys of [a], recursively where [a] has a dict; below a leaf of [a] anything goes. *)
Inductive kc_ok : tree A -> tree A -> Prop :=
| kc_leaf : forall a v, kc_ok (Leaf a) v
| kc_node : forall la lb,
    (forall k v, In (k, v) lb -> exists d, assoc k la = Some d /\ kc_ok d v) ->
    kc_ok (Node la) (Node lb).

(** [p] is a prefix of [q]. *)
Definition prefix (p q : list key) : Prop := exists r, q = p ++ r.

End Spec.
