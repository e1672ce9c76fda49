(** Model of sporco/cdict.py: dictionaries constrained by a tree of defaults.

    A Python value is a leaf (any non-dict object, type [A]) or a dict, an association list from keys (strings) to
    values in insertion order.  A Python dict has no repeated key: that is the predicate [wf].
    Simplifications: leaves are opaque (in particular no leaf has an [update] or [check] method or supports [in]);
    a nested [ConstrainedDict] stores a path and recomputes its node of the default tree at every check, whereas the
    model carries that node along; the recursion is over fuel, and the entry points below supply the depth of the
    default tree, which is shown to be enough. *)
Require Import List String Bool Arith Lia.
Import ListNotations.
Local Open Scope string_scope.

Definition key := string.

Inductive tree (A : Type) : Type :=
| Leaf (a : A)
| Node (l : list (key * tree A)).
Arguments Leaf {A} a.
Arguments Node {A} l.

(** Exceptions: [UnknownKeyError] (cdict.py 19-33), [InvalidValueError] (cdict.py 37-51), any other Python
    exception (AttributeError / TypeError from using a leaf as a dict, IndexError for an empty tuple key), and exhaustion of the model's
    fuel (shown not to occur). *)
Inductive err := EUnknown | EInvalid | EOther | EFuel.

Section Cdict.
Context {A : Type}.
Notation tr := (tree A).
Notation items := (list (key * tr)).

(** [dict.get]: lookup of a key in a Python dict. *)
Fixpoint assoc (k : key) (l : items) : option tr :=
  match l with
  | [] => None
  | (k', v) :: l' => if String.eqb k k' then Some v else assoc k l'
  end.

(** [dict.__setitem__] of the Python base class: replace in place, or append. *)
Fixpoint ins (k : key) (v : tr) (l : items) : items :=
  match l with
  | [] => [(k, v)]
  | (k', v') :: l' => if String.eqb k k' then (k, v) :: l' else (k', v') :: ins k v l'
  end.

(** Items of the default node at the child [k]: what [getnode(self.dflt, self.pth)] (cdict.py 286-305, called at
    109 and 248) returns for a nested dict at [k].  A missing child or a leaf child has no items. *)
Definition child (dn : items) (k : key) : items :=
  match assoc k dn with Some (Node l) => l | _ => [] end.

Definition is_node (v : tr) : bool := match v with Node _ => true | Leaf _ => false end.

(** ConstrainedDict.check (cdict.py 229-256): [dn] is the node of the default tree for this dict. *)
Definition check (dn : items) (k : key) (v : tr) : option err :=
  match assoc k dn with
  | None => Some EUnknown
  | Some d => if is_node d && negb (is_node v) then Some EInvalid else None
  end.

(** State after an operation together with the exception it raised, if any. *)
Definition res := (items * option err)%type.

(** ConstrainedDict.update (cdict.py 115-126): assign the items one by one; an exception stops the loop with the
    earlier assignments in place. *)
Fixpoint update_with (setf : items -> key -> tr -> res) (self : items) (d : items) : res :=
  match d with
  | [] => (self, None)
  | (k, v) :: d' =>
      match setf self k v with
      | (self', None) => update_with setf self' d'
      | (self', Some e) => (self', Some e)
      end
  end.

(** ConstrainedDict.__setitem__ for a non-tuple key and a value which is a leaf or a plain dict (cdict.py 130-191).
    The construction [ConstrainedDict(vc, sd.pth + (kc,), self.dflt)] at line 178 runs __init__ (cdict.py 70-111):
    update by the default node, then by the given dict; if that raises no object is inserted. *)
Fixpoint setitem (fuel : nat) (dn : items) (self : items) (k : key) (v : tr) : res :=
  match fuel with
  | O => (self, Some EFuel)
  | S fuel' =>
      match v with
      | Leaf a =>                                            (* line 158: not isinstance(value, dict) *)
          match check dn k v with                            (* line 184 *)
          | Some e => (self, Some e)
          | None => (ins k v self, None)                     (* line 188 *)
          end
      | Node d =>
          match assoc k self with
          | None =>                                          (* line 159: kc not in sd *)
              match assoc k dn with                          (* lines 178, 109: getnode *)
              | None => (self, Some EUnknown)
              | Some (Leaf _) => (self, Some EOther)         (* .keys() of a leaf *)
              | Some (Node dc) =>
                  match update_with (setitem fuel' dc) [] dc with        (* line 109 *)
                  | (_, Some e) => (self, Some e)
                  | (o, None) =>
                      match update_with (setitem fuel' dc) o d with      (* line 111 *)
                      | (_, Some e) => (self, Some e)
                      | (o', None) => (ins k (Node o') self, None)       (* lines 184, 188 *)
                      end
                  end
              end
          | Some (Leaf _) => (self, Some EOther)             (* line 191: a leaf has no update method *)
          | Some (Node sub) =>                               (* line 191 *)
              match update_with (setitem fuel' (child dn k)) sub d with
              | (sub', e) => (ins k (Node sub') self, e)
              end
          end
      end
  end.

(** Tuple keys: ConstrainedDict.getparent (cdict.py 261-281) followed by the assignment (cdict.py 146-191).
    A leaf at the parent position makes [sd.check] or [kc not in sd] fail with another exception; a leaf further up gives
    InvalidValueError. *)
Fixpoint setpath (fuel : nat) (dn self : items) (p : list key) (v : tr) : res :=
  match p with
  | [] => (self, Some EOther)
  | [k] => setitem fuel dn self k v
  | k :: p' =>
      match assoc k self with
      | None => (self, Some EUnknown)
      | Some (Leaf _) => (self, Some (match p' with [_] => EOther | _ => EInvalid end))
      | Some (Node sub) =>
          match setpath fuel (child dn k) sub p' v with
          | (sub', e) => (ins k (Node sub') self, e)
          end
      end
  end.

(** ConstrainedDict.__getitem__ (cdict.py 195-218), same treatment of tuple keys. *)
Fixpoint getpath (self : items) (p : list key) : tr + err :=
  match p with
  | [] => inr EOther
  | [k] => match assoc k self with None => inr EUnknown | Some v => inl v end
  | k :: p' =>
      match assoc k self with
      | None => inr EUnknown
      | Some (Leaf _) => inr (match p' with [_] => EOther | _ => EInvalid end)
      | Some (Node sub) => getpath sub p'
      end
  end.

(** Depth of a tree: bounds the recursion of [setitem]. *)
Fixpoint depth (v : tr) : nat :=
  match v with
  | Leaf _ => 1
  | Node l => S (fold_right (fun kv m => Nat.max (depth (snd kv)) m) 0 l)
  end.

Definition fuel_of (dflt : items) : nat := S (depth (Node dflt)).

(** ConstrainedDict.__init__ at the top level (cdict.py 70-111). *)
Definition init (dflt d : items) : items + err :=
  match update_with (setitem (fuel_of dflt) dflt) [] dflt with
  | (_, Some e) => inr e
  | (o, None) =>
      match update_with (setitem (fuel_of dflt) dflt) o d with
      | (_, Some e) => inr e
      | (o', None) => inl o'
      end
  end.

(** Operations a client performs on an options object: assignment (cdict.py 130) and update (cdict.py 115). *)
Inductive op := OpSet (p : list key) (v : tr) | OpUpdate (d : items).

Definition step (dflt : items) (self : items) (o : op) : res :=
  match o with
  | OpSet p v => setpath (fuel_of dflt) dflt self p v
  | OpUpdate d => update_with (setitem (fuel_of dflt) dflt) self d
  end.

(** A history: exceptions are caught by the client, who goes on with the object. *)
Definition run (dflt self : items) (ops : list op) : items :=
  fold_left (fun s o => fst (step dflt s o)) ops self.

(** Assignment of a value which is itself a ConstrainedDict (cdict.py 158-188): the value is checked only for being a dict
    where a dict is expected, and inserted as it is. *)
Definition setitem_cd (dn self : items) (k : key) (contents : items) : res :=
  match check dn k (Node contents) with
  | Some e => (self, Some e)
  | None => (ins k (Node contents) self, None)
  end.

(** keycmp (cdict.py 309-347): [b] may only have keys of [a], recursively where [a] has a dict. *)
Fixpoint keycmp (a b : tr) {struct b} : option err :=
  match b with
  | Leaf _ => None                   (* called with dicts only *)
  | Node lb =>
      let la := match a with Node l => l | Leaf _ => [] end in
      (fix go (l : items) : option err :=
         match l with
         | [] => None
         | (k, vb) :: l' =>
             match assoc k la with
             | None => Some EUnknown
             | Some (Leaf _) => go l'
             | Some (Node la') =>
                 match vb with
                 | Leaf _ => Some EInvalid
                 | Node _ => match keycmp (Node la') vb with
                             | Some e => Some e
                             | None => go l'
                             end
                 end
             end
         end) lb
  end.

End Cdict.
Arguments tree A : clear implicits.
