(** Model of the options objects of convolutional dictionary learning, which update the dict of defaults of their class
    each time one is created (sporco/dictlrn/cbpdndl.py 325-381; sporco/dictlrn/cbpdndlmd.py 331-387 is the same code
    for the masked problem). *)
Require Import List String Bool Arith.
Require Import Verif.CdictModel.
Import ListNotations.
Local Open Scope string_scope.
Local Open Scope list_scope.

Section Share.
Context {A M : Type}.
Notation tr := (tree A).
Notation items := (list (key * tr)).

(** The entries of the class-level dict of defaults (cbpdndl.py 346-347) that are leaves. *)
Variable base : items.
(** Class-level defaults of the sub-problem classes selected by the method names (cbpdndl.py 31-39, 125-135), and the
    dicts that ConvBPDNOptionsDefaults / ConvCnstrMODOptionsDefaults return (cbpdndl.py 43-56, 139-152). *)
Variables xcls xdfl dcls ddfl : M -> items.

(** A sub-object: a ConstrainedDict of its own class, with the defaults of that class (cdict.py 103-104). *)
Record sub := mkSub { own : items; contents : items }.

(** An options object: its leaf entries, and the two sub-objects inserted at lines 373-377.  Its own [dflt] attribute
    (cdict.py 104) is a reference to the class-level dict, which is kept in the state of the model. *)
Record obj := mkObj { top : items; cb : sub; cc : sub }.

(** Class-level dict of defaults after line 365 of an object creation. *)
Definition defaults_update (D : items) (xm dm : M) : items :=
  ins "CCMOD" (Node (ddfl dm)) (ins "CBPDN" (Node (xdfl xm)) D).

Definition sub_set (s : sub) (p : list key) (v : tr) : sub * option err :=
  let '(c, e) := setpath (fuel_of (own s)) (own s) (contents s) p v in (mkSub (own s) c, e).

Definition sub_update (s : sub) (d : items) : sub * option err :=
  let '(c, e) := update_with (setitem (fuel_of (own s)) (own s)) (contents s) d in (mkSub (own s) c, e).

(** ConstrainedDict.__setitem__ (cdict.py 130-191) on such an object; [D] is the current class-level dict. *)
Definition obj_set1 (D : items) (o : obj) (k : key) (v : tr) : obj * option err :=
  match v with
  | Leaf _ =>
      match check D k v with                                       (* line 184, against self.dflt = class defaults *)
      | Some e => (o, Some e)
      | None => (mkObj (ins k v (top o)) (cb o) (cc o), None)
      end
  | Node d =>
      if String.eqb k "CBPDN" then let '(s, e) := sub_update (cb o) d in (mkObj (top o) s (cc o), e)
      else if String.eqb k "CCMOD" then let '(s, e) := sub_update (cc o) d in (mkObj (top o) (cb o) s, e)
      else match assoc k (top o) with
           | Some _ => (o, Some EOther)                            (* line 191 on a leaf *)
           | None => match assoc k D with                          (* line 178 *)
                     | None => (o, Some EUnknown)
                     | Some _ => (o, Some EOther)
                     end
           end
  end.

Definition obj_set (D : items) (o : obj) (p : list key) (v : tr) : obj * option err :=
  match p with
  | [] => (o, Some EOther)
  | [k] => obj_set1 D o k v
  | k :: p' =>
      if String.eqb k "CBPDN" then let '(s, e) := sub_set (cb o) p' v in (mkObj (top o) s (cc o), e)
      else if String.eqb k "CCMOD" then let '(s, e) := sub_set (cc o) p' v in (mkObj (top o) (cb o) s, e)
      else match assoc k (top o) with
           | None => (o, Some EUnknown)
           | Some _ => (o, Some (match p' with [_] => EOther | _ => EInvalid end))
           end
  end.

(** ConstrainedDict.update (cdict.py 115-126). *)
Fixpoint obj_update (D : items) (o : obj) (d : items) : obj * option err :=
  match d with
  | [] => (o, None)
  | (k, v) :: d' =>
      match obj_set1 D o k v with
      | (o', None) => obj_update D o' d'
      | (o', Some e) => (o', Some e)
      end
  end.

(** Leaf entries of the class-level dict: what cdict.py 109 puts into a new object besides the two sub-objects. *)
Definition leaves (D : items) : items := filter (fun kv => negb (is_node (snd kv))) D.

(** Options.__init__ (cbpdndl.py 350-381). *)
Definition create (D : items) (xm dm : M) (opt : items) : items * (obj + err) :=
  let D' := defaults_update D xm dm in
  (D', match init (xcls xm) (xdfl xm), init (dcls dm) (ddfl dm) with
       | inl x, inl d =>
           match obj_update D' (mkObj (leaves D') (mkSub (xcls xm) x) (mkSub (dcls dm) d)) opt with
           | (o, None) => inl o
           | (_, Some e) => inr e
           end
       | inr e, _ => inr e
       | _, inr e => inr e
       end).

(** Histories: creations, and operations on the object number [i].  A failed creation gives no object but has updated the
    class-level dict.  The log records the outcome of each operation on each object. *)
Inductive hop := HCreate (xm dm : M) (opt : items) | HSet (i : nat) (p : list key) (v : tr) | HUpdate (i : nat) (d : items).

Fixpoint upd_nth {B} (i : nat) (b : B) (l : list B) : list B :=
  match l, i with
  | [], _ => []
  | _ :: l', O => b :: l'
  | x :: l', S i' => x :: upd_nth i' b l'
  end.

Definition hstate := (items * list obj * list (nat * option err))%type.

Definition hstep (s : hstate) (o : hop) : hstate :=
  let '(D, objs, log) := s in
  match o with
  | HCreate xm dm opt =>
      match create D xm dm opt with
      | (D', inl ob) => (D', objs ++ [ob], log)
      | (D', inr _) => (D', objs, log)
      end
  | HSet i p v =>
      match nth_error objs i with
      | None => s
      | Some ob => let '(ob', e) := obj_set D ob p v in (D, upd_nth i ob' objs, log ++ [(i, e)])
      end
  | HUpdate i d =>
      match nth_error objs i with
      | None => s
      | Some ob => let '(ob', e) := obj_update D ob d in (D, upd_nth i ob' objs, log ++ [(i, e)])
      end
  end.

Definition hrun (s : hstate) (h : list hop) : hstate := fold_left hstep h s.
Definition hstart : hstate := (base, [], []).
End Share.
