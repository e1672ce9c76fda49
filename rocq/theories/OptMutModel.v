(** Model of what the constructors of the dictionary learning classes do to the options object they are given
    (sporco/dictlrn/bpdndl.py 121-191, wbpdndl.py 131-195, cbpdndl.py 385-474, cbpdndlmd.py 400-498).

    The options object and its two nested objects are those of OptShareModel: 'BPDN'/'CBPDN' is [cb] and 'CMOD'/'CCMOD' is
    [cc].  opt['CMOD'] is a reference to the nested object (cdict.py 195-218), so that its update method changes the
    caller's object.  The constructors of the sub-problem solvers only read the options (in the whole package the five
    calls of update modelled here are the only statements that assign to an options object); what they read is
    recorded, and whether they raise is a parameter. *)
Require Import List String Bool Arith.
Require Import Verif.CdictModel Verif.OptShareModel.
Import ListNotations.
Local Open Scope string_scope.
Local Open Scope list_scope.

Section Mut.
Context {A : Type}.
Notation tr := (tree A).
Notation items := (list (key * tr)).

(** The classes, with the dictionary update method where there is a choice. *)
Inductive dmethod := Mpgm | Mism | Mcg | Mcns.
Inductive dlclass := CBpdn | CWbpdn | CConv (m : dmethod) | CMask (m : dmethod).

(** Arrays computed by the constructor from its arguments D0 and S and the option ZeroMean: the normalised and padded
    dictionary, the zero array of BPDNDictLearn, and the concatenation of zeros and dictionary of the masked problem. *)
Record arrays := { ar_dict : A -> A; ar_zeros : A; ar_cat : A -> A }.

(** Entries written by the constructor: bpdndl.py 156, wbpdndl.py 157, cbpdndl.py 452-454, cbpdndlmd.py 471-478. *)
Definition written (c : dlclass) (a : arrays) (zm : A) : items :=
  match c with
  | CBpdn => [("Y0", Leaf (ar_dict a zm)); ("U0", Leaf (ar_zeros a))]
  | CWbpdn => [("X0", Leaf (ar_dict a zm))]
  | CConv Mpgm => [("X0", Leaf (ar_dict a zm))]
  | CConv _ => [("Y0", Leaf (ar_dict a zm))]
  | CMask Mpgm => [("X0", Leaf (ar_dict a zm))]
  | CMask Mcns => [("Y0", Leaf (ar_dict a zm))]
  | CMask _ => [("Y0", Leaf (ar_cat a zm))]
  end.

(** Outcome of a construction: an exception of the options object, another exception (method mismatch, cbpdndl.py 430-433,
    or a sub-problem constructor), or a solver together with the options its sub-problem solvers have read. *)
Inductive outcome :=
| OErr (e : err)
| OMismatch
| OSubErr
| OBuilt (xopt dopt : items).

(** [mism]: the method arguments differ from those of the options object; [sub_ok]: the sub-problem constructors succeed. *)
Definition construct (c : dlclass) (mism : bool) (a : arrays) (sub_ok : items -> items -> bool) (o : obj (A := A))
  : obj (A := A) * outcome :=
  if mism then (o, OMismatch)
  else
    match getpath (contents (cc o)) ["ZeroMean"] with              (* opt['CMOD', 'ZeroMean'] *)
    | inr e => (o, OErr e)
    | inl (Node _) => (o, OErr EOther)
    | inl (Leaf zm) =>
        match sub_update (cc o) (written c a zm) with
        | (s, Some e) => (mkObj (top o) (cb o) s, OErr e)
        | (s, None) =>
            let o' := mkObj (top o) (cb o) s in
            (o', if sub_ok (contents (cb o')) (contents (cc o')) then OBuilt (contents (cb o')) (contents (cc o'))
                 else OSubErr)
        end
    end.

(** Names of the entries written. *)
Definition wkeys (c : dlclass) : list key :=
  match c with
  | CBpdn => ["Y0"; "U0"]
  | CWbpdn | CConv Mpgm | CMask Mpgm => ["X0"]
  | _ => ["Y0"]
  end.
End Mut.
