(** Model of util.Timer and util.ContextTimer (sporco/util.py 574-899).

    Time readings are integers (ticks of the clock [timeit.default_timer]); the code uses floats.  The two dicts
    [t0] and [td] always have the same keys (both are written together at lines 607-608, 635-636), so the model keeps
    one association list from labels to the pair of entries.  Every operation takes the clock reading as an argument. *)
Require Import List String Bool ZArith Lia.
Import ListNotations.
Local Open Scope Z_scope.

Definition label := string.

(** The [labels] argument: None, a single label, or a list/tuple of labels. *)
Inductive larg := LNone | LOne (l : label) | LMany (ls : list label).

Definition entry := (Z * option Z)%type.       (* td[lbl], t0[lbl] *)

Record timer := mkTimer { dfltlbl : label; alllbl : label; ents : list (label * entry) }.

Fixpoint find (l : label) (es : list (label * entry)) : option entry :=
  match es with
  | [] => None
  | (l', e) :: es' => if String.eqb l l' then Some e else find l es'
  end.

Fixpoint put (l : label) (e : entry) (es : list (label * entry)) : list (label * entry) :=
  match es with
  | [] => [(l, e)]
  | (l', e') :: es' => if String.eqb l l' then (l, e) :: es' else (l', e') :: put l e es'
  end.

(** Timer.__init__ (util.py 581-608); a repeated label is stored once. *)
Definition new (dl al : label) (labels : list label) : timer :=
  mkTimer dl al (fold_left (fun es l => put l (0, None) es) labels []).

(** Timer.start for one label at time [t] (util.py 632-640). *)
Definition start1 (t : Z) (es : list (label * entry)) (l : label) : list (label * entry) :=
  match find l es with
  | None => put l (0, Some t) es
  | Some (td, None) => put l (td, Some t) es
  | Some (td, Some _) => es
  end.

(** Timer.start (util.py 612-640).  The label for all timers has no special meaning here. *)
Definition start (t : Z) (tm : timer) (a : larg) : timer :=
  let ls := match a with LNone => [dfltlbl tm] | LOne l => [l] | LMany ls => ls end in
  mkTimer (dfltlbl tm) (alllbl tm) (fold_left (start1 t) ls (ents tm)).

(** Resolution of the [labels] argument in stop and reset (util.py 660-667, 697-704). *)
Definition resolve (tm : timer) (a : larg) : list label :=
  match a with
  | LNone => if String.eqb (dfltlbl tm) (alllbl tm) then map fst (ents tm) else [dfltlbl tm]
  | LOne l => if String.eqb l (alllbl tm) then map fst (ents tm) else [l]
  | LMany ls => ls
  end.

(** One label of stop (util.py 670-679): unknown labels raise KeyError. *)
Definition stop1 (t : Z) (es : list (label * entry)) (l : label) : option (list (label * entry)) :=
  match find l es with
  | None => None
  | Some (td, None) => Some es
  | Some (td, Some s) => Some (put l (td + (t - s), None) es)
  end.

(** One label of reset (util.py 707-712). *)
Definition reset1 (es : list (label * entry)) (l : label) : option (list (label * entry)) :=
  match find l es with
  | None => None
  | Some _ => Some (put l (0, None) es)
  end.

(** The loop over labels: a KeyError ends it with the earlier labels already processed.  The boolean tells whether the
    loop was completed. *)
Fixpoint loop (f : list (label * entry) -> label -> option (list (label * entry)))
    (es : list (label * entry)) (ls : list label) : list (label * entry) * bool :=
  match ls with
  | [] => (es, true)
  | l :: ls' => match f es l with None => (es, false) | Some es' => loop f es' ls' end
  end.

(** Timer.stop (util.py 644-679). *)
Definition stop (t : Z) (tm : timer) (a : larg) : timer * bool :=
  let r := loop (stop1 t) (ents tm) (resolve tm a) in
  (mkTimer (dfltlbl tm) (alllbl tm) (fst r), snd r).

(** Timer.reset (util.py 683-712). *)
Definition reset (tm : timer) (a : larg) : timer * bool :=
  let r := loop reset1 (ents tm) (resolve tm a) in
  (mkTimer (dfltlbl tm) (alllbl tm) (fst r), snd r).

(** Timer.elapsed (util.py 716-759); [None] is KeyError. *)
Definition elapsed (t : Z) (tm : timer) (a : option label) (total : bool) : option Z :=
  let value (e : entry) :=
    (match snd e with None => 0 | Some s => t - s end) + (if total then fst e else 0) in
  match a with
  | None => match find (dfltlbl tm) (ents tm) with None => Some 0 | Some e => Some (value e) end
  | Some l => match find l (ents tm) with None => None | Some e => Some (value e) end
  end.

(** Client operations. *)
Inductive top := TStart (a : larg) | TStop (a : larg) | TReset (a : larg).

Definition tstep (tm : timer) (ev : Z * top) : timer :=
  match ev with
  | (t, TStart a) => start t tm a
  | (t, TStop a) => fst (stop t tm a)
  | (t, TReset a) => fst (reset tm a)
  end.

(** A history; the client catches exceptions and goes on. *)
Definition trun (tm : timer) (evs : list (Z * top)) : timer := fold_left tstep evs tm.

(** ContextTimer.__enter__ and __exit__ (util.py 855-878) around a block that is entered at time [t1], left at time
    [t2] and during which the timer undergoes [body].  The second component tells whether both calls succeeded, the
    third is the return value of __exit__: True swallows nothing because it is returned only when there was no
    exception, False lets the exception propagate. *)
Inductive action := StartStop | StopStart.

Definition larg_of (l : option label) : larg := match l with None => LNone | Some l => LOne l end.

Definition ctx_enter (t : Z) (tm : timer) (l : option label) (act : action) : timer * bool :=
  match act with
  | StartStop => (start t tm (larg_of l), true)
  | StopStart => stop t tm (larg_of l)
  end.

Definition ctx_exit (t : Z) (tm : timer) (l : option label) (act : action) (raised : bool) : timer * bool * bool :=
  match act with
  | StartStop => (stop t tm (larg_of l), negb raised)
  | StopStart => (start t tm (larg_of l), true, negb raised)
  end.

Definition with_block (t1 t2 : Z) (tm : timer) (l : option label) (act : action)
    (body : timer -> timer) (raised : bool) : timer * bool * bool :=
  match ctx_enter t1 tm l act with
  | (tm1, false) => (tm1, false, false)
  | (tm1, true) => ctx_exit t2 (body tm1) l act raised
  end.
