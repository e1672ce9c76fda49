(** Specification of timers: which clock ticks are charged to a label by a history of calls. *)
Require Import List String Bool ZArith.
Require Import Verif.TimerModel.
Import ListNotations.
Local Open Scope Z_scope.

Definition memb (l : label) (ls : list label) : bool := existsb (String.eqb l) ls.

(** Labels processed by a call: those before the first unknown one. *)
Fixpoint upto_unknown (known : list label) (ls : list label) : list label :=
  match ls with
  | [] => []
  | l :: ls' => if memb l known then l :: upto_unknown known ls' else []
  end.

(** Labels known after a history, given the labels of the constructor. *)
Definition started (dl : label) (a : larg) : list label :=
  match a with LNone => [dl] | LOne l => [l] | LMany ls => ls end.

Fixpoint known (dl : label) (init : list label) (evs : list (Z * top)) : list label :=
  match evs with
  | [] => init
  | (_, TStart a) :: evs' => known dl (init ++ started dl a) evs'
  | _ :: evs' => known dl init evs'
  end.

(** Labels named by a stop or reset call when the labels [kn] are known. *)
Definition named (dl al : label) (kn : list label) (a : larg) : list label :=
  let one l := if String.eqb l al then kn else [l] in
  match a with LNone => one dl | LOne l => one l | LMany ls => ls end.

(** What a history does to one label: a list of marks, most recent first. *)
Inductive mark := MStart | MStop | MReset.

Fixpoint marks_from (dl al : label) (kn : list label) (l : label) (evs : list (Z * top)) (acc : list (mark * Z))
    : list (mark * Z) :=
  match evs with
  | [] => acc
  | (t, TStart a) :: evs' =>
      marks_from dl al (kn ++ started dl a) l evs'
        (if memb l (started dl a) then (MStart, t) :: acc else acc)
  | (t, TStop a) :: evs' =>
      marks_from dl al kn l evs'
        (if memb l (upto_unknown kn (named dl al kn a)) then (MStop, t) :: acc else acc)
  | (t, TReset a) :: evs' =>
      marks_from dl al kn l evs'
        (if memb l (upto_unknown kn (named dl al kn a)) then (MReset, t) :: acc else acc)
  end.

(** Tick [x] (the time from [x] to [x+1]) is charged iff no later reset wiped it and the last mark at or before [x] is a
    start. *)
Fixpoint charged (h : list (mark * Z)) (x : Z) : bool :=
  match h with
  | [] => false
  | (m, t) :: h' =>
      if t <=? x then match m with MStart => true | _ => false end
      else match m with MReset => false | _ => charged h' x end
  end.

(** Number of ticks in [lo, lo+n) with a property. *)
Fixpoint ticks (f : Z -> bool) (lo : Z) (n : nat) : Z :=
  match n with
  | O => 0
  | S n' => (if f lo then 1 else 0) + ticks f (lo + 1) n'
  end.

(** Number of charged ticks from [lo] until [now]. *)
Definition charged_time (h : list (mark * Z)) (lo now : Z) : Z := ticks (charged h) lo (Z.to_nat (now - lo)).

(** Clock readings do not decrease. *)
Fixpoint nondecreasing (lo : Z) (evs : list (Z * top)) : Prop :=
  match evs with
  | [] => True
  | (t, _) :: evs' => lo <= t /\ nondecreasing t evs'
  end.

Definition last_time (lo : Z) (evs : list (Z * top)) : Z := fold_left (fun _ ev => fst ev) evs lo.
