(** Several ParConvBPDN objects in one process (parcbpdn.py 599-724, 728-835): the arrays and parameters of the steps are
    variables of the module, set by the constructor; each object keeps its iteration number and its options. *)
Require Import Reals List Arith Bool.
Require Import Verif.RVec Verif.InterModel Verif.ParModel Verif.ParLoop.
Import ListNotations.
Local Open Scope R_scope.

(** Starting values among the options (649-679). *)
Record starts := mkStarts { sY0 : option (nat -> nat -> R); sY1 : option (nat -> nat -> R);
                            sU0 : option (nat -> nat -> R); sU1 : option (nat -> nat -> R) }.

(** The module: parameters and arrays, and whether mp_Y0, mp_Y1, mp_U0, mp_U1 have been created (before that they are None,
    65-72). *)
Record world := mkWorld { w_c : params; w_m : pmem; w_Y0 : bool; w_Y1 : bool; w_U0 : bool; w_U1 : bool; w_k : nat -> nat }.

(** The constructor.  With a starting value the array goes to the variable Y0 (not mp_Y0) of the module (650), so that
    mp_Y0 keeps what it was; without one mp_Y0 is a new array of zeros (654).  [x0] is the initial value of mp_X (641).
    The other arrays are new and zero. *)
Definition is_some {A} (o : option A) : bool := match o with Some _ => true | None => false end.
Definition construct (j : nat) (c : params) (x0 : nat -> nat -> R) (o : starts) (w : world) : world :=
  mkWorld c
    (fun l => match l with
       | F AX f p => x0 f p
       | G AY0 _ _ => if is_some (sY0 o) then w_m w l else 0
       | F AY1 _ _ => if is_some (sY1 o) then w_m w l else 0
       | G AU0 _ _ => if is_some (sU0 o) then w_m w l else 0
       | F AU1 _ _ => if is_some (sU1 o) then w_m w l else 0
       | _ => 0
       end)
    (if is_some (sY0 o) then w_Y0 w else true) (if is_some (sY1 o) then w_Y1 w else true)
    (if is_some (sU0 o) then w_U0 w else true) (if is_some (sU1 o) then w_U1 w else true)
    (upd (w_k w) j O).

(** solve of object [j]; None: TypeError ('NoneType' object is not subscriptable).  The result is self.Y (830). *)
Definition solve_obj (j : nat) (a : call) (w : world) : option (world * (nat -> nat -> R)) :=
  if w_Y0 w && w_Y1 w && w_U0 w && w_U1 w then
    let '(k, m) := do_call (w_c w) a (w_k w j, w_m w) in
    Some (mkWorld (w_c w) m (w_Y0 w) (w_Y1 w) (w_U0 w) (w_U1 w) (upd (w_k w) j k), fun f p => m (F AY1 f p))
  else None.

(** Calls of solve on one object, one after the other: all results. *)
Fixpoint solves (j : nat) (l : list call) (w : world) : option (world * list (nat -> nat -> R)) :=
  match l with
  | [] => Some (w, [])
  | a :: r =>
      match solve_obj j a w with
      | None => None
      | Some (w', y) => match solves j r w' with None => None | Some (w'', ys) => Some (w'', y :: ys) end
      end
  end.
