(** How the constructor of ParConvBPDN (sporco/admm/parcbpdn.py 638-683) sets the module globals mp_Y0, mp_Y1, mp_U0 and mp_U1 that
    solve works on, and how they persist between objects of one process.  An array is a shape and its entries in C order; the
    axis permutation (np.moveaxis) of the option values is the identity here. *)
Require Import List Arith Reals Bool String.
Import ListNotations.
Local Open Scope string_scope.
Local Open Scope list_scope.

Record arr : Type := mkArr { shape : list nat; entries : nat -> R }.
(** The globals of the module: None is Python's None (lines 64-67) or an unbound name. *)
Definition globals : Type := string -> option arr.
Definition assign (g : globals) (nm : string) (v : arr) : globals := fun k => if String.eqb k nm then Some v else g k.
Definition module_loaded : globals := fun _ => None.

(** mpraw_as_np (84-112): a new shared array, zero as multiprocessing.RawArray initialises it. *)
Definition mpraw_as_np (shp : list nat) : arr := mkArr shp (fun _ => 0%R).
(** init_mpraw (115-128). *)
Definition init_mpraw (nm : string) (v : arr) (g : globals) : globals := assign g nm v.

(** The options that matter here, and the shapes shp_Y0 (646-648: ngrp groups of the size of the signal) and shp_X (642). *)
Record conf : Type := mkConf { shpY0 : list nat; shpX : list nat; optY0 : option arr; optY1 : option arr; optU0 : option arr; optU1 : option arr }.

(** Lines 645-654, 657-663, 666-672 and 673-679. *)
Definition set_Y0 (c : conf) (g : globals) : globals :=
  match optY0 c with Some v => init_mpraw "Y0" v g | None => assign g "mp_Y0" (mpraw_as_np (shpY0 c)) end.
Definition set_Y1 (c : conf) (g : globals) : globals :=
  match optY1 c with Some v => init_mpraw "Y1" v g | None => assign g "mp_Y1" (mpraw_as_np (shpX c)) end.
Definition set_U0 (c : conf) (g : globals) : globals :=
  match optU0 c with Some v => init_mpraw "U0" v g | None => assign g "mp_U0" (mpraw_as_np (shpY0 c)) end.
Definition set_U1 (c : conf) (g : globals) : globals :=
  match optU1 c with Some v => init_mpraw "U1" v g | None => assign g "mp_U1" (mpraw_as_np (shpX c)) end.
Definition construct (c : conf) (g : globals) : globals := set_U1 c (set_U0 c (set_Y1 c (set_Y0 c g))).

(** What solve starts from: lines 770-771 and par_xstep (145-147) read the four globals, and nothing else is read of the initial
    values.  Reading None raises TypeError; arrays of another shape than that of the object are not followed further. *)
Inductive started : Type := TypeError | OtherShape | Start (y0 y1 u0 u1 : arr).
Definition start (c : conf) (g : globals) : started :=
  match g "mp_Y0", g "mp_Y1", g "mp_U0", g "mp_U1" with
  | Some y0, Some y1, Some u0, Some u1 =>
      if (list_eq_dec Nat.eq_dec (shape y0) (shpY0 c)) then if (list_eq_dec Nat.eq_dec (shape y1) (shpX c)) then
      if (list_eq_dec Nat.eq_dec (shape u0) (shpY0 c)) then if (list_eq_dec Nat.eq_dec (shape u1) (shpX c)) then Start y0 y1 u0 u1
      else OtherShape else OtherShape else OtherShape else OtherShape
  | _, _, _, _ => TypeError
  end.

(** One process: objects are constructed, and solved, which overwrites the entries of the four arrays in place with what the
    iterations leave in them ([f] for each of the four). *)
Inductive event : Type := Construct (c : conf) | Solve (f : string -> nat -> R).
Definition overwrite (nm : string) (f : nat -> R) (g : globals) : globals :=
  match g nm with Some a => assign g nm (mkArr (shape a) f) | None => g end.
Definition happens (e : event) (g : globals) : globals :=
  match e with
  | Construct c => construct c g
  | Solve f => overwrite "mp_U1" (f "mp_U1") (overwrite "mp_U0" (f "mp_U0") (overwrite "mp_Y1" (f "mp_Y1") (overwrite "mp_Y0" (f "mp_Y0") g)))
  end.
Fixpoint history (es : list event) (g : globals) : globals :=
  match es with [] => g | e :: es => history es (happens e g) end.
