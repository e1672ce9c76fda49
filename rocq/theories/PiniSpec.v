(** What a user expects of the initial value options, and the array each variable really holds, described from the history alone. *)
Require Import List Arith Reals String.
Require Import Verif.PiniModel.
Import ListNotations.
Local Open Scope string_scope.

(** The documented meaning: the value of the option, or zero. *)
Definition expected (o : option arr) (shp : list nat) : arr := match o with Some v => v | None => mkArr shp (fun _ => 0%R) end.

(** The four variables: which option sets them and which shape they have. *)
Inductive var : Type := VY0 | VY1 | VU0 | VU1.
Definition option_of (q : var) (c : conf) : option arr := match q with VY0 => optY0 c | VY1 => optY1 c | VU0 => optU0 c | VU1 => optU1 c end.
Definition shape_of (q : var) (c : conf) : list nat := match q with VY0 | VU0 => shpY0 c | VY1 | VU1 => shpX c end.
Definition name_of (q : var) : string := match q with VY0 => "mp_Y0" | VY1 => "mp_Y1" | VU0 => "mp_U0" | VU1 => "mp_U1" end.

(** Reading the history backwards (latest event first): the array allocated by the latest construction without the option,
    with the entries that the latest solve after it left there. *)
Fixpoint left_behind (q : var) (rev_es : list event) : option arr :=
  match rev_es with
  | [] => None
  | Construct c :: es => match option_of q c with None => Some (mkArr (shape_of q c) (fun _ => 0%R)) | Some _ => left_behind q es end
  | Solve f :: es => match left_behind q es with Some a => Some (mkArr (shape a) (f (name_of q))) | None => None end
  end.
