(** Vocabulary for the statements about grid search, independent of the model. *)
Require Import List Arith.
Import ListNotations.

(** [selects grd idx p]: p is the grid point with index vector idx. *)
Inductive selects {A} : list (list A) -> list nat -> list A -> Prop :=
| sel_nil : selects [] [] []
| sel_cons : forall g gs i is a p, nth_error g i = Some a -> selects gs is p -> selects (g :: gs) (i :: is) (a :: p).

(** Lexicographic order of index vectors. *)
Inductive lex : list nat -> list nat -> Prop :=
| lex_head : forall i j is js, i < j -> lex (i :: is) (j :: js)
| lex_tail : forall i is js, lex is js -> lex (i :: is) (i :: js).

(** Position of an index vector in a row-major table (Horner form, accumulator initially 0). *)
Fixpoint row_major (shape idx : list nat) (acc : nat) : nat :=
  match shape, idx with
  | n :: ns, i :: is => row_major ns is (acc * n + i)
  | _, _ => acc
  end.

Definition strict_weak_order {V} (lt : V -> V -> bool) : Prop :=
  (forall a, lt a a = false) /\
  (forall a b c, lt a b = true -> lt b c = true -> lt a c = true) /\
  (forall a b c, lt a b = false -> lt b c = false -> lt a c = false).

(** What a user expects of the four results: the parameters are a grid point, with its index vector and its (non-NaN)
    value; the table holds the value of every grid point at its row-major position; no grid point has a better value;
    and every lexicographically earlier grid point with a value is strictly worse. *)
Definition optimum {V A} (better : V -> V -> bool) (fn : list A -> option V) (grd : list (list A))
    (prm : option (list A)) (val : option V) (table : list (option V)) (idx : list nat) : Prop :=
  exists p v,
    prm = Some p /\ val = Some v /\ selects grd idx p /\ fn p = Some v /\
    (forall idx' q, selects grd idx' q ->
        nth_error table (row_major (map (@length A) grd) idx' 0) = Some (fn q)) /\
    (forall idx' q w, selects grd idx' q -> fn q = Some w -> better w v = false) /\
    (forall idx' q w, lex idx' idx -> selects grd idx' q -> fn q = Some w -> better v w = true).
