(** Indices inside a shape, and a list with one position replaced. *)
Require Import List Arith.
Import ListNotations.
Definition within (s i : list nat) : Prop := Forall2 (fun d k => (k < d)%nat) s i.
Fixpoint replaced (a k : nat) (l : list nat) : list nat :=
  match a, l with _, [] => [] | O, _ :: t => k :: t | S a, h :: t => h :: replaced a k t end.
Fixpoint without (a : nat) (l : list nat) : list nat :=
  match a, l with _, [] => [] | O, _ :: t => t | S a, h :: t => h :: without a t end.
