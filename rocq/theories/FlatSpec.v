(** Flattening an array so that the chosen axes become the second axis: what the result must be, without reference to transposition. *)
Require Import List Arith.
Require Import Verif.NdIndex.
Import ListNotations.
(** Two indices agree on the axes satisfying [P]. *)
Definition agree_on (P : nat -> Prop) (i j : list nat) : Prop := forall a, P a -> nth a i 0 = nth a j 0.
(** [y] (two axes, P x Q) holds the entries of [x], every entry exactly once; two entries are in the same row exactly if their indices in [x]
    agree outside the chosen axes, and in the same column exactly if they agree on the chosen axes. [phi] tells where an entry comes from. *)
Definition flattened {A} (x y : arr A) (ax : list nat) (phi : nat -> nat -> list nat) : Prop :=
  exists P Q, shape y = [P; Q] /\
  (forall r q, r < P -> q < Q -> inb (shape x) (phi r q) /\ get y [r; q] = get x (phi r q)) /\
  (forall idx, inb (shape x) idx -> exists r q, r < P /\ q < Q /\ phi r q = idx) /\
  (forall r q r' q', r < P -> q < Q -> r' < P -> q' < Q ->
     (r = r' <-> agree_on (fun a => ~ In a ax) (phi r q) (phi r' q')) /\ (q = q' <-> agree_on (fun a => In a ax) (phi r q) (phi r' q'))).
