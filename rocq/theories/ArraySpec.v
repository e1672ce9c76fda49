(** Independent statements about array views and blocks. *)
Require Import String List Arith ZArith Reals.
Require Import Verif.NdIndex Verif.ArrayModel.
Import ListNotations.
Local Open Scope nat_scope.

(** Position in the signal of element [i] of the block at grid position [p] on the blocked axes and [q] on the others. *)
Definition at_block (stp i p q : list nat) : list nat := map2 Nat.add i (map2 Nat.mul p stp) ++ q.

(** The block at grid position [pos] covers the signal position [idx], at its element [i]. *)
Definition covers (blksz stp pos idx i : list nat) : Prop :=
  exists p q, pos = p ++ q /\ length p = length blksz /\ inb blksz i /\ idx = at_block stp i p q.

(** The block at [pos] lies inside a signal of shape [imgsz]. *)
Definition block_inside (imgsz blksz stp pos : list nat) : Prop :=
  exists p q, pos = p ++ q /\ length p = length blksz /\ forall i, inb blksz i -> inb imgsz (at_block stp i p q).

Fixpoint rsum (l : list R) : R := match l with [] => 0%R | x :: r => (x + rsum r)%R end.
Definition mean (l : list R) : R := (rsum l / INR (length l))%R.

(** What the code relies on in np.pad with padding only after the data: the shape grows by the padding, the elements are
    unchanged, there is a stride for each axis. *)
Definition pad_contract {A} (pad : sarr A -> list nat -> sarr A) : Prop :=
  forall x p, length p = length (sshape x) ->
    sshape (pad x p) = map2 Nat.add (sshape x) p /\ length (strides (pad x p)) = length (sshape x) /\
    forall idx, inb (sshape x) idx -> sget (pad x p) idx = sget x idx.

(** np.pad in mode 'wrap' into a new C-order buffer. *)
Fixpoint cstrides (s : list nat) : list Z := match s with [] => [] | n :: r => Z.of_nat (prod r) :: cstrides r end.
Definition pad_wrap {A} (x : sarr A) (p : list nat) : sarr A :=
  let s := map2 Nat.add (sshape x) p in
  mksarr s (cstrides s) 0 (fun z => sget x (map2 Nat.modulo (unravel s (Z.to_nat z)) (sshape x))).

(** Every valid index of view [y] addresses an element of the buffer of [x]. *)
Definition inside {A} (y x : sarr A) : Prop :=
  mem y = mem x /\ forall idx, inb (sshape y) idx -> exists k, inb (sshape x) k /\ addr y idx = addr x k.
