(** Tasks made of numpy assignments to (slices of) shared arrays, with private memory for the right hand sides; see
    InterModel.v for the execution of several tasks. *)
Require Import Reals List Arith Bool.
Require Import Verif.InterModel.
Import ListNotations.

Section Assign.
Variable L : Type.
Variable eqb : L -> L -> bool.

(** A variable (element of a shared array), or the private memory of task [i] for the value computed for a variable. *)
Inductive xloc := V (l : L) | T (i : nat) (l : L).
Definition xeqb (a b : xloc) : bool :=
  match a, b with V x, V y => eqb x y | T i x, T j y => Nat.eqb i j && eqb x y | _, _ => false end.

Notation xmem := (mem xloc R).
Definition vars (m : xmem) : L -> R := fun l => m (V l).
Definition xset (l : xloc) (v : R) (m : xmem) : xmem := fun l' => if xeqb l' l then v else m l'.

(** array[slice] = expression: elements to be written, and the value of the expression for each as a function of the variables. *)
Record stmt := mkStmt { dst : list L; rhs : (L -> R) -> L -> R }.

(** The elements are computed one by one, then stored one by one. *)
Definition calc (i : nat) (e : (L -> R) -> L -> R) (l : L) : act xloc R := fun m => xset (T i l) (e (vars m) l) m.
Definition store (i : nat) (l : L) : act xloc R := fun m => xset (V l) (m (T i l)) m.
Definition compile1 (i : nat) (s : stmt) : list (act xloc R) := map (calc i (rhs s)) (dst s) ++ map (store i) (dst s).
Definition compile (i : nat) (p : list stmt) : list (act xloc R) := flat_map (compile1 i) p.

(** Effect of statements executed without interference. *)
Definition inl (l : L) (d : list L) : bool := existsb (eqb l) d.
Definition do_stmt (s : stmt) (v : L -> R) : L -> R := fun l => if inl l (dst s) then rhs s v l else v l.
Definition do_prog (p : list stmt) (v : L -> R) : L -> R := fold_left (fun v s => do_stmt s v) p v.
(** The tasks 0, ..., n-1 one after the other. *)
Definition do_seq (n : nat) (p : nat -> list stmt) (v : L -> R) : L -> R := fold_left (fun v i => do_prog (p i) v) (seq 0 n) v.
End Assign.
Arguments V {L}.
Arguments T {L}.
Arguments vars {L}.
Arguments mkStmt {L}.
Arguments dst {L}.
Arguments rhs {L}.
Arguments calc {L}.
Arguments store {L}.
Arguments compile {L}.
Arguments compile1 {L}.
Arguments xeqb {L}.
Arguments xset {L}.
Arguments inl {L}.
Arguments do_stmt {L}.
Arguments do_prog {L}.
Arguments do_seq {L}.
