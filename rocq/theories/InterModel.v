(** Model of a phase of parallel work on shared arrays: pool.map(f, range(n)) (multiprocessing.Pool.map as called in
    sporco/admm/parcbpdn.py 868 and sporco/dictlrn/prlcnscdl.py 508, 1074).  The arrays are in shared memory (RawArray,
    parcbpdn.py 90-111, prlcnscdl.py 69-89).  Each task is a sequence of actions; the workers execute the actions of the
    tasks in any interleaving that keeps the order within each task, and the call returns when all are finished.  The
    splitting of the task list over the workers (the chunk size) restricts the interleavings further. *)
Require Import List Arith Bool.
Import ListNotations.

Section Inter.
Variables (L V : Type).
Definition mem := L -> V.
Definition act := mem -> mem.

(** A task run on its own. *)
Definition exec (p : list act) (m : mem) : mem := fold_left (fun m a => a m) p m.

Definition upd {T} (f : nat -> T) (i : nat) (x : T) : nat -> T := fun j => if Nat.eqb j i then x else f j.

(** A schedule lists the tasks whose next action is executed; the result is the memory and what is left of each task. *)
Fixpoint run (sched : list nat) (progs : nat -> list act) (m : mem) : (nat -> list act) * mem :=
  match sched with
  | [] => (progs, m)
  | i :: s =>
      match progs i with
      | [] => run s progs m
      | a :: p => run s (upd progs i p) (a m)
      end
  end.

(** All tasks are finished. *)
Definition complete (n : nat) (sched : list nat) (progs : nat -> list act) (m : mem) : Prop :=
  forall i, i < n -> fst (run sched progs m) i = [].

(** [f(i) for i in range(n)] (parcbpdn.py 866; prlcnscdl.py 505-506, 1071-1072). *)
Definition sequential (n : nat) (progs : nat -> list act) (m : mem) : mem :=
  fold_left (fun m i => exec (progs i) m) (seq 0 n) m.
End Inter.
Arguments exec {L V}.
Arguments run {L V}.
Arguments complete {L V}.
Arguments sequential {L V}.
