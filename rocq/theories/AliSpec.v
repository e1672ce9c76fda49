(** What a caller may rely on about the arrays a solver shares with them.
    Stated over executions of the programs of AliModel only: no analysis is
    mentioned. *)
From Coq Require Import List String.
From Verif Require Import AliModel.
Import ListNotations.

Section Spec.
  Variable V : Type.

  (** Before the constructor is called only the caller's arrays exist; two
      arguments may be the same array. *)
  Definition caller_state (p : prog) (s : st V) : Prop :=
    (forall a l, env s a = Some l -> In a (args p) /\ l < next s).

  (** n iterations of solve(), possibly over several calls *)
  Inductive iters (p : prog) : nat -> st V -> st V -> Prop :=
  | iters_0 : forall s, iters p 0 s s
  | iters_S : forall n s t u, run (body p) s t -> iters p n t u -> iters p (S n) s u.

  (** The object after the constructor and n iterations *)
  Definition reached (p : prog) (n : nat) (s0 s : st V) : Prop :=
    caller_state p s0 /\ exists s1, run (init p) s0 s1 /\ iters p n s1 s.

  (** The arrays passed in by the caller have the same content after any
      number of iterations as before the constructor was called. *)
  Definition keeps_args (p : prog) : Prop :=
    forall n s0 s a l,
      reached p n s0 s -> In a (args p) -> env s0 a = Some l -> heap s l = heap s0 l.

  (** An array handed out after n >= k iterations has the same content after any
      number of further iterations. *)
  Definition keeps_results_from (k : nat) (p : prog) : Prop :=
    forall n m s0 s s' r l,
      k <= n -> reached p n s0 s -> In r (results p) -> env s r = Some l ->
      iters p m s s' -> heap s' l = heap s l.

  (** The copies of the previous iterate made at the start of an iteration are
      still intact at its end. *)
  Definition keeps_prevs (p : prog) : Prop :=
    forall n s0 s t u a l,
      reached p n s0 s -> run (pre p) s t -> In a (prevs p) -> env t a = Some l ->
      run (post p) t u -> env u a = Some l /\ heap u l = heap t l.

  (** Two pieces of code with the same executions. *)
  Definition same_runs (c d : cmd) : Prop := forall s t : st V, run c s t <-> run d s t.

  (** If the rest of an iteration consists of the parts c1 and c2, then the arrays [xs] as c1
      leaves them are still intact at the end of the iteration. *)
  Definition keeps_midway (p : prog) (c1 c2 : cmd) (xs : list attr) : Prop :=
    same_runs (post p) (c1 ;; c2) /\
    forall n s0 s t u a l,
      reached p n s0 s -> run (pre p ;; c1) s t -> In a xs -> env t a = Some l ->
      run c2 t u -> env u a = Some l /\ heap u l = heap t l.

  (** An execution in which an array handed out after n iterations is different
      after one more. *)
  Definition overwrites (p : prog) (n : nat) (r : attr) : Prop :=
    exists s0 s s' l, reached p n s0 s /\ env s r = Some l /\ iters p 1 s s' /\
                      heap s' l <> heap s l.
End Spec.
