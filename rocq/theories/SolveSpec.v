(** Specification for the main loops: the sequence of states that the documented iteration produces, and the documented
    reasons for stopping, without counters, statistics or timers. *)
Require Import String List Bool ZArith Arith.
Require Import Verif.TimerModel Verif.SolveModel.
Import ListNotations.
Local Open Scope list_scope.

Section Spec.
Context {St Num : Type}.

(** Iteration numbers of the recorded statistics. *)
Definition numbers {Stat} (s : sol St Stat) : list nat := map (fun r => fst (fst r)) (itstat s).

(** State after [j] iterations, the first of which has number [k0]. *)
Fixpoint after (iter : nat -> St -> St) (k0 : nat) (i0 : St) (j : nat) : St :=
  match j with
  | O => i0
  | S j' => iter (k0 + j') (after iter k0 i0 j')
  end.

(** [m] is the number of iterations that a call with at most [n] iterations has to perform: all iterations before the
    last one give no reason to stop, and the last one gives a reason or is number [n]. *)
Definition performs (iter : nat -> St -> St) (reason : nat -> St -> Prop) (k0 : nat) (i0 : St) (n m : nat) : Prop :=
  1 <= m <= n /\
  (forall j, S j < m -> ~ reason (k0 + j) (after iter k0 i0 j)) /\
  (m < n -> reason (k0 + (m - 1)) (after iter k0 i0 (m - 1))).

Variable ltb : Num -> Num -> bool.

(** What the callback makes of the arrays, and its answer. *)
Definition cb_state (o : opts St) (k : nat) (i : St) : St :=
  match callback o with None => i | Some f => fst (f k i) end.
Definition cb_true (o : opts St) (k : nat) (i : St) : Prop :=
  exists f, callback o = Some f /\ snd (f k i) = true.

(** ADMM: sweep, then penalty update if residuals are computed, then callback. *)
Section Admm.
Variable sweep : nat -> St -> St.
Variable residuals : St -> Num * Num * Num * Num.
Variable update_rho : opts St -> nat -> Num -> Num -> St -> St.
Definition checked (o : opts St) : Prop := autorho o = true \/ fast o = false.
Definition admm_pre (o : opts St) (k : nat) (i : St) : St :=
  let i1 := sweep k i in
  let '(r, d, _, _) := residuals i1 in
  if autorho o || negb (fast o) then update_rho o k r d i1 else i1.
Definition admm_iter (o : opts St) (k : nat) (i : St) : St := cb_state o k (admm_pre o k i).
Definition admm_reason (o : opts St) (k : nat) (i : St) : Prop :=
  cb_true o k (admm_pre o k i) \/
  (checked o /\ let '(r, d, epri, edua) := residuals (sweep k i) in ltb r epri = true /\ ltb d edua = true).
End Admm.

(** PGM: start of iteration, x and y updates with or without backtracking, callback. *)
Section Pgm.
Variables pgm_start pgm_xy pgm_bt : nat -> St -> St.
Variable pgm_res : nat -> St -> Num * Num.
Definition pgm_pre (o : opts St) (k : nat) (i : St) : St :=
  (if btrack o then pgm_bt else pgm_xy) k (pgm_start k i).
Definition pgm_iter (o : opts St) (k : nat) (i : St) : St := cb_state o k (pgm_pre o k i).
Definition pgm_reason (o : opts St) (k : nat) (i : St) : Prop :=
  cb_true o k (pgm_pre o k i) \/
  (fast o = false /\ let '(r, tol) := pgm_res k (pgm_pre o k i) in ltb r tol = true).
End Pgm.

Section Dl.
Variable dl_steps : nat -> St -> St.
Definition dl_iter (o : opts St) (k : nat) (i : St) : St := cb_state o k (dl_steps k i).
Definition dl_reason (o : opts St) (k : nat) (i : St) : Prop := cb_true o k (dl_steps k i).
End Dl.
End Spec.
