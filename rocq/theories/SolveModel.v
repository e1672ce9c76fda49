(** Model of the main loops: ADMM.solve (sporco/admm/admm.py 293-389), PGM.solve (sporco/pgm/pgm.py 284-382) and
    DictLearn.solve (sporco/dictlrn/dictlrn.py 287-375), with their timers (sporco/util.py 574-803).

    The arrays of a solver are an abstract state [St]; the sub-steps are parameters.  Simplifications: display output is
    left out; a callback may change the arrays but not the iteration counter, the statistics or the timer; exceptions
    raised by sub-steps are left out; the option IterTimer names a label of the timer (otherwise [elapsed] raises KeyError,
    which shows here as a [None] time). *)
Require Import String List Bool ZArith.
Require Import Verif.TimerModel.
Import ListNotations.
Local Open Scope string_scope.
Local Open Scope list_scope.

Section Solve.
Context {St Stat Num : Type}.
Variable ltb : Num -> Num -> bool.           (* Python < on numbers; false if one of them is NaN *)
Variable clock : nat -> Z.                   (* the successive readings of timeit.default_timer *)

(** Attributes of a solver object: arrays, counter k (j for dictionary learning), itstat, timer; [ck] counts clock
    readings. *)
Record sol := mkSol { it : St; cnt : nat; itstat : list (nat * Stat * option Z); tm : timer; ck : nat }.

Definition set_it (i : St) (s : sol) := mkSol i (cnt s) (itstat s) (tm s) (ck s).
Definition set_cnt (k : nat) (s : sol) := mkSol (it s) k (itstat s) (tm s) (ck s).
Definition tstart (ls : list label) (s : sol) :=
  mkSol (it s) (cnt s) (itstat s) (start (clock (ck s)) (tm s) (LMany ls)) (S (ck s)).
Definition tstop (ls : list label) (s : sol) :=
  mkSol (it s) (cnt s) (itstat s) (fst (stop (clock (ck s)) (tm s) (LMany ls))) (S (ck s)).
(** self.itstat.append(...): the record has the iteration number, the values and the elapsed time. *)
Definition append_stat (label : label) (v : Stat) (s : sol) :=
  mkSol (it s) (cnt s) (itstat s ++ [(cnt s, v, elapsed (clock (ck s)) (tm s) (Some label) true)]) (tm s) (S (ck s)).

(** Options that control the loop. *)
Record opts := mkOpts {
  maxiter : nat;                                (* MaxMainIter; a negative value makes the range empty, as 0 does *)
  autorho : bool;                               (* AutoRho.Enabled (ADMM) *)
  btrack : bool;                                (* Backtrack is not None (PGM) *)
  fast : bool;                                  (* FastSolve *)
  itimer : label;                               (* IterTimer *)
  callback : option (nat -> St -> St * bool)    (* Callback: sees the counter, may change arrays, truthy result stops *)
}.

(** for self.k in range(self.k, self.k + n): body  -- with break. *)
Fixpoint pyfor (body : sol -> sol * bool) (n k : nat) (s : sol) : sol :=
  match n with
  | O => s
  | S n' => let '(s', brk) := body (set_cnt k s) in if brk then s' else pyfor body n' (S k) s'
  end.

(** if self.opt['Callback'] is not None: if self.opt['Callback'](self): break *)
Definition run_callback (o : opts) (s : sol) : sol * bool :=
  match callback o with
  | None => (s, false)
  | Some f => let '(i, b) := f (cnt s) (it s) in (set_it i s, b)
  end.

(** ** ADMM *)
Variable sweep : nat -> St -> St.                            (* Yprev copy, xstep, relax_AX, ystep, ustep: lines 334-346 *)
Variable residuals : St -> Num * Num * Num * Num.            (* compute_residuals: r, s, epri, edua; lines 462-486 *)
Variable stats : nat -> St -> option (Num * Num * Num * Num) -> Stat.   (* iteration_stats, lines 511-517 *)
Variable update_rho : opts -> nat -> Num -> Num -> St -> St. (* lines 549-575 *)

Definition admm_labels := ["solve"; "solve_wo_func"; "solve_wo_rsdl"].

(** One pass through the loop body (admm.py 334-377). *)
Definition admm_body (o : opts) (s0 : sol) : sol * bool :=
  let s := set_it (sweep (cnt s0) (it s0)) s0 in
  let s := tstop ["solve_wo_rsdl"] s in                                         (* 349 *)
  let res := residuals (it s) in                                                (* 350-351, used only under the same test *)
  let have := autorho o || negb (fast o) in
  let s := tstart ["solve_wo_rsdl"] s in                                        (* 352 *)
  let s := tstop ["solve_wo_func"; "solve_wo_rsdl"] s in                        (* 356 *)
  let s := if fast o then s else append_stat (itimer o) (stats (cnt s) (it s) (Some res)) s in   (* 357-359 *)
  let s := tstart ["solve_wo_func"; "solve_wo_rsdl"] s in                       (* 361 *)
  let s := tstop ["solve_wo_rsdl"] s in                                         (* 364 *)
  let '(r, d, epri, edua) := res in
  let s := if have then set_it (update_rho o (cnt s) r d (it s)) s else s in    (* 365-366 *)
  let s := tstart ["solve_wo_rsdl"] s in                                        (* 367 *)
  let '(s, brk) := run_callback o s in                                          (* 370-372 *)
  if brk then (s, true)
  else (s, have && (ltb r epri && ltb d edua)).                                 (* 375-377 *)

Definition admm_solve (o : opts) (s : sol) : sol :=
  let s := tstart admm_labels s in                                              (* 328 *)
  let s := pyfor (admm_body o) (maxiter o) (cnt s) s in                         (* 331 *)
  let s := set_cnt (S (cnt s)) s in                                             (* 381 *)
  tstop admm_labels s.                                                          (* 384 *)

(** ** PGM *)
Variable pgm_start : nat -> St -> St.                        (* on_iteration_start, lines 485-496 *)
Variable pgm_xy : nat -> St -> St.                           (* xstep and ystep, lines 341-343 *)
Variable pgm_bt : nat -> St -> St.                           (* backtrack.update, line 337 *)
Variable pgm_res : nat -> St -> Num * Num.                   (* compute_residuals, lines 506-515 *)

Definition pgm_labels := ["solve"; "solve_wo_func"; "solve_wo_rsdl"; "solve_wo_btrack"].

(** One pass (pgm.py 331-370). *)
Definition pgm_body (o : opts) (s0 : sol) : sol * bool :=
  let s := set_it (pgm_start (cnt s0) (it s0)) s0 in                            (* 331 *)
  let s := if btrack o
           then let s := tstop ["solve_wo_btrack"] s in                         (* 335 *)
                let s := set_it (pgm_bt (cnt s) (it s)) s in                    (* 337 *)
                tstart ["solve_wo_btrack"] s                                    (* 338 *)
           else set_it (pgm_xy (cnt s) (it s)) s in                             (* 341-343 *)
  let s := tstop ["solve_wo_rsdl"; "solve_wo_btrack"] s in                      (* 346 *)
  let '(frcxd, tol) := pgm_res (cnt s) (it s) in                                (* 347-348 *)
  let s := tstart ["solve_wo_rsdl"] s in                                        (* 349 *)
  let s := tstop ["solve_wo_func"; "solve_wo_rsdl"; "solve_wo_btrack"] s in     (* 353 *)
  let s := if fast o then s
           else append_stat (itimer o) (stats (cnt s) (it s) (Some (frcxd, frcxd, tol, tol))) s in  (* 355-357 *)
  let s := tstart ["solve_wo_func"; "solve_wo_rsdl"; "solve_wo_btrack"] s in    (* 359 *)
  let '(s, brk) := run_callback o s in                                          (* 363-365 *)
  if brk then (s, true)
  else (s, negb (fast o) && ltb frcxd tol).                                     (* 368-370 *)

Definition pgm_solve (o : opts) (s : sol) : sol :=
  let s := tstart pgm_labels s in                                               (* 324 *)
  let s := pyfor (pgm_body o) (maxiter o) (cnt s) s in                          (* 328 *)
  let s := set_cnt (S (cnt s)) s in                                             (* 373 *)
  tstop pgm_labels s.                                                           (* 376 *)

(** ** Dictionary learning *)
Variable dl_steps : nat -> St -> St.                         (* xstep.solve, post_xstep, dstep.solve, post_dstep: 329-334 *)
Definition dl_labels := ["solve"; "solve_wo_eval"].

(** One pass (dictlrn.py 329-361); the statistics are always recorded. *)
Definition dl_body (o : opts) (s0 : sol) : sol * bool :=
  let s := set_it (dl_steps (cnt s0) (it s0)) s0 in
  let s := tstop ["solve_wo_eval"] s in                                         (* 337 *)
  let s := tstart ["solve_wo_eval"] s in                                        (* 339 *)
  let s := append_stat (itimer o) (stats (cnt s) (it s) None) s in              (* 342-352 *)
  run_callback o s.                                                             (* 359-361 *)

Definition dl_solve (o : opts) (s : sol) : sol :=
  let s := tstart dl_labels s in                                                (* 323 *)
  let s := pyfor (dl_body o) (maxiter o) (cnt s) s in                           (* 326 *)
  let s := set_cnt (S (cnt s)) s in                                             (* 365 *)
  tstop dl_labels s.                                                            (* 368 *)

(** A new solver object: __new__ creates the timer and starts 'init' (admm.py 201-208, pgm.py 205-212, dictlrn.py
    232-238), __init__ sets the counter to 0 and the statistics to [] , the metaclass stops 'init' (common.py 107-114,
    dictlrn.py 176-183). *)
Definition new_solver (labels : list label) (i : St) : sol :=
  let s := mkSol i 0 [] (new "main" "all" ("init" :: labels)) 0 in
  tstop ["init"] (tstart ["init"] s).

(** A history of solve calls, with the options that are current at each call. *)
Definition solves (solve : opts -> sol -> sol) (os : list opts) (s : sol) : sol :=
  fold_left (fun s o => solve o s) os s.
End Solve.
Arguments sol : clear implicits.
Arguments opts : clear implicits.
