(** Parallel consensus dictionary learning: /repo/sporco/dictlrn/prlcnscdl.py. Arrays in shared memory are flattened to real elements
    (a complex element is two real elements); transforms, linear solvers and the projection are parameters. *)
Require Import Reals List Arith Bool.
Require Import Verif.RVec Verif.ProxModel Verif.InterModel Verif.AssignModel.
Import ListNotations.
Local Open Scope R_scope.

(** Arrays with a leading signal axis (lines 49-59, 654-664; ZY, ZU stand for mp_Z_Y1, mp_Z_U1 and DU for mp_D_U0 in the masked variant). *)
Inductive karr := SF | DSF | ZF | ZSF | ZX | ZY | ZU | DX | DU | SS | ZY0 | ZU0 | DZ | DY1 | DU1 | WK.
(** Arrays common to all signals: mp_Df, mp_D_Y (mp_D_Y0) and mp_W when its leading axis has length one. *)
Inductive sarr := DF | DY | WS.
Inductive ploc := K (a : karr) (k p : nat) | S (a : sarr) (p : nat).

Definition karr_eqb (a b : karr) : bool :=
  match a, b with
  | SF, SF | DSF, DSF | ZF, ZF | ZSF, ZSF | ZX, ZX | ZY, ZY | ZU, ZU | DX, DX | DU, DU | SS, SS | ZY0, ZY0 | ZU0, ZU0 | DZ, DZ
  | DY1, DY1 | DU1, DU1 | WK, WK => true
  | _, _ => false
  end.
Definition sarr_eqb (a b : sarr) : bool := match a, b with DF, DF | DY, DY | WS, WS => true | _, _ => false end.
Definition ploc_eqb (x y : ploc) : bool :=
  match x, y with
  | K a k p, K b j q => karr_eqb a b && Nat.eqb k j && Nat.eqb p q
  | S a p, S b q => sarr_eqb a b && Nat.eqb p q
  | _, _ => false
  end.

Notation vec := (nat -> R).
Notation st := (ploc -> R).
(** array[k] and array. *)
Definition kv (v : st) (a : karr) (k : nat) : vec := fun p => v (K a k p).
Definition sv (v : st) (a : sarr) : vec := fun p => v (S a p).

(** Module globals set by the constructor (lines 453-491, 1008-1057). *)
Record pcfg := mkP {
  nK : nat;                                  (* mp_cri.K *)
  ksize : karr -> nat; ssize : sarr -> nat;  (* numbers of elements of the slices and arrays *)
  lmbda : R; xrho : R; drho : R; xrlx : R; drlx : R;
  xsol : vec -> vec -> vec -> vec;           (* lines 159-164: Df, DSf[k], YU to Z_X[k] *)
  zfft : vec -> vec;                         (* line 207 *)
  zs : vec -> vec -> vec;                    (* line 208: Zf[k], Sf[k] to ZSf[k] *)
  dsol : vec -> vec -> vec -> vec;           (* lines 219-221: Zf[k], ZSf[k], YU to D_X[k] *)
  dprox : vec -> vec;                        (* mp_dprox *)
  dfft : vec -> vec;                         (* line 143 *)
  ds : vec -> vec -> vec;                    (* lines 144-148: Df, Sf[k] to DSf[k] *)
  mxsol : vec -> vec -> vec -> vec;          (* lines 687-695: Df, YU0, YU1 to Z_X[k] *)
  mxdx : vec -> vec -> vec -> vec;           (* lines 687-694, 696: Df, YU0, YU1 to DX[k] *)
  mdsol : vec -> vec -> vec -> vec;          (* lines 759-762: Zf[k], YU0, YU1 to D_X[k] *)
  mddx : vec -> vec -> vec -> vec;           (* lines 759-761, 763: Zf[k], YU0, YU1 to DX[k] *)
  wk : bool                                  (* mp_W.shape[0] > 1 *)
}.

Section Tasks.
Variable c : pcfg.
Notation stmt := (stmt ploc).

(** array[k] = e(variables), array[:] = e(variables). *)
Definition kset (a : karr) (k : nat) (e : st -> vec) : stmt :=
  mkStmt (map (K a k) (seq 0 (ksize c a))) (fun v l => match l with K _ _ p => e v p | S _ _ => 0 end).
Definition sset (a : sarr) (e : st -> vec) : stmt :=
  mkStmt (map (S a) (seq 0 (ssize c a))) (fun v l => match l with S _ p => e v p | K _ _ _ => 0 end).
(** array[:] = e for an array with a signal axis: every slice, from the values before the assignment. *)
Definition kall (a : karr) (e : nat -> st -> vec) : stmt :=
  mkStmt (flat_map (fun k => map (K a k) (seq 0 (ksize c a))) (seq 0 (nK c))) (fun v l => match l with K _ k p => e k v p | S _ _ => 0 end).

Definition neq1 (x : R) : bool := negb (eqb x 1).

(** cbpdn_xstep, lines 158-164 *)
Definition cbpdn_xstep (k : nat) : list stmt := [kset ZX k (fun v => xsol c (sv v DF) (kv v DSF k) (fun p => kv v ZY k p - kv v ZU k p))].
(** cbpdn_relax, line 174 *)
Definition cbpdn_relax (k : nat) : list stmt := [kset ZX k (fun v p => xrlx c * kv v ZX k p + (1 - xrlx c) * kv v ZY k p)].
(** cbpdn_ystep, lines 184-185 *)
Definition cbpdn_ystep (k : nat) : list stmt :=
  [kset ZY k (fun v => prox_l1 (fun p => kv v ZX k p + kv v ZU k p) (fun _ => lmbda c / xrho c))].
(** cbpdn_ustep, line 195 *)
Definition cbpdn_ustep (k : nat) : list stmt := [kset ZU k (fun v p => kv v ZU k p + (kv v ZX k p - kv v ZY k p))].
(** ccmod_setcoef, lines 207-208 *)
Definition ccmod_setcoef (k : nat) : list stmt :=
  [kset ZF k (fun v => zfft c (kv v ZY k)); kset ZSF k (fun v => zs c (kv v ZF k) (kv v SF k))].
(** ccmod_xstep, lines 218-221 *)
Definition ccmod_xstep (k : nat) : list stmt :=
  [kset DX k (fun v => dsol c (kv v ZF k) (kv v ZSF k) (fun p => sv v DY p - kv v DU k p))].
(** ccmod_relax, line 231 *)
Definition ccmod_relax (k : nat) : list stmt := [kset DX k (fun v p => drlx c * kv v DX k p + (1 - drlx c) * sv v DY p)].

(** step_group, lines 261-269 *)
Definition step_group (k : nat) : list stmt :=
  cbpdn_xstep k ++ (if neq1 (xrlx c) then cbpdn_relax k else []) ++ cbpdn_ystep k ++ cbpdn_ustep k ++ ccmod_setcoef k
  ++ ccmod_xstep k ++ (if neq1 (drlx c) then ccmod_relax k else []).

(** ccmod_ystep, lines 241-242 *)
Definition ccmod_ystep : list stmt := [sset DY (fun v => dprox c (fun p => sumn (nK c) (fun k => kv v DX k p + kv v DU k p) / INR (nK c)))].
(** ccmod_ustep, line 252 *)
Definition ccmod_ustep : list stmt := [kall DU (fun k v p => kv v DU k p + (kv v DX k p - sv v DY p))].
(** cbpdn_setdict, lines 143-148 *)
Definition cbpdn_setdict : list stmt := [sset DF (fun v => dfft c (sv v DY)); kall DSF (fun k v => ds c (sv v DF) (kv v SF k))].
(** step, lines 510-512 *)
Definition step_rest : list stmt := ccmod_ystep ++ ccmod_ustep ++ cbpdn_setdict.

(** Masked variant. Mask for signal k, lines 717-720. *)
Definition mask (v : st) (k p : nat) : R := if wk c then kv v WK k p else sv v WS p.
(** cbpdnmd_xstep, lines 685-696 (Xf is computed once in the code) *)
Definition yu0 (v : st) (k p : nat) : R := kv v ZY0 k p + kv v SS k p - kv v ZU0 k p.
Definition yu1 (v : st) (k p : nat) : R := kv v ZY k p - kv v ZU k p.
Definition cbpdnmd_xstep (k : nat) : list stmt :=
  [kset ZX k (fun v => mxsol c (sv v DF) (yu0 v k) (yu1 v k)); kset DZ k (fun v => mxdx c (sv v DF) (yu0 v k) (yu1 v k))].
(** cbpdnmd_relax, lines 706-707 *)
Definition cbpdnmd_relax (k : nat) : list stmt :=
  [kset ZX k (fun v p => xrlx c * kv v ZX k p + (1 - xrlx c) * kv v ZY k p);
   kset DZ k (fun v p => xrlx c * kv v DZ k p + (1 - xrlx c) * (kv v ZY0 k p + kv v SS k p))].
(** cbpdnmd_ystep, lines 717-724 *)
Definition cbpdnmd_ystep (k : nat) : list stmt :=
  [kset ZY0 k (fun v p => xrho c * (kv v DZ k p - kv v SS k p + kv v ZU0 k p) / (mask v k p ^ 2 + xrho c));
   kset ZY k (fun v => prox_l1 (fun p => kv v ZX k p + kv v ZU k p) (fun _ => lmbda c / xrho c))].
(** cbpdnmd_ustep, lines 734-735 *)
Definition cbpdnmd_ustep (k : nat) : list stmt :=
  [kset ZU0 k (fun v p => kv v ZU0 k p + (kv v DZ k p - kv v ZY0 k p - kv v SS k p));
   kset ZU k (fun v p => kv v ZU k p + (kv v ZX k p - kv v ZY k p))].
(** ccmodmd_setcoef, line 747 *)
Definition ccmodmd_setcoef (k : nat) : list stmt := [kset ZF k (fun v => zfft c (kv v ZY k))].
(** ccmodmd_xstep, lines 757-763 *)
Definition du0 (v : st) (k p : nat) : R := sv v DY p - kv v DU k p.
Definition du1 (v : st) (k p : nat) : R := kv v DY1 k p + kv v SS k p - kv v DU1 k p.
Definition ccmodmd_xstep (k : nat) : list stmt :=
  [kset DX k (fun v => mdsol c (kv v ZF k) (du0 v k) (du1 v k)); kset DZ k (fun v => mddx c (kv v ZF k) (du0 v k) (du1 v k))].
(** ccmodmd_relax, lines 773-774 *)
Definition ccmodmd_relax (k : nat) : list stmt :=
  [kset DX k (fun v p => drlx c * kv v DX k p + (1 - drlx c) * sv v DY p);
   kset DZ k (fun v p => drlx c * kv v DZ k p + (1 - drlx c) * (kv v DY1 k p + kv v SS k p))].
(** md_step_group, lines 807-815 *)
Definition md_step_group (k : nat) : list stmt :=
  cbpdnmd_xstep k ++ (if neq1 (xrlx c) then cbpdnmd_relax k else []) ++ cbpdnmd_ystep k ++ cbpdnmd_ustep k ++ ccmodmd_setcoef k
  ++ ccmodmd_xstep k ++ (if neq1 (drlx c) then ccmodmd_relax k else []).
(** ccmodmd_ystep, lines 784-787 *)
Definition ccmodmd_ystep : list stmt :=
  [sset DY (fun v => dprox c (fun p => sumn (nK c) (fun k => kv v DX k p + kv v DU k p) / INR (nK c)));
   kall DY1 (fun k v p => drho c * (kv v DZ k p - kv v SS k p + kv v DU1 k p) / (mask v k p ^ 2 + drho c))].
(** ccmodmd_ustep, lines 797-798 *)
Definition ccmodmd_ustep : list stmt :=
  [kall DU (fun k v p => kv v DU k p + (kv v DX k p - sv v DY p));
   kall DU1 (fun k v p => kv v DU1 k p + (kv v DZ k p - kv v DY1 k p - kv v SS k p))].
(** cbpdnmd_setdict, line 675 *)
Definition cbpdnmd_setdict : list stmt := [sset DF (fun v => dfft c (sv v DY))].
(** step, lines 1076-1078 *)
Definition md_step_rest : list stmt := ccmodmd_ystep ++ ccmodmd_ustep ++ cbpdnmd_setdict.
End Tasks.

(** The class: tasks and serial part. *)
Record cls := mkCls { group : nat -> list (stmt ploc); rest : list (stmt ploc) }.
Definition plain (c : pcfg) : cls := mkCls (step_group c) (step_rest c).
Definition masked (c : pcfg) : cls := mkCls (md_step_group c) (md_step_rest c).

Notation pmem := (mem (xloc ploc) R).
(** The tasks handed to the pool. *)
Definition tasks (c : pcfg) (d : cls) : nat -> list (act (xloc ploc) R) :=
  fun k => if (k <? nK c)%nat then compile ploc_eqb k (group d k) else [].
Definition rest_exec (d : cls) (m : pmem) : pmem := exec (compile ploc_eqb 0 (rest d)) m.
(** step with a pool and schedule [s] (lines 508-512, 1074-1078), and with nproc = 0 (lines 504-512, 1070-1078). *)
Definition step_par (c : pcfg) (d : cls) (s : list nat) (m : pmem) : pmem := rest_exec d (snd (run s (tasks c d) m)).
Definition step_0 (c : pcfg) (d : cls) (m : pmem) : pmem :=
  rest_exec d (fold_left (fun m k => exec (compile ploc_eqb k (group d k)) m) (seq 0 (nK c)) m).

(** solve, lines 558-588 and 1124-1154: [ev] is evaluate, [cb] the callback (given the iteration number and the variables; it does not
    change the solver state), [mx] MaxMainIter. State: variables, self.j, itstat. *)
Record pobj (Ev : Type) := mkO { om : pmem; oj : nat; ost : list (nat * Ev) }.
Arguments mkO {Ev}.
Arguments om {Ev}.
Arguments oj {Ev}.
Arguments ost {Ev}.
Section Solve.
Context {Ev : Type}.
Variable ev : st -> Ev.
Variable cb : nat -> st -> bool.
(** Iterations [j], [j+1], ..., at most [mx] of them; [step i] is the step used in iteration i. *)
Fixpoint loop (step : nat -> pmem -> pmem) (mx j : nat) (o : pobj Ev) : pobj Ev :=
  match mx with
  | O => o
  | Datatypes.S mx' =>
      let m := step j (om o) in
      let o' := mkO m j (ost o ++ [(j, ev (vars m))]) in
      if cb j (vars m) then o' else loop step mx' (Datatypes.S j) o'
  end.
Definition solve (step : nat -> pmem -> pmem) (mx : nat) (o : pobj Ev) : pobj Ev :=
  let o' := loop step mx (oj o) o in mkO (om o') (Datatypes.S (oj o')) (ost o').
End Solve.

(** The serial class (/repo/sporco/dictlrn/dictlrn.py 306-345, one iteration of each solver per outer iteration, AutoRho disabled),
    whole arrays instead of slices, with the options of the sparse coding step. *)
Record sopt := mkS { wl1 : nat -> nat -> R; nonneg : bool; nobnd : option (nat -> bool); crop : vec -> vec; sdfft : vec -> vec }.

Section Serial.
Variable c : pcfg.
Variable o : sopt.
Notation stmt := (stmt ploc).
Definition whole (p : nat -> list stmt) (v : st) : st := do_seq ploc_eqb (nK c) p v.
(** admm/cbpdn.py ConvBPDN.ystep 618-620 and GenericConvBPDN.ystep 306-311 *)
Definition s_ystep (k : nat) : list stmt :=
  [kset c ZY k (fun v => prox_l1 (fun p => kv v ZX k p + kv v ZU k p) (fun p => lmbda c / xrho c * wl1 o k p))]
  ++ (if nonneg o then [kset c ZY k (fun v p => if ltb (kv v ZY k p) 0 then 0 else kv v ZY k p)] else [])
  ++ (match nobnd o with Some b => [kset c ZY k (fun v p => if b p then 0 else kv v ZY k p)] | None => [] end).
(** xstep.solve: admm/cbpdn.py xstep 271-281, admm.py relax_AX 441-458, ystep, ustep 437 *)
Definition s_cbpdn (v : st) : st :=
  let v := whole (cbpdn_xstep c) v in
  let v := if eqb (xrlx c) 1 then v else whole (cbpdn_relax c) v in
  whole (cbpdn_ustep c) (whole s_ystep v).
(** dstep.setcoef: admm/ccmod.py 767-769 *)
Definition s_setcoef (v : st) : st := whole (ccmod_setcoef c) v.
(** dstep.solve: admm/ccmod.py 787-845, admm.py 1585-1616, ustep *)
Definition s_ccmod (v : st) : st :=
  let v := whole (ccmod_xstep c) v in
  let v := if eqb (drlx c) 1 then v else whole (ccmod_relax c) v in
  do_prog ploc_eqb (ccmod_ystep c ++ ccmod_ustep c) v.
(** xstep.setdict(dstep.getdict()): getdict crops (admm/ccmod.py 854-857), setdict transforms with zero padding (admm/cbpdn.py 245-251) *)
Definition s_setdict (v : st) : st :=
  do_prog ploc_eqb [sset c DF (fun v => sdfft o (crop o (sv v DY))); kall c DSF (fun k v => ds c (sv v DF) (kv v SF k))] v.
Definition s_step (v : st) : st := s_setdict (s_ccmod (s_setcoef (s_cbpdn v))).
End Serial.
