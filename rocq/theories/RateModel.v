(** Model of the residuals, the stopping thresholds and the stopping test of ADMM.solve (sporco/admm/admm.py 350-351,
    374-377 and 462-486), put together with the iteration of AdmmModel and the main loop of SolveModel. AutoRho is disabled, so
    that update_rho (549-550) leaves the solver as it is; exact arithmetic. *)
Require Import Reals List Arith.
Require Import Verif.RVec Verif.AdmmModel Verif.SolveModel.
Local Open Scope R_scope.

(** Python < on numbers (376). *)
Definition lt_py (a b : R) : bool := if Rlt_dec a b then true else false.

(** 462-486: [m] is Nc, [n] is Nx; self.AXnr is cnst_A(self.X), line 446. *)
Definition compute_residuals (std : bool) (m n : nat) (abstol reltol : R) (A AT B : vec -> vec) (c : vec) (rho : R) (st : state)
  : R * R * R * R :=
  let AXnr := A (sX st) in
  let r0 := nrm m (rsdl_r B c AXnr (sY st)) in
  let s0 := nrm n (rsdl_s AT B rho (sYprev st) (sY st)) in
  let rn := rsdl_rn B c m AXnr (sY st) in
  let sn := rsdl_sn AT rho n (sU st) in
  if std then (r0, s0, sqrt (INR m) * abstol + rn * reltol, sqrt (INR n) * abstol + sn * reltol)
  else
    let rn := if Req_EM_T rn 0 then 1 else rn in
    let sn := if Req_EM_T sn 0 then 1 else sn in
    (r0 / rn, s0 / sn, sqrt (INR m) * abstol / rn + reltol, sqrt (INR n) * abstol / sn + reltol).

(** 334-346, and 549-550 for a disabled AutoRho. *)
Definition rate_sweep (A B : vec -> vec) (c : vec) (rlx : R) (xstep ystep : vec -> vec -> vec) (_ : nat) (st : state) : state :=
  iteration A B c rlx xstep ystep st.
Definition keep_rho (_ : opts state) (_ : nat) (_ _ : R) (st : state) : state := st.

(** 293-389. *)
Definition rate_solve {Stat : Type} (clock : nat -> BinNums.Z) (stats : nat -> state -> option (R * R * R * R) -> Stat)
  (std : bool) (m n : nat) (abstol reltol : R) (A AT B : vec -> vec) (c : vec) (rlx rho : R) (xstep ystep : vec -> vec -> vec)
  (o : opts state) (s : sol state Stat) : sol state Stat :=
  admm_solve lt_py clock (rate_sweep A B c rlx xstep ystep) (compute_residuals std m n abstol reltol A AT B c rho) stats keep_rho o s.
