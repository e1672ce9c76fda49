(** Model of the complex branch of prox_l1 (sporco/prox/_lp.py 183). *)
Require Import Reals.
Require Import Verif.RVec Verif.Cplx.
Local Open Scope R_scope.
(** np.abs of a complex number. *)
Definition cabs (z : C) : R := sqrt (cabs2 z).
(** (v / np.abs(v)) * np.clip(np.abs(v) - alpha, 0, inf), entry by entry. The quotient of zero by zero is NaN, and so is its product with
    anything; [None] stands for NaN. *)
Definition prox_l1_cplx (v : nat -> C) (alpha : nat -> R) : nat -> option C :=
  fun i => if Req_EM_T (cabs (v i)) 0 then None else Some (cscal (Rmax (cabs (v i) - alpha i) 0) (cscal (/ cabs (v i)) (v i))).
