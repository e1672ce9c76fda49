(** linalg.valid_adjoint (sporco/linalg.py 147-200) and linalg.rrs (883-910).  Arrays are flattened. *)
Require Import Reals Bool.
Require Import Verif.RVec Verif.Cplx Verif.CproxModel.
Local Open Scope R_scope.

(** rrs (906-910). *)
Definition rrs (n : nat) (ax b : nat -> R) : R :=
  let nm := Rmax (nrm n ax) (nrm n b) in
  if Req_EM_T nm 0 then 0 else nrm n (vsub ax b) / nm.

(** A number, or what numpy makes of 0/0. *)
Inductive number : Type := Number (e : R) | NaN.
(** The operators map real arrays to real or complex ones. *)
Definition oper : Type := (nat -> R) -> nat -> C.
(** np.dot does not conjugate (193-194). *)
Definition npdot (n : nat) (x : nat -> R) (y : nat -> C) : C := csumn n (fun i => cmul (ofR (x i)) (y i)).
(** 191-196 for the draws x0 of n and x1 of m entries (189-190). *)
Definition adj_err (n m : nat) (A AT : oper) (x0 x1 : nat -> R) : number :=
  let y0 := A x0 in
  let y1 := AT x1 in
  let x1y0 := npdot m x1 y0 in
  let y1x0 := npdot n x0 y1 in
  let den := Rmax (cabs x1y0) (cabs y1x0) in
  if Req_EM_T den 0 then NaN else Number (cabs (csub x1y0 y1x0) / den).
(** 200: comparison with NaN is False. *)
Definition valid_adjoint (n m : nat) (A AT : oper) (eps : R) (x0 x1 : nat -> R) : bool :=
  match adj_err n m A AT x0 x1 with Number e => if Rlt_dec e eps then true else false | NaN => false end.
