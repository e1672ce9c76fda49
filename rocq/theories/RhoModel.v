(** Model of ADMM.update_rho (sporco/admm/admm.py 549-575) over the real numbers.  Rounding and NaN are left out; the
    conversion of the factor to the data type of the solver (line 572) is the identity. *)
Require Import Reals List Bool Arith.
Import ListNotations.
Local Open Scope R_scope.

Definition Rltb (x y : R) : bool := if Rlt_dec x y then true else false.
Definition Reqb (x y : R) : bool := if Req_EM_T x y then true else false.

(** Options under 'AutoRho' and the attributes set from them (admm.py 240-246). *)
Record rho_opts := mkRho {
  ar_enabled : bool;     (* Enabled *)
  ar_period : nat;       (* Period *)
  ar_autoscale : bool;   (* AutoScaling *)
  tau : R;               (* Scaling *)
  mu : R;                (* RsdlRatio *)
  xi : R                 (* RsdlTarget *)
}.

(** Penalty parameter and scaled dual variable; [changes] counts the calls of rhochange (line 575). *)
Record rstate := mkR { rho : R; U : list R; changes : nat }.

(** Lines 557-566. *)
Definition rho_mult (o : rho_opts) (r s : R) : R :=
  if ar_autoscale o then
    if Reqb s 0 || Reqb r 0 then tau o
    else let m := sqrt (if Rltb (s * xi o) r then r / (s * xi o) else (s * xi o) / r) in
         if Rltb (tau o) m then tau o else m
  else tau o.

(** Lines 567-571. *)
Definition rho_factor (o : rho_opts) (r s : R) : R :=
  let m := rho_mult o r s in
  if Rltb (xi o * mu o * s) r then m
  else if Rltb ((mu o / xi o) * r) s then 1 / m
  else 1.

Definition update_rho (o : rho_opts) (k : nat) (r s : R) (st : rstate) : rstate :=
  if ar_enabled o then
    if negb (Nat.eqb k 0) && Nat.eqb ((k + 1) mod ar_period o) 0 then
      let f := rho_factor o r s in
      mkR (rho st * f) (map (fun u => u / f) (U st)) (if Reqb f 1 then changes st else S (changes st))
    else st
  else st.
