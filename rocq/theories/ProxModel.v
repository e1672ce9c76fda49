(** Model of sporco/prox/_lp.py, sporco/prox/_l21.py, sporco/prox/_dl1l2.py and linalg.proj_l2ball over the real numbers
    (rounding is left out).  An array, or one group of an array for the functions with an [axis] argument, is a vector of
    dimension [n].  A norm over an axis with keepdims=True is constant on each group and is broadcast against the group,
    so that each group is treated by the function modelled here. *)
Require Import Reals Bool Arith.
Require Import Verif.RVec.
Local Open Scope R_scope.

Definition ltb (x y : R) : bool := if Rlt_dec x y then true else false.
Definition leb (x y : R) : bool := if Rle_dec x y then true else false.
Definition eqb (x y : R) : bool := if Req_EM_T x y then true else false.
(** A boolean used as a factor. *)
Definition b2r (b : bool) : R := if b then 1 else 0.

(** np.sign *)
Definition sgn (x : R) : R := if ltb 0 x then 1 else if ltb x 0 then -1 else 0.

(** zdivide (sporco/array.py 119-136): 0 where the divisor is 0. *)
Definition zdivide (x y : R) : R := if eqb y 0 then 0 else x / y.

(** norm_l0 with eps = 0 (prox/_lp.py 60). *)
Definition norm_l0 (n : nat) (x : nat -> R) : R := sumn n (fun i => b2r (ltb 0 (Rabs (x i)))).

(** prox_l0 (prox/_lp.py 106). *)
Definition prox_l0 (v : nat -> R) (alpha : R) : nat -> R := fun i => b2r (leb (sqrt (2 * alpha)) (Rabs (v i))) * v i.

(** norm_l1 (prox/_lp.py 136), norm_2l2 (213), norm_l2 (248). *)
Definition norm_l1 (n : nat) (x : nat -> R) : R := sumn n (fun i => Rabs (x i)).
Definition norm_2l2 (n : nat) (x : nat -> R) : R := sumn n (fun i => x i ^ 2).
Definition norm_l2 (n : nat) (x : nat -> R) : R := sqrt (norm_2l2 n x).

(** prox_l1 for real arrays: numpy version (prox/_lp.py 181) and numexpr version (176-179); [alpha] may be an array. *)
Definition prox_l1 (v alpha : nat -> R) : nat -> R := fun i => sgn (v i) * Rmax (Rabs (v i) - alpha i) 0.
Definition prox_l1_ne (v alpha : nat -> R) : nat -> R :=
  fun i => if ltb 0 (Rabs (v i) - alpha i) then (if leb 0 (v i) then 1 else -1) * (Rabs (v i) - alpha i) else 0.

(** prox_l2 (prox/_lp.py 284-290). *)
Definition prox_l2 (n : nat) (v : nat -> R) (alpha : R) : nat -> R :=
  let a := norm_l2 n v in
  let b := zdivide (Rmax 0 (a - alpha)) a in
  fun i => b * v i.

(** proj_l2 (prox/_lp.py 334-340). *)
Definition proj_l2 (n : nat) (v : nat -> R) (gamma : R) : nat -> R :=
  let d := norm_l2 n v in
  fun i => b2r (leb d gamma) * v i + b2r (ltb gamma d) * (gamma * zdivide (v i) d).

(** linalg.proj_l2ball (linalg.py 1073-1075). *)
Definition proj_l2ball (n : nat) (b s : nat -> R) (r : R) : nat -> R :=
  let d := sqrt (sumn n (fun i => (b i - s i) ^ 2)) in
  fun i => b2r (leb d r) * b i + b2r (ltb r d) * (s i + r * zdivide (b i - s i) d).

(** prox_sl1l2 (prox/_l21.py 88); norm_l21 over groups (47). *)
Definition prox_sl1l2 (n : nat) (v : nat -> R) (alpha beta : R) : nat -> R :=
  prox_l2 n (prox_l1 v (fun _ => alpha)) beta.
Definition norm_l21 (g n : nat) (x : nat -> nat -> R) : R := sumn g (fun j => norm_l2 n (x j)).

(** np.max and argmax (first maximum) of a vector. *)
Fixpoint vmax (n : nat) (a : nat -> R) : R :=
  match n with O => 0 | S O => a O | S n' => Rmax (vmax n' a) (a n') end.
Fixpoint argmax (n : nat) (a : nat -> R) : nat :=
  match n with O => O | S O => O | S n' => if ltb (a (argmax n' a)) (a n') then n' else argmax n' a end.

(** norm_dl1l2 (prox/_dl1l2.py 45). *)
Definition norm_dl1l2 (n : nat) (x : nat -> R) (beta : R) : R := norm_l1 n x - beta * norm_l2 n x.

(** prox_dl1l2 with axis=None (prox/_dl1l2.py 81-95). *)
Definition prox_dl1l2 (n : nat) (v : nat -> R) (alpha beta : R) : nat -> R :=
  let va := fun i => Rabs (v i) in
  let vamx := vmax n va in
  if ltb 0 vamx then
    if ltb alpha vamx then
      let u := fun i => Rmax (va i - alpha) 0 * sgn (v i) in
      fun i => u i * ((norm_l2 n u + alpha * beta) / norm_l2 n u)
    else if leb ((1 - beta) * alpha) vamx then
      let idx := argmax n va in
      fun i => if Nat.eqb i idx then (va idx + (beta - 1) * alpha) * sgn (v idx) else 0
    else fun _ => 0
  else fun _ => 0.

(** prox_dl1l2 with an axis, one group (prox/_dl1l2.py 97-108). *)
Definition prox_dl1l2_axis (n : nat) (v : nat -> R) (alpha beta : R) : nat -> R :=
  let va := fun i => Rabs (v i) in
  let vamx := vmax n va in
  let u1 := fun i => Rmax (va i - alpha) 0 * sgn (v i) in
  let u1l2 := norm_l2 n u1 in
  let u1' := fun i => u1 i * (1 + zdivide (alpha * beta) u1l2) in
  let idx := argmax n va in
  let u2 := fun i => if Nat.eqb i idx then (vamx + (beta - 1) * alpha) * sgn (v idx) else 0 in
  fun i => b2r (ltb alpha vamx) * u1' i + b2r (ltb ((1 - beta) * alpha) vamx && leb vamx alpha) * u2 i.
