(** Model of sporco/interp.py: lanczos_kernel, interpolation_points, lanczos_filters, lstabsdev, lstmaxdev. *)
Require Import List Arith ZArith Reals Bool.
Require Import Verif.RVec.
Import ListNotations.
Local Open Scope R_scope.

(** np.arange with integer limits. *)
Definition arange (lo hi : Z) : list Z := map (fun i => (lo + Z.of_nat i)%Z) (seq 0 (Z.to_nat (hi - lo))).
(** interpolation_points 247-251; // is floor division. *)
Definition interpolation_points (N : Z) (include_zero : bool) : list R :=
  if include_zero then map (fun k => IZR k / IZR N) (arange (- ((N - 1) / 2)) (N / 2 + 1))
  else map (fun k => IZR k / (IZR N + 1)) (arange (- (N / 2)) 0 ++ arange 1 ((N + 1) / 2 + 1)).

(** np.sinc; numpy evaluates it at 1e-20 instead of 0, which is taken as exactly 1 here. *)
Definition sinc (x : R) : R := if Req_EM_T x 0 then 1 else sin (PI * x) / (PI * x).
(** lanczos_kernel 224. *)
Definition lanczos_kernel (a : nat) (x : R) : R :=
  (if Rlt_dec (- INR a) x then if Rlt_dec x (INR a) then 1 else 0 else 0) * sinc x * sinc (x / INR a).

(** lanczos_filters 295-297: the entry k of the filter of the point x along one dimension. *)
Definition filter1 (a : nat) (x : R) (k : nat) : R :=
  let gx k := (INR k - INR a) + x in
  lanczos_kernel a (gx k) / sumn (2 * a + 1) (fun k => lanczos_kernel a (gx k)).
(** 285, 298-300: tensor product; one point and one index per dimension. *)
Fixpoint filters (a : nat) (xs : list R) (ks : list nat) : R :=
  match xs, ks with x :: xs', k :: ks' => filter1 a x k * filters a xs' ks' | _, _ => 1 end.
(** Validation of explicit points, 293. *)
Definition points_ok (x : list R) : bool := forallb (fun v => if Rle_dec (-1) v then if Rle_dec v 1 then true else false else false) x.

(** Linear programs: minimise c . z subject to A z <= b, all variables free. The solver is external. *)
Record lp := mklp { lp_n : nat; lp_m : nat; lp_c : nat -> R; lp_A : nat -> nat -> R; lp_b : nat -> R }.
(** lstabsdev 136-141: variables (t, x), constraints (-I, -A) z <= -b and (-I, A) z <= b. *)
Definition lstabsdev_lp (M N : nat) (A : nat -> nat -> R) (b : nat -> R) : lp :=
  mklp (M + N) (M + M) (fun j => if Nat.ltb j M then 1 else 0)
    (fun i j => if Nat.ltb j M then (if Nat.eqb (if Nat.ltb i M then i else i - M) j then -1 else 0)
                else if Nat.ltb i M then - A i (j - M)%nat else A (i - M)%nat (j - M)%nat)
    (fun i => if Nat.ltb i M then - b i else b (i - M)%nat).
(** lstmaxdev 182-187. *)
Definition lstmaxdev_lp (M N : nat) (A : nat -> nat -> R) (b : nat -> R) : lp :=
  mklp (N + 1) (M + M) (fun j => if Nat.eqb j 0 then 1 else 0)
    (fun i j => if Nat.eqb j 0 then -1 else if Nat.ltb i M then - A i (j - 1)%nat else A (i - M)%nat (j - 1)%nat)
    (fun i => if Nat.ltb i M then - b i else b (i - M)%nat).
(** 144-148 and 190-194: None = ValueError. [linprog] returns the success flag and the solution. *)
Definition lstabsdev (linprog : lp -> bool * (nat -> R)) (M N : nat) A b : option (nat -> R) :=
  let res := linprog (lstabsdev_lp M N A b) in if fst res then Some (fun j => snd res (M + j)%nat) else None.
Definition lstmaxdev (linprog : lp -> bool * (nat -> R)) (M N : nat) A b : option (nat -> R) :=
  let res := linprog (lstmaxdev_lp M N A b) in if fst res then Some (fun j => snd res (1 + j)%nat) else None.
