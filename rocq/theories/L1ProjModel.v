(** Model of sporco/prox/_l1proj.py over the real numbers.  An array (axis=None) or one fibre of an array (axis given) is
    a vector of dimension [n]; the fibres are treated independently, as in the code.  scipy's brentq is an argument. *)
Require Import String List Reals Arith.
Require Import Verif.RVec Verif.ProxModel.
Import ListNotations.
Local Open Scope R_scope.

(** np.sort followed by reversal (_l1proj.py 140, 144, 149): insertion sort, largest first. *)
Fixpoint insert_desc (x : R) (l : list R) : list R :=
  match l with
  | [] => [x]
  | y :: r => if leb y x then x :: y :: r else y :: insert_desc x r
  end.
Fixpoint sort_desc (l : list R) : list R :=
  match l with [] => [] | x :: r => insert_desc x (sort_desc r) end.

(** np.cumsum *)
Fixpoint cumsum_from (s : R) (l : list R) : list R :=
  match l with [] => [] | x :: r => (s + x) :: cumsum_from (s + x) r end.
Definition cumsum (l : list R) : list R := cumsum_from 0 l.

Definition sum_list (l : list R) : R := fold_right Rplus 0 l.

(** t = c * (cumsum(vs) - gamma) with c = 1 / arange(1, N+1) (lines 143, 148, 150). *)
Definition thresholds (gamma : R) (vs : list R) : list R :=
  map (fun kc => 1 / INR (S (fst kc)) * (snd kc - gamma)) (combine (seq 0 (length vs)) (cumsum vs)).

(** The elements for which vs >= t; K (line 151) is their number, and the sum in line 152 is their sum. *)
Definition selected (gamma : R) (vs : list R) : list R :=
  map fst (filter (fun xt => leb (snd xt) (fst xt)) (combine vs (thresholds gamma vs))).

(** Threshold of _proj_l1_sortsum (lines 150-153). *)
Definition sortsum_t (gamma : R) (av : list R) : R :=
  let vs := sort_desc av in
  let sel := selected gamma vs in
  Rmax 0 ((sum_list sel - gamma) / INR (length sel)).

(** _proj_l1_sortsum (lines 133-154); [noaxis] tells that axis is None. *)
Definition proj_l1_sortsum (noaxis : bool) (n : nat) (v : nat -> R) (gamma : R) : nat -> R :=
  if andb noaxis (leb (norm_l1 n v) gamma) then v
  else
    let t := sortsum_t gamma (map (fun i => Rabs (v i)) (seq 0 n)) in
    fun i => sgn (v i) * (if ltb t (Rabs (v i)) then Rabs (v i) - t else 0).

(** The function whose root is sought (line 104) and _proj_l1_scalar_root (lines 99-106). *)
Definition root_fn (n : nat) (v : nat -> R) (gamma t : R) : R := sumn n (fun i => Rmax 0 (Rabs (v i) - t)) - gamma.
Definition proj_l1_scalarroot (brentq : (R -> R) -> R -> R -> R) (n : nat) (v : nat -> R) (gamma : R) : nat -> R :=
  if leb (norm_l1 n v) gamma then v
  else
    let t := brentq (root_fn n v gamma) 0 (vmax n (fun i => Rabs (v i))) in
    prox_l1 v (fun _ => t).

(** proj_l1 (lines 60-75): [None] stands for ValueError. *)
Definition proj_l1 (brentq : (R -> R) -> R -> R -> R) (method : option string) (noaxis : bool)
    (n : nat) (v : nat -> R) (gamma : R) : option (nat -> R) :=
  let m := match method with
           | Some m => m
           | None => if noaxis then "scalarroot"%string else "sortcumsum"%string
           end in
  if String.eqb m "scalarroot" then
    if noaxis then Some (proj_l1_scalarroot brentq n v gamma) else None
  else if String.eqb m "sortcumsum" then Some (proj_l1_sortsum noaxis n v gamma)
  else None.
