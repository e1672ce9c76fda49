(** Model of util.grid_search (sporco/util.py 80-167) and of mpiutil (sporco/mpiutil.py 26-175). *)
Require Import List Arith Bool.
Import ListNotations.

(** itertools.product( *grd ) (util.py 143): lexicographic order, last axis fastest. *)
Fixpoint product {A} (grd : list (list A)) : list (list A) :=
  match grd with
  | [] => [[]]
  | g :: gs => flat_map (fun a => map (cons a) (product gs)) g
  end.

(** Number of elements of an array of the given shape. *)
Definition prod_list (shape : list nat) : nat := fold_right Nat.mul 1 shape.

(** np.unravel_index for C order (util.py 157, 163). *)
Fixpoint unravel (shape : list nat) (i : nat) : list nat :=
  match shape with
  | [] => []
  | _ :: ns => i / prod_list ns :: unravel ns (i mod prod_list ns)
  end.

(** Flat position of an index vector in C order: how the table [fvmx] (util.py 156, 162) is addressed. *)
Fixpoint ravel (shape : list nat) (idx : list nat) : nat :=
  match shape, idx with
  | _ :: ns, i :: is => i * prod_list ns + ravel ns is
  | _, _ => 0
  end.

Section Search.
Context {V A : Type}.
(** [lt a b]: a is strictly smaller.  A function value is [None] for NaN. *)
Variable lt : V -> V -> bool.

(** np.nanargmin / np.nanargmax of a flat array (util.py 140, 142): position of the first best non-NaN value; [None] is
    the ValueError for an all-NaN array.  [fmin] selects the direction. *)
Definition better (fmin : bool) (a b : V) : bool := if fmin then lt a b else lt b a.

Fixpoint argbest_from (fmin : bool) (l : list (option V)) (i : nat) (best : option (nat * V)) : option (nat * V) :=
  match l with
  | [] => best
  | None :: l' => argbest_from fmin l' (S i) best
  | Some v :: l' =>
      argbest_from fmin l' (S i)
        (match best with
         | None => Some (i, v)
         | Some (_, b) => if better fmin v b then Some (i, v) else best
         end)
  end.

Definition argbest (fmin : bool) (l : list (option V)) : option nat :=
  option_map fst (argbest_from fmin l 0 None).

Inductive gerr := GIndexError | GValueError.

(** Selection of the grid coordinates by the index vector (util.py 159, 164). *)
Fixpoint pick (grd : list (list A)) (idx : list nat) : option (list A) :=
  match grd, idx with
  | [], _ => Some []
  | g :: gs, i :: is =>
      match nth_error g i, pick gs is with
      | Some a, Some p => Some (a :: p)
      | _, _ => None
      end
  | _ :: _, [] => None
  end.

Record gresult := mkG { sprm : option (list A); sfvl : option V; fvmx : list (option V); sidx : list nat }.

(** Selection from the list of function values, shared by the serial and the MPI version (util.py 154-167,
    mpiutil.py 157-175): scalar-valued functions. *)
Definition select (fmin : bool) (grd : list (list A)) (fval : list (option V)) : gresult + gerr :=
  match fval with
  | [] => inr GIndexError                                   (* fval[0], line 154 *)
  | _ =>
      match argbest fmin fval with
      | None => inr GValueError
      | Some i =>
          let shape := map (@length A) grd in
          let idx := unravel shape i in
          inl (mkG (pick grd idx)
                   (match nth_error fval (ravel shape idx) with Some v => v | None => None end)
                   fval idx)
      end
  end.

(** util.grid_search for a scalar-valued function.  [pool.map] (line 151) returns the results in the order of its input
    whatever the number of processes, and is modelled by [map]. *)
Definition grid_search (fn : list A -> option V) (grd : list (list A)) (fmin : bool) : gresult + gerr :=
  select fmin grd (map fn (product grd)).

(** Vector-valued functions (util.py 154-160): component [j] of the results is treated like a scalar function; the
    returned index arrays have one entry per component. *)
Definition grid_search_vec (fn : list A -> list (option V)) (n : nat) (grd : list (list A)) (fmin : bool)
    : list (gresult + gerr) :=
  map (fun j => select fmin grd (map (fun p => match nth_error (fn p) j with Some v => v | None => None end)
                                     (product grd)))
      (seq 0 n).

(** mpiutil._get_rank_limits (mpiutil.py 49-61): [int(arrlen / size)] is integer division (exact as long as the
    quotient is represented exactly in floating point); the MPI prefix sum over ranks 0..rank is the sum below. *)
Definition ranklen (arrlen size rank : nat) : nat :=
  arrlen / size + (if rank <? arrlen mod size then 1 else 0).

Definition rank_end (arrlen size rank : nat) : nat :=
  fold_right Nat.add 0 (map (ranklen arrlen size) (seq 0 (S rank))).

Definition rank_limits (arrlen size rank : nat) : nat * nat :=
  (rank_end arrlen size rank - ranklen arrlen size rank, rank_end arrlen size rank).

(** afprm[begin:end, :] (mpiutil.py 133). *)
Definition slice {B} (b e : nat) (l : list B) : list B := firstn (e - b) (skipn b l).

Definition rank_chunk {B} (size rank : nat) (l : list B) : list B :=
  let '(b, e) := rank_limits (length l) size rank in slice b e l.

(** mpiutil.grid_search (mpiutil.py 65-175), scalar-valued function: Allgatherv concatenates the buffers of the ranks in
    rank order; all ranks then select from the same table. *)
Definition mpi_grid_search (fn : list A -> option V) (grd : list (list A)) (fmin : bool) (size : nat) : gresult + gerr :=
  select fmin grd
    (flat_map (fun r => map fn (rank_chunk size r (product grd))) (seq 0 size)).

(** The sequence of collective operations that a rank executes (mpiutil.py 136-153), chosen from the dimension of its
    own array of function values: an empty list of values is one-dimensional. *)
Inductive collective := CAllgather | CAllgatherv.

Definition collectives (vector_valued : bool) (points size rank : nat) : list collective :=
  if andb vector_valued (negb (ranklen points size rank =? 0))
  then [CAllgather; CAllgatherv] else [CAllgatherv].
End Search.
