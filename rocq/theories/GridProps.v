(** C10 and C11: grid search, serial and with MPI. *)
Require Import List Arith Bool ZArith Lia.
Require Import Verif.GridModel Verif.GridSpec Verif.GridProofs.
Import ListNotations.

(** C10: whatever grid_search returns is an optimum of the function over the whole grid, with consistent parameters,
    value, index and table, and the first one in lexicographic order among equals. *)
Theorem C10_optimum : forall {V A} (lt : V -> V -> bool), strict_weak_order lt ->
  forall (fn : list A -> option V) grd (fmin : bool) r, grid_search lt fn grd fmin = inl r ->
  optimum (fun a b => if fmin then lt a b else lt b a) fn grd (sprm r) (sfvl r) (fvmx r) (sidx r).
Proof. exact (fun V A lt H fn grd fmin r Hr => grid_search_optimum lt H fn grd fmin r Hr). Qed.
Print Assumptions C10_optimum.

(** C10: it fails only for an empty axis (IndexError) or if every value is NaN (ValueError). *)
Theorem C10_errors : forall {V A} (lt : V -> V -> bool), strict_weak_order lt ->
  forall (fn : list A -> option V) grd fmin,
  (grid_search lt fn grd fmin = inr GIndexError <-> In [] grd) /\
  (grid_search lt fn grd fmin = inr GValueError <->
     ~ In [] grd /\ forall idx q, selects grd idx q -> fn q = None).
Proof. exact (fun V A lt H fn grd fmin => grid_search_errors lt H fn grd fmin). Qed.
Print Assumptions C10_errors.

Lemma Zltb_swo : strict_weak_order Z.ltb.
Proof.
  split; [intros a; apply Z.ltb_irrefl|]. split; intros a b c.
  - rewrite !Z.ltb_lt. lia.
  - rewrite !Z.ltb_ge. lia.
Qed.

Example C10_example :
  exists r, grid_search Z.ltb (fun p => match p with [x; y] => if Z.eqb x 1 then None else Some (x * x + y)%Z | _ => None end)
      [[1; -2; 2]; [3; 0; 0]]%Z true = inl r
    /\ sprm r = Some [-2; 0]%Z /\ sidx r = [1; 1] /\ sfvl r = Some 4%Z.
Proof. eexists. split; [reflexivity|]. repeat split. Qed.

Example C10_error_example :
  grid_search Z.ltb (fun _ => None) [[1%Z; 2%Z]] true = inr GValueError
  /\ grid_search Z.ltb (fun _ => None) [[1%Z]; []] true = inr GIndexError.
Proof. split; reflexivity. Qed.

(** C11: the index ranges of the ranks partition the range of points: each point belongs to exactly one rank. *)
Theorem C11_partition : forall arrlen size i, size <> 0 -> i < arrlen ->
  exists r, r < size /\ (fst (rank_limits arrlen size r) <= i < snd (rank_limits arrlen size r)) /\
    forall r', r' < size -> fst (rank_limits arrlen size r') <= i < snd (rank_limits arrlen size r') -> r' = r.
Proof. exact rank_limits_cover. Qed.
Print Assumptions C11_partition.

(** C11: loads differ by at most one point. *)
Theorem C11_balanced : forall arrlen size r r',
  snd (rank_limits arrlen size r) - fst (rank_limits arrlen size r) <=
  S (snd (rank_limits arrlen size r') - fst (rank_limits arrlen size r')).
Proof.
  intros arrlen size r r'. rewrite !rank_limits_val. simpl. rewrite !prefix_len_S.
  pose proof (rank_balance arrlen size r r'). lia.
Qed.
Print Assumptions C11_balanced.

(** C11: the MPI grid search returns exactly what the serial one returns, for every positive number of ranks. *)
Theorem C11_same_as_serial : forall {V A} (lt : V -> V -> bool) (fn : list A -> option V) grd fmin size, size <> 0 ->
  mpi_grid_search lt fn grd fmin size = grid_search lt fn grd fmin.
Proof. exact (fun V A lt fn grd fmin size H => mpi_same lt fn grd fmin size H). Qed.
Print Assumptions C11_same_as_serial.

(** C11: all ranks execute the same sequence of collective operations for a scalar-valued function; for a vector-valued
    function they do so exactly if there are at least as many points as ranks (otherwise the program deadlocks or mixes
    up messages). *)
Theorem C11_collectives_vector_iff : forall points size, size <> 0 -> points <> 0 ->
  (forall r r', r < size -> r' < size -> collectives true points size r = collectives true points size r')
  <-> size <= points.
Proof. exact collectives_vector. Qed.
Print Assumptions C11_collectives_vector_iff.

Theorem C11_collectives_match_refuted :
  exists points size r r', points <> 0 /\ r < size /\ r' < size /\
    collectives true points size r <> collectives true points size r'.
Proof. exists 3, 4, 0, 3. repeat split; try lia. discriminate. Qed.
Print Assumptions C11_collectives_match_refuted.

Example C11_example : map (rank_limits 7 3) [0; 1; 2] = [(0, 3); (3, 5); (5, 7)].
Proof. reflexivity. Qed.

Example C11_mpi_example :
  mpi_grid_search Z.ltb (fun p => match p with [x; y] => Some (x - y)%Z | _ => None end) [[1; 2]; [3; 0; 5]]%Z false 4
  = grid_search Z.ltb (fun p => match p with [x; y] => Some (x - y)%Z | _ => None end) [[1; 2]; [3; 0; 5]]%Z false.
Proof. reflexivity. Qed.
