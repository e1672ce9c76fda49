(** What a projected dictionary has to satisfy, from the description of dictionary sizes in the documentation of
    cnvrep.bcrop: independent of the slices of the code. *)
Require Import List Arith Reals Bool.
Require Import Verif.RVec Verif.FftModel.
Require Verif.CnvrepModel.
Import ListNotations.
Local Open Scope R_scope.

(** The size tuples of a specification. *)
Definition sizes (d : CnvrepModel.dsize) : list (list nat) :=
  match d with
  | CnvrepModel.Flat s => [s]
  | CnvrepModel.Blocks bs => flat_map (fun b => match b with CnvrepModel.Blk s => [s] | CnvrepModel.CBlk l => l end) bs
  end.
Definition fits (dN : nat) (nv : nat -> nat) (d : CnvrepModel.dsize) : Prop :=
  forall s, In s (sizes d) -> forall i, (i < dN)%nat -> (0 < nth i s O <= nv i)%nat.

(** The filters of a block are those numbered from the number of filters of the preceding blocks; likewise for the channels
    within a block. *)
Definition nfilters (b : CnvrepModel.block) : nat := match b with CnvrepModel.Blk s => last s O | CnvrepModel.CBlk l => last (hd [] l) O end.
Definition nchannels (s : list nat) : nat := nth (length s - 2) s O.
Definition inside (dN : nat) (s : list nat) (i : index) : Prop := forall ax, (ax < dN)%nat -> (i ax < nth ax s O)%nat.
Definition in_filter (d : CnvrepModel.dsize) (dN : nat) (i : index) : Prop :=
  match d with
  | CnvrepModel.Flat s => inside dN s i
  | CnvrepModel.Blocks bs =>
      exists pre b post, bs = pre ++ b :: post /\
        (list_sum (map nfilters pre) <= i (dN + 2) < list_sum (map nfilters pre) + nfilters b)%nat /\
        match b with
        | CnvrepModel.Blk s => inside dN s i /\ (length s <> dN + 1 -> i dN < nth dN s O)%nat
        | CnvrepModel.CBlk l => exists cpre s cpost, l = cpre ++ s :: cpost /\
            (list_sum (map nchannels cpre) <= i dN < list_sum (map nchannels cpre) + nchannels s)%nat /\ inside dN s i
        end
  end.

(** The linear constraints: support and, if requested, zero mean of every filter in every channel. *)
Definition feasible (d : CnvrepModel.dsize) (dN : nat) (s : nat -> nat) (zm : bool) (y : index -> R) : Prop :=
  (forall k, ~ in_filter d dN k -> y k = 0) /\ (zm = true -> forall k, rsum s (seq 0 dN) y k = 0).
(** Inner products over the first [n] axes, the coordinates on the others being those of [i]. *)
Definition dot (s : nat -> nat) (n : nat) (x y : index -> R) (i : index) : R := rsum s (seq 0 n) (fun k => x k * y k) i.
Definition within (s : nat -> nat) (n : nat) (i : index) : Prop := forall ax, (ax < n)%nat -> (i ax < s ax)%nat.
