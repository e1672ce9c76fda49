(** AddMaskSim (sporco/admm/cbpdn.py 2287-2482) around ConvBPDN: mask simulation by additional impulse filters, for real data.
    As in CscIterModel the slice of the arrays with the coordinates [base] on the axes which are not filtered is modelled,
    flattened in C order; the maps of the impulse filters follow those of the M given filters (Di, 2345).  [aC], [aK] and [aM]
    are the channel, signal and filter axes of the internal layout and [wsh] is the shape of self.W, which mskWshape (2355) and
    the axis swap for a multi-channel dictionary (2361-2362) determine: its size on an axis is one when the mask given by the
    user has no such axis, or a singleton one. *)
Require Import List Arith Reals Bool.
Require Import Verif.RVec Verif.FftModel Verif.CscModel Verif.CscIterModel Verif.AdmmModel Verif.StepsModel.
Import ListNotations.
Local Open Scope R_scope.

(** imp (2338-2344): impulse number j has a one at the origin of channel j only; for a single-channel dictionary there is one. *)
Definition impulse (axes : list nat) (c j : nat) : index -> R :=
  fun p => if (Nat.eqb c j && forallb (fun ax => Nat.eqb (p ax) 0) axes)%bool then 1 else 0.
(** Di (2345). *)
Definition ext_dict (axes : list nat) (M : nat) (D : nat -> nat -> index -> R) : nat -> nat -> index -> R :=
  fun c m => if Nat.ltb m M then D c m else impulse axes c (m - M).
(** np.where(self.W.astype(bool)) (2390): the index arrays enumerate positions of W itself, so that an index belongs to them when
    it is within the shape of W and W is not zero there. *)
Definition where_W (wsh : nat -> nat) (W : index -> R) (all : list nat) (i : index) : bool :=
  (forallb (fun ax => Nat.ltb (i ax) (wsh ax)) all && (if Req_EM_T (W i) 0 then false else true))%bool.
Section ams.
Variables (s dsh : nat -> nat) (axes : list nat) (aC aK aM : nat) (M Cd : nat) (D : nat -> nat -> index -> R) (S : nat -> index -> R) (base : index).
Variables (wsh : nat -> nat) (W : index -> R).
(** The index of entry r of the slice of Yi. *)
Definition ams_index (r : nat) : index := upd (place s axes base (r mod size s axes)) aM (r / size s axes).
Definition ams_hit (r : nat) : bool := where_W wsh W (axes ++ [aC; aK; aM]) (ams_index r).
(** ystep (2376-2391). *)
Definition ams_ystep (z : nat -> bool) (nonneg : bool) (lmbda rho : R) (wl1 AX U : vec) : vec :=
  fun i => let n := (M * size s axes)%nat in
    if Nat.ltb i n then cs_ystep z nonneg lmbda rho wl1 AX U i
    else if ams_hit (i - n) then 0 else AX i + U i.
(** The main loop of the inner object; solve and getcoef (2419-2424, 2440) return the first M maps. *)
Definition ams_iterate (rho rlx : R) (z : nat -> bool) (nonneg : bool) (lmbda : R) (wl1 : vec) : nat -> state -> state :=
  iterate eq_A eq_B eq_c rlx (cs_xstep s dsh axes (M + Cd) Cd (ext_dict axes M D) S QNone rho base) (ams_ystep z nonneg lmbda rho wl1).
End ams.
