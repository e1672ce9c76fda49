(** Model of the dictionary constraint projections of sporco/cnvrep.py: zeromean (609-669), normalise (673-700), zpad
    (704-725), bcrop (729-864), Pcn (868-912), getPcn and its four functions (916-1074), on real arrays in the internal
    layout: [dimN] spatial axes, then channel, signal and filter axes. Exact arithmetic. The sizes in [dsz] are assumed
    not to exceed those of the array (otherwise numpy raises an exception or clips the slices; not modelled). *)
Require Import List Arith Reals Bool.
Require Import Verif.RVec Verif.FftModel.
Require Verif.CnvrepModel.
Import ListNotations.
Local Open Scope R_scope.

Record arr := mkArr { shp : nat -> nat; val : index -> R }.

(** The region addressed by one of the slices cbslc, mbslc and axnslc: leading spatial sizes, a range of channels
    (none: all), a range of filters (none: all). *)
Record box := mkBox { bx : list nat; bc_ : option (nat * nat); bm : option (nat * nat) }.

Definition in_range (r : option (nat * nat)) (i : nat) : bool :=
  match r with None => true | Some (a, b) => (Nat.leb a i && Nat.ltb i b)%bool end.
Definition in_spat (dN : nat) (t : nat -> nat) (idx : index) : bool := forallb (fun i => Nat.ltb (idx i) (t i)) (seq 0 dN).
Definition bsz (b : box) : nat -> nat := fun i => nth i (bx b) O.
(** The channel axis is [dN], and the filter axis the last, [dL]. *)
Definition sel (dN dL : nat) (b : box) (idx : index) : bool := (in_range (bc_ b) (idx dN) && in_range (bm b) (idx dL))%bool.
Definition in_box (dN dL : nat) (b : box) (idx : index) : bool := (in_spat dN (bsz b) idx && sel dN dL b idx)%bool.

(** The slices of the loops over blocks (636-662, 826-859): m0, m1 and c0, c1 are the running indices. *)
Fixpoint cboxes (dN m0 m1 c0 : nat) (szs : list (list nat)) : list box :=
  match szs with
  | [] => []
  | s :: r => let c1 := (c0 + nth (length s - 2) s O)%nat in
              mkBox (firstn dN s) (Some (c0, c1)) (Some (m0, m1)) :: cboxes dN m0 m1 c1 r
  end.
Fixpoint mboxes (dN m0 : nat) (bs : list CnvrepModel.block) : list box :=
  match bs with
  | [] => []
  | CnvrepModel.Blk s :: r =>
      let m1 := (m0 + last s O)%nat in
      mkBox (firstn dN s) (if Nat.eqb (length s) (dN + 1) then None else Some (O, nth dN s O)) (Some (m0, m1)) :: mboxes dN m1 r
  | CnvrepModel.CBlk l :: r =>
      let m1 := (m0 + last (hd [] l) O)%nat in
      cboxes dN m0 m1 O l ++ mboxes dN m1 r
  end.
Definition boxes (dN : nat) (d : CnvrepModel.dsize) : list box :=
  match d with
  | CnvrepModel.Flat s => [mkBox (firstn dN s) None None]
  | CnvrepModel.Blocks bs => mboxes dN O bs
  end.

(** bcrop: a view of the leading region for a single size; for blocks, an array of the maximal size, zero but for the
    regions copied. *)
Definition bcrop (dN dL : nat) (d : CnvrepModel.dsize) (v : arr) : arr :=
  match d with
  | CnvrepModel.Flat s => mkArr (fun i => if Nat.ltb i dN then nth i s O else shp v i) (val v)
  | CnvrepModel.Blocks bs =>
      mkArr (fun i => if Nat.ltb i dN then fold_right (fun b m => Nat.max (bsz b i) m) O (boxes dN d) else shp v i)
            (fun idx => fold_left (fun acc b => if in_box dN dL b idx then val v idx else acc) (boxes dN d) 0)
  end.

(** zpad to the spatial sizes [nv]. *)
Definition zpad (dN : nat) (nv : nat -> nat) (v : arr) : arr :=
  mkArr (fun i => if Nat.ltb i dN then nv i else shp v i) (fun idx => if in_spat dN (shp v) idx then val v idx else 0).

(** zeromean: in each region, subtract the mean over the spatial axes of the region. *)
Definition mean (dN : nat) (b : box) (v : arr) (idx : index) : R := rsum (bsz b) (seq 0 dN) (val v) idx / prodn (bsz b) (seq 0 dN).
Definition zeromean (dN dL : nat) (d : CnvrepModel.dsize) (v : arr) : arr :=
  mkArr (shp v) (fun idx => fold_left (fun acc b => if in_box dN dL b idx then acc - mean dN b v idx else acc) (boxes dN d) (val v idx)).

(** normalise over the first [nax] axes. *)
Definition normalise (nax : nat) (v : arr) : arr :=
  mkArr (shp v) (fun idx => let vn := sqrt (rsum (shp v) (seq 0 nax) (fun i => val v i * val v i) idx) in
                            val v idx / (if Req_EM_T vn 0 then 1 else vn)).

(** Pcn (898-912): [dN + 2] is the filter axis. *)
Definition Pcn (d : CnvrepModel.dsize) (nv : nat -> nat) (dN dC : nat) (crp zm : bool) (x : arr) : arr :=
  let zpadfn := if crp then (fun a => a) else zpad dN nv in
  let zmeanfn := if zm then zeromean dN (dN + 2) d else (fun a => a) in
  normalise (dN + dC) (zmeanfn (zpadfn (bcrop dN (dN + 2) d x))).

(** The functions returned by getPcn: _Pcn (980), _Pcn_zm (1011: dimN is not passed to zeromean, so that it is 2), _Pcn_crp
    (1042) and _Pcn_zm_crp (1074). *)
Definition getPcn (d : CnvrepModel.dsize) (nv : nat -> nat) (dN dC : nat) (crp zm : bool) : arr -> arr :=
  match crp, zm with
  | false, false => fun x => normalise (dN + dC) (zpad dN nv (bcrop dN (dN + 2) d x))
  | false, true => fun x => normalise (dN + dC) (zeromean 2 (dN + 2) d (zpad dN nv (bcrop dN (dN + 2) d x)))
  | true, false => fun x => normalise (dN + dC) (bcrop dN (dN + 2) d x)
  | true, true => fun x => normalise (dN + dC) (zeromean dN (dN + 2) d (bcrop dN (dN + 2) d x))
  end.
