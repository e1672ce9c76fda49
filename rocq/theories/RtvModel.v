(** Model of ConvBPDNRecTV of sporco/admm/cbpdntv.py for real data: constructor (904-953), setdict (957-969), block_sep0 and block_sep1
    (973-997), block_cat (1001-1020), xstep (1024-1079), ystep (1098-1106), cnst_A and cnst_AT (1261-1304), cnst_B (1313), cnst_c (1322),
    with the ADMM iteration of AdmmModel.  Exact arithmetic; LinSolveCheck and the initial values are not part of this model, and
    cnst_A1 is given the transform of X, which is the array Xf that the code passes (RtvProps.C81_Xf).
    Arrays are functions of an index as in FftModel, the filter, channel and component axes being separate arguments.  The generic
    iteration works on vectors, so that arrays are flattened.  The coefficient arrays have Cx channels (the channels of the signal if the
    dictionary has a single one, otherwise 1) and KS signals; the slice t = x * KS + k, with coordinates [bases t] on the axes which are
    not filtered, is that of channel x and signal k.  The gradient component (j, c) of the slice t starts at ((j * Cd + c) * NS + t) * size,
    where NS = Cx * KS, and the copies of the coefficient maps follow, map m of the slice t at offset (m * NS + t) * size.  The code stores
    the copies of the maps before the gradients, and all its operations on Y and U are elementwise or by block_sep0 and block_sep1. *)
Require Import List Arith ZArith Reals Bool.
Require Import Verif.RVec Verif.Cplx Verif.FftModel Verif.CscModel Verif.CscIterModel Verif.ProxModel Verif.AdmmModel Verif.TvdModel.
Import ListNotations.
Local Open Scope R_scope.
Local Notation vec := (nat -> R).

(** ** block_sep1 on the array Y (983-991) for a dictionary with Cd > 1 channels *)
(** Y is a C contiguous array of shape (.., 1, KS, M + dN * Cd), and Y[..., M:] has the shape (.., 1, KS, dN * Cd): the address of its
    element number f in C order, relative to its first one; the axes of the spatial positions are one axis here. *)
Definition sep1_addr (M dN Cd KS f : nat) : nat :=
  (f / (KS * (dN * Cd)) * (KS * (M + dN * Cd)) + f / (dN * Cd) mod KS * (M + dN * Cd) + f mod (dN * Cd))%nat.
(** reshape (991) to (.., Cd, KS, dN) returns a view if there are strides for which the elements stay where they are, and a copy
    otherwise; this is the documented behaviour of NumPy. [N] is the number of spatial positions. *)
Definition reshape_view (N M dN Cd KS : nat) : Prop :=
  exists sn sc sk sj : Z, forall n c k j, (n < N)%nat -> (c < Cd)%nat -> (k < KS)%nat -> (j < dN)%nat ->
    (sn * Z.of_nat n + sc * Z.of_nat c + sk * Z.of_nat k + sj * Z.of_nat j)%Z = Z.of_nat (sep1_addr M dN Cd KS (((n * Cd + c) * KS + k) * dN + j)).

Section rtv.
Variables (s dsh : nat -> nat) (axes : list nat) (M Cd : nat).
Variables (D : nat -> nat -> index -> R) (S : nat -> index -> R).   (* filter m, channel c; signal, channel c *)
Variable G : nat -> index -> R.                                     (* the filters returned by gradient_filters *)
Variable wtv : nat -> R.                                            (* Wtv (923-928), the weight for each filter *)
Notation K := (length axes).

(** 964. *)
Definition GDf (j c m : nat) : index -> C := fun i => cmul (Gf s axes G j i) (cmul (ofR (wtv m)) (Df s dsh axes D c m i)).
(** 1060-1063 and 1072-1075 (with Cd = 1 in the former): the blocks of DfGDf. *)
Definition DfGDf (rho : R) (b m : nat) : index -> C :=
  if Nat.ltb b Cd then Df s dsh axes D b m
  else fun i => cmul (ofR (sqrt rho)) (GDf ((b - Cd) / Cd) ((b - Cd) mod Cd) m i).
(** xstep (1028-1079): [Y0], [U0] and [Y1], [U1] are the parts given by block_sep0 and block_sep1. *)
Definition rtv_xf (rho : R) (Y0 U0 : nat -> index -> R) (Y1 U1 : nat -> nat -> index -> R) (m : nat) : index -> C := fun i =>
  let YUf0 := fun k => rfftn s axes (fun p => Y0 k p - U0 k p) i in
  let YUf1 := fun j c => rfftn s axes (fun p => Y1 j c p - U1 j c p) i in
  let b := fun k => cadd (csumn Cd (fun c => cmul (ofR rho) (csumn K (fun j => cmul (conj (GDf j c k i)) (YUf1 j c)))))
                         (cadd (DSf s dsh axes Cd D S k i) (cmul (ofR rho) (YUf0 k))) in
  mdbi_ism M (Cd + K * Cd) (fun r k => DfGDf rho r k i) (fun _ => rho) b m.
Definition rtv_x (rho : R) (Y0 U0 : nat -> index -> R) (Y1 U1 : nat -> nat -> index -> R) (m : nat) : index -> R := irfftn s axes (rtv_xf rho Y0 U0 Y1 U1 m).
(** cnst_A1 (1267-1271) and cnst_A1T (1281-1283). *)
Definition rtv_A1 (X : nat -> index -> R) (j c : nat) : index -> R :=
  irfftn s axes (fun i => csumn M (fun m => cmul (GDf j c m i) (rfftn s axes (X m) i))).
Definition rtv_A1T (Y1 : nat -> nat -> index -> R) (j c m : nat) : index -> R :=
  irfftn s axes (fun i => cmul (conj (GDf j c m i)) (rfftn s axes (Y1 j c) i)).
(** cnst_AT (1303-1304): the sum is over the last axis only, so that the result has an entry for each channel of the dictionary. *)
Definition rtv_AT (Y0 : nat -> index -> R) (Y1 : nat -> nat -> index -> R) (c m : nat) : index -> R := fun p =>
  Y0 m p + sumn K (fun j => rtv_A1T Y1 j c m p).

(** Flattened arrays. *)
Variables (Cx KS : nat) (bases : nat -> index).
Notation NS := (Cx * KS)%nat.
Notation P := (size s axes).
Notation o := (K * Cd * NS * P)%nat.                              (* the number of entries of the gradient components *)
Definition sep0 (y : vec) (t m : nat) : index -> R := fun p => y (o + (m * NS + t) * P + rank s axes p)%nat.
Definition sep1 (y : vec) (t j c : nat) : index -> R := slice s axes y ((j * Cd + c) * NS + t).
Definition rtv_xstep (rho : R) (y u : vec) : vec :=
  at_flat s axes NS bases (fun q => rtv_x rho (sep0 y (q mod NS)) (sep0 u (q mod NS)) (sep1 y (q mod NS)) (sep1 u (q mod NS)) (q / NS)).
Definition maps (x : vec) (t m : nat) : index -> R := slice s axes x (m * NS + t).
(** cnst_A (1293), block_cat (1001-1020). *)
Definition rtv_cnst_A (x : vec) : vec := fun r =>
  if Nat.ltb r o then at_flat s axes NS bases (fun q => rtv_A1 (maps x (q mod NS)) (q / NS / Cd) ((q / NS) mod Cd)) r
  else if Nat.ltb r (o + M * NS * P) then x (r - o)%nat else 0.

(** ystep (1102-1106). Line 1105 assigns to the array returned by block_sep1, which is a part of Y unless reshape has made a copy; in
    this case ([written] is false) the assignment has no effect on Y. *)
Definition rtv_ystep (written : bool) (lmbda mu rho : R) (wl1 Y AX U : vec) : vec := fun i =>
  if Nat.ltb i o then
    (if written then
       let Q := (KS * P)%nat in
       prox_l2 (K * Cd * Cx) (fun r => AX (r * Q + i mod Q)%nat + U (r * Q + i mod Q)%nat) (mu / rho) (i / Q)
     else Y i)
  else prox_l1 (fun k => AX (o + k)%nat + U (o + k)%nat) (fun k => lmbda / rho * wl1 k) (i - o).
(** The main loop (admm.py 334-346) with relax_AX (1331-1343) and ustep (admm.py 437). *)
Definition rtv_iteration (written : bool) (lmbda mu rho rlx : R) (wl1 : vec) (st : state) : state :=
  let X := rtv_xstep rho (sY st) (sU st) in
  let AX := relax_AX rtv_cnst_A eq_B (fun _ => 0) rlx X (sY st) in
  let Y := rtv_ystep written lmbda mu rho wl1 (sY st) AX (sU st) in
  mkState X Y (ustep eq_B (fun _ => 0) AX Y (sU st)) (sY st).
Fixpoint rtv_iterate (written : bool) (lmbda mu rho rlx : R) (wl1 : vec) (k : nat) (st : state) : state :=
  match k with O => st | Datatypes.S k' => rtv_iteration written lmbda mu rho rlx wl1 (rtv_iterate written lmbda mu rho rlx wl1 k' st) end.
End rtv.
