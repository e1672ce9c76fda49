(** The ADMM iteration of ConvMinL1InL2Ball and ConvBPDNMaskDcpl (sporco/admm/cbpdn.py), for real data.  As in CscIterModel the
    slice of the arrays with the coordinates [base] on the axes which are not filtered is modelled, flattened in C order.  Block 0
    has the shape of the signal, entry (c, k) being at c * size + k; block 1 has the shape of the coefficients.  The axis swap in
    block_sep0 and block_cat (1691-1715) is the change between the layout with a channel axis and this one. *)
Require Import List Arith Reals Bool.
Require Import Verif.RVec Verif.FftModel Verif.CscModel Verif.CscIterModel Verif.ProxModel Verif.AdmmModel Verif.StepsModel.
Import ListNotations.
Local Open Scope R_scope.

Section two.
Variables (s dsh : nat -> nat) (axes : list nat) (M Cd : nat) (D : nat -> nat -> index -> R) (S : nat -> index -> R) (base : index).
Definition blk : nat := (Cd * size s axes)%nat.
(** cnst_A (1724) with cnst_A0 (1747-1750), the transform of X being computed here; cnst_c0 (1778) and c1 = 0. *)
Definition cs2_A (x : vec) : vec := block_cat blk (cs_flat s axes base (reconstruct s dsh axes M D (arr s axes x))) x.
Definition cs2_c : vec := block_cat blk (cs_flat s axes base S) (fun _ => 0).
(** xstep (1615-1631). *)
Definition cs2_xstep (y u : vec) : vec :=
  cs_flat s axes base (xstep2 s dsh axes M Cd D S (arr s axes (block_sep0 y)) (arr s axes (block_sep0 u))
                         (arr s axes (block_sep1 blk y)) (arr s axes (block_sep1 blk u))).
(** NonNegCoef and NoBndryCross of the base class (1652-1660); the entries set to zero by NoBndryCross are marked by [z]. *)
Definition cs2_restrict (z : nat -> bool) (nonneg : bool) (y : vec) : vec := fun i => if z i then 0 else clip nonneg y i.
(** ConvMinL1InL2Ball.ystep (2024-2030): proj_l2 along the filtered axes, for each channel separately. *)
Definition ball_ystep (z : nat -> bool) (nonneg : bool) (rho : R) (wl1 : vec) (epsilon : R) (AX U : vec) : vec :=
  let AXU := fun i => AX i + U i in
  block_cat blk (rows (size s axes) (fun v => proj_l2 (size s axes) v epsilon) (fun i => block_sep0 AXU i - cs_flat s axes base S i))
    (cs2_restrict z nonneg (prox_l1 (block_sep1 blk AXU) (fun i => wl1 i / rho))).
(** ConvBPDNMaskDcpl.ystep (2244-2251); the mask W has the layout of block 0. *)
Definition mask_ystep (z : nat -> bool) (nonneg : bool) (lmbda rho : R) (wl1 W : vec) (AX U : vec) : vec :=
  let AXU := fun i => AX i + U i in
  block_cat blk (fun i => rho * (block_sep0 AXU i - cs_flat s axes base S i) / (W i ^ 2 + rho))
    (cs2_restrict z nonneg (prox_l1 (block_sep1 blk AXU) (fun i => lmbda / rho * wl1 i))).
(** The main loop with fixed penalty parameter; getcoef returns block 1 of Y (option ReturnVar, default 'Y1'). *)
Definition ball_iterate rlx rho z nonneg wl1 epsilon : nat -> state -> state :=
  iterate cs2_A tb_B cs2_c rlx cs2_xstep (ball_ystep z nonneg rho wl1 epsilon).
Definition mask_iterate rlx rho z nonneg lmbda wl1 W : nat -> state -> state :=
  iterate cs2_A tb_B cs2_c rlx cs2_xstep (mask_ystep z nonneg lmbda rho wl1 W).
Definition getcoef (st : state) : vec := block_sep1 blk (sY st).
End two.
