(** Model of ConvProdDictL1L1Grd and ConvProdDictL1L1GrdJoint of sporco/admm/pdcsc.py (289-703) for real data and a fixed penalty
    parameter.  The arguments and the layout are those of PdcModel: block 0 of the auxiliary variable has the shape of the signal,
    entry (c, k) at c * size + k, and block 1 the shape of the coefficients, entry (b, m, k) at (b * M + m) * size + k; the composite
    array of lines 395-403 is a permutation of the concatenation of the two.  setdict (481-505) keeps nothing which depends on B
    besides Gamma and Q, so the attributes are those of a [pd_fac] with an unused last field.  The cached part of the solution
    (HighMemSolve), LinSolveCheck, NonNegCoef and NoBndryCross are not modelled. *)
Require Import List Arith Reals Bool.
Require Import Verif.RVec Verif.Cplx Verif.FftModel Verif.CscModel Verif.AdmmModel Verif.ProxModel Verif.StepsModel Verif.CscIterModel Verif.CscTwoModel Verif.PdcModel.
Import ListNotations.
Local Open Scope R_scope.

Section Pdg.
Variables (s dsh : nat -> nat) (axes : list nat) (M C Cb : nat) (S : nat -> index -> R) (st : pd_fac) (base : index).
Variables (mu : R) (Wgrd : nat -> R).

(** (self.mu / self.rho) * self.GHGf + 1.0 (519); GHGf (cbpdn.py 2655-2657) has the weights along the filter axis only. *)
Definition pdg_diag (rho : R) (i : index) (m : nat) : R := mu / rho * (Wgrd m * GHGf s axes i) + 1.
(** DZ0fBQ + Z1fQ (514-517). *)
Definition pdg_b (Y0 U0 : nat -> index -> R) (Y1 U1 : nat -> nat -> index -> R) (b m : nat) (i : index) : Cplx.C :=
  cadd (csumn C (fun c => cmul (ofR (sumn Cb (fun b' => f_B st c b' * f_Q st b' b))) (cmul (conj (pd_Df s dsh axes (f_D st) m i)) (rfftn s axes (fun p => Y0 c p - U0 c p + S c p) i))))
       (csumn Cb (fun b' => cmul (ofR (f_Q st b' b)) (rfftn s axes (fun p => Y1 b' m p - U1 b' m p) i))).
(** xstep (508-521). *)
Definition pdg_Xh (rho : R) (Y0 U0 : nat -> index -> R) (Y1 U1 : nat -> nat -> index -> R) (b m : nat) (i : index) : Cplx.C :=
  dbd_sm M (fun k => gDf s dsh axes st b k i) (pdg_diag rho i) (fun k => pdg_b Y0 U0 Y1 U1 b k i) m.
Definition pdg_xstepf (rho : R) (Y0 U0 : nat -> index -> R) (Y1 U1 : nat -> nat -> index -> R) (b m : nat) : index -> Cplx.C :=
  fun i => csumn Cb (fun b' => cmul (ofR (f_Q st b b')) (pdg_Xh rho Y0 U0 Y1 U1 b' m i)).
Definition pdg_x (rho : R) (Y0 U0 : nat -> index -> R) (Y1 U1 : nat -> nat -> index -> R) (b m : nat) : index -> R :=
  irfftn s axes (pdg_xstepf rho Y0 U0 Y1 U1 b m).

(** The number of entries of block 0 and of block 1. *)
Definition pdg_m0 : nat := (C * size s axes)%nat.
Definition pdg_m1 : nat := (Cb * M * size s axes)%nat.
Definition pdg_xs (rho : R) (y u : vec) : vec :=
  cs_flat s axes base (fun k => pdg_x rho (arr s axes (block_sep0 y)) (arr s axes (block_sep0 u))
     (chan M (arr s axes (block_sep1 pdg_m0 y))) (chan M (arr s axes (block_sep1 pdg_m0 u))) (k / M) (k mod M)).
(** cnst_A0 (455-459; the expression is that of reconstruct) and cnst_A0T (471-474). *)
Definition pdg_A0 (x : vec) : vec := cs_flat s axes base (pd_reconstruct s dsh axes M Cb st (chan M (arr s axes x))).
Definition pdg_A0T (y0 : vec) : vec := cs_flat s axes base (fun k => irfftn s axes (fun i =>
  csumn C (fun c => cmul (ofR (f_B st c (k / M)%nat)) (cmul (conj (pd_Df s dsh axes (f_D st) (k mod M) i)) (rfftn s axes (arr s axes y0 c) i))))).
Definition pdg_A (x : vec) : vec := block_cat pdg_m0 (pdg_A0 x) x.
Definition pdg_c : vec := block_cat pdg_m0 (cs_flat s axes base S) (fun _ => 0).
(** The ystep inherited from ConvL1L1Grd (cbpdn.py 2721-2726). *)
Definition pdg_ystep (rho lmbda : R) (wl1 W AX U : vec) : vec :=
  let AXU := fun i => AX i + U i in
  block_cat pdg_m0 (prox_l1 (fun i => block_sep0 AXU i - cs_flat s axes base S i) (fun i => 1 / rho * W i))
    (prox_l1 (block_sep1 pdg_m0 AXU) (fun i => lmbda / rho * wl1 i)).
(** ystep of the joint class (686-692): prox_sl1l2 (prox/_l21.py) along the channel axis, the l1 parameter being zero; the weights
    wl21 do not depend on the channel.  The joint class passes no mask on, so W is an array of ones there. *)
Definition pdgj_ystep (rho lmbda : R) (wl21 W AX U : vec) : vec :=
  let AXU := fun i => AX i + U i in
  let N := (M * size s axes)%nat in
  let V := prox_l1 (block_sep1 pdg_m0 AXU) (fun _ => 0) in
  block_cat pdg_m0 (prox_l1 (fun i => block_sep0 AXU i - cs_flat s axes base S i) (fun i => 1 / rho * W i))
    (fun i => prox_l2 Cb (fun b => V (b * N + i mod N)%nat) (lmbda / rho * wl21 (i mod N)%nat) (i / N)%nat).
Definition pdg_iterate (rlx rho lmbda : R) (wl1 W : vec) : nat -> state -> state :=
  iterate pdg_A tb_B pdg_c rlx (pdg_xs rho) (pdg_ystep rho lmbda wl1 W).
Definition pdgj_iterate (rlx rho lmbda : R) (wl21 W : vec) : nat -> state -> state :=
  iterate pdg_A tb_B pdg_c rlx (pdg_xs rho) (pdgj_ystep rho lmbda wl21 W).
(** getcoef returns block 1 of Y (option ReturnVar, default 'Y1'). *)
Definition pdg_getcoef (v : state) : vec := block_sep1 pdg_m0 (sY v).
(** The dual residual of this class (571), which replaces the one of ConvL1L1Grd (cbpdn.py 2756). *)
Definition pdg_rsdl_s (rho : R) (v : state) : vec := fun i => rho * (pdg_A0T (block_sep0 (sU v)) i + block_sep1 pdg_m0 (sU v) i).
Definition grd_rsdl_s (rho : R) (Yprev Y : vec) : vec :=
  fun i => rho * (pdg_A0T (block_sep0 (fun j => Yprev j - Y j)) i + block_sep1 pdg_m0 (fun j => Yprev j - Y j) i).
End Pdg.
