(** The ADMM iteration of ConvL1L1Grd (sporco/admm/cbpdn.py 2488-2773), for real data, with the layout of CscTwoModel: block 0 has
    the shape of the signal and block 1 the shape of the coefficients. The options NonNegCoef and NoBndryCross, which the y step
    inherits, are not modelled (they are off by default). *)
Require Import List Arith Reals Bool.
Require Import Verif.RVec Verif.Cplx Verif.FftModel Verif.CscModel Verif.CscIterModel Verif.CscTwoModel Verif.ProxModel Verif.AdmmModel Verif.StepsModel.
Import ListNotations.
Local Open Scope R_scope.

Section grd.
Variables (s dsh : nat -> nat) (axes : list nat) (M Cd : nat) (D : nat -> nat -> index -> R) (S : nat -> index -> R) (base : index).
Variables (mu : R) (Wgrd : nat -> R).
(** (self.mu / self.rho) * self.GHGf + 1.0 with GHGf of lines 2655-2657. *)
Definition grd_diag (rho : R) (i : index) (m : nat) : R := mu / rho * (Wgrd m * GHGf s axes i) + 1.
(** xstep (2681-2699). *)
Definition grd_xstepf (rho : R) (Y0 U0 Y1 U1 : nat -> index -> R) (m : nat) : index -> C :=
  fun i => let YUf0 := fun c => rfftn s axes (fun p => Y0 c p - U0 c p + S c p) i in
    let b := fun k => cadd (csumn Cd (fun c => cmul (conj (Df s dsh axes D c k i)) (YUf0 c))) (rfftn s axes (fun p => Y1 k p - U1 k p) i) in
    (if Nat.eqb Cd 1 then dbd_sm M (fun k => Df s dsh axes D O k i) (grd_diag rho i) b
     else mdbi_ism M Cd (fun c k => Df s dsh axes D c k i) (grd_diag rho i) b) m.
Definition grd_x (rho : R) (Y0 U0 Y1 U1 : nat -> index -> R) (m : nat) : index -> R := irfftn s axes (grd_xstepf rho Y0 U0 Y1 U1 m).
Definition grd_xstep (rho : R) (y u : vec) : vec :=
  cs_flat s axes base (grd_x rho (arr s axes (block_sep0 y)) (arr s axes (block_sep0 u))
                         (arr s axes (block_sep1 (blk s axes Cd) y)) (arr s axes (block_sep1 (blk s axes Cd) u))).
(** ystep (2721-2724). *)
Definition grd_ystep (lmbda rho : R) (wl1 W AX U : vec) : vec :=
  let AXU := fun i => AX i + U i in
  block_cat (blk s axes Cd) (prox_l1 (fun i => block_sep0 AXU i - cs_flat s axes base S i) (fun i => 1 / rho * W i))
    (prox_l1 (block_sep1 (blk s axes Cd) AXU) (fun i => lmbda / rho * wl1 i)).
(** The main loop with fixed penalty parameter. *)
Definition grd_iterate (rlx rho lmbda : R) (wl1 W : vec) : nat -> state -> state :=
  iterate (cs2_A s dsh axes M Cd D base) tb_B (cs2_c s axes Cd S base) rlx (grd_xstep rho) (grd_ystep lmbda rho wl1 W).
End grd.
