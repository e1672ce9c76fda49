(** The dictionary update solvers for real data: ConvCnstrMOD_IterSM (sporco/admm/ccmod.py 496-505) and ConvCnstrMOD_Consensus
    (787-838) with the base class ConvCnstrMODBase (275-366), and the proximal gradient solver ConvCnstrMOD of sporco/pgm/ccmod.py
    (231-323) with PGMDFT.xstep (pgm.py 796-799).  Exact arithmetic.  Arrays are functions of an index with [dN] spatial axes, the
    channel axis [dN], the signal axis [dN + 1] and the filter axis [dN + 2].  [K] is the number of entries on the signal axis: the
    number of signals, times the number of channels when the dictionary has one channel and the signal more (the reshape in lines
    275-277, 320-322).  The coefficient maps have one channel after this reshape.  LinSolveCheck, which changes no variable of the
    iteration, is left out; the conjugate gradient variant is not modelled. *)
Require Import List Arith Reals Bool.
Require Import Verif.RVec Verif.Cplx Verif.FftModel Verif.CscModel Verif.PcnModel.
Require Verif.CnvrepModel.
Import ListNotations.
Local Open Scope R_scope.

Section ccm.
Variables (nv : nat -> nat) (dN dC Cd K M : nat) (dsz : CnvrepModel.dsize) (zm : bool).
Variables (Z S : index -> R).
Definition axN : list nat := seq 0 dN.
Definition Zk (k m : nat) (p : index) : R := Z (upd (upd (upd p dN O) (dN + 1) k) (dN + 2) m).
Definition Sk (k : nat) (p : index) : R := S (upd (upd p (dN + 1) k) (dN + 2) O).
(** Filter [m] of a dictionary array. *)
Definition fil (d : index -> R) (m : nat) (p : index) : R := d (upd (upd p (dN + 1) O) (dN + 2) m).
(** setcoef (325-327); pgm/ccmod.py 279. *)
Definition Zf (k m : nat) : index -> C := Df nv nv axN Zk k m.
Definition Sfk (k : nat) : index -> C := Sf nv axN Sk k.
Definition ZSf (m : nat) (i : index) : C := csumn K (fun k => cmul (conj (Zf k m i)) (Sfk k i)).
(** The constraint function: getPcn with crp False (286-287, 723-724; pgm/ccmod.py 242-243) on an array of shape shpD. *)
Definition dshape : nat -> nat := fun a => if Nat.ltb a dN then nv a else if Nat.eqb a dN then Cd else if Nat.eqb a (dN + 2) then M else 1%nat.
Definition cPcn (x : index -> R) : index -> R := val (getPcn dsz nv dN dC false zm (mkArr dshape x)).

(** ConvCnstrMOD_IterSM.xstep (500-504). *)
Definition ism_xf (rho : R) (Y U : index -> R) (m : nat) (i : index) : C :=
  mdbi_ism M K (fun k m => Zf k m i) (fun _ => rho)
    (fun m => cadd (ZSf m i) (cmul (ofR rho) (rfftn nv axN (fun p => fil Y m p - fil U m p) i))) m.
(** Spectra have the filter as a separate argument; the coordinates of the index on the signal and filter axes are not used. *)
Definition offKM (p : index) : index := upd (upd p (dN + 1) O) (dN + 2) O.
Definition ism_x (rho : R) (Y U : index -> R) : index -> R := fun p => irfftn nv axN (ism_xf rho Y U (p (dN + 2)%nat)) (offKM p).
(** One iteration (admm.py 334-346) with relax_AX of ADMMEqual, ystep (366) and ustep. *)
Definition ism_ax (rho rlx : R) (Y U : index -> R) : index -> R := fun p => rlx * ism_x rho Y U p + (1 - rlx) * Y p.
Definition ism_y (rho rlx : R) (Y U : index -> R) : index -> R := cPcn (fun p => ism_ax rho rlx Y U p + U p).
Definition ism_u (rho rlx : R) (Y U : index -> R) : index -> R := fun p => U p + ism_ax rho rlx Y U p - ism_y rho rlx Y U p.

(** ConvCnstrMOD_Consensus.xstep (800-807) and xistep (830-838): the block of signal [k]. *)
Definition cns_xf (rho : R) (k : nat) (Y Uk : index -> R) (m : nat) (i : index) : C :=
  dbi_sm M (fun m => Zf k m i) rho
    (fun m => cadd (cmul (conj (Zf k m i)) (Sfk k i)) (cmul (ofR rho) (rfftn nv axN (fun p => fil Y m p - fil Uk m p) i))) m.
Definition cns_x (rho : R) (k : nat) (Y Uk : index -> R) : index -> R := fun p => irfftn nv axN (cns_xf rho k Y Uk (p (dN + 2)%nat)) (offKM p).
(** relax_AX (admm.py 1611-1616), ystep (1589-1591) with prox_g (845), and ustep. *)
Definition cns_ax (rho rlx : R) (Y : index -> R) (U : nat -> index -> R) (k : nat) : index -> R :=
  fun p => rlx * cns_x rho k Y (U k) p + (1 - rlx) * Y p.
Definition cns_y (rho rlx : R) (Y : index -> R) (U : nat -> index -> R) : index -> R :=
  cPcn (fun p => sumn K (fun k => cns_ax rho rlx Y U k p + U k p) / INR K).
Definition cns_u (rho rlx : R) (Y : index -> R) (U : nat -> index -> R) (k : nat) : index -> R :=
  fun p => U k p + cns_ax rho rlx Y U k p - cns_y rho rlx Y U p.

(** pgm/ccmod.py grad_f (301-303) and eval_Rf (316); the sum over the channel axis (306-307) is over an axis of length one. *)
Definition gradf (Vf : nat -> index -> C) (m : nat) (i : index) : C :=
  csumn K (fun k => cmul (conj (Zf k m i)) (csub (csumn M (fun j => cmul (Zf k j i) (Vf j i))) (Sfk k i))).
(** PGMDFT.xstep (796-799) from the dictionary [Y]. *)
Definition pgm_vf (L : R) (Y : index -> R) (m : nat) (i : index) : C :=
  let Yf := fun j => rfftn nv axN (fil Y j) in csub (Yf m i) (cmul (ofR (1 / L)) (gradf Yf m i)).
Definition pgm_x (L : R) (Y : index -> R) : index -> R := cPcn (fun p => irfftn nv axN (pgm_vf L Y (p (dN + 2)%nat)) (offKM p)).
End ccm.
