(** The dictionary update with mask decoupling for real data, sporco/admm/ccmodmd.py: ConvCnstrMODMaskDcpl_IterSM (638-652) with
    ConvCnstrMODMaskDcplBase (244-304, 338-567), and ConvCnstrMODMaskDcpl_Consensus (840-1001) with ConvCnstrMOD_Consensus
    (admm/ccmod.py 787-845).  Exact arithmetic.  The layout of the arrays is that of [CcmModel]: [dN] spatial axes, the channel axis
    [dN], the signal axis [dN + 1] and the filter axis [dN + 2]; [K] is the number of entries on the signal axis after the reshapes in
    lines 290-293 and 335-337.  LinSolveCheck, which changes no variable of the iteration, the normalisation of the residuals and
    their thresholds, and the conjugate gradient variant (658-760) are not modelled. *)
Require Import List Arith Reals Bool.
Require Import Verif.RVec Verif.Cplx Verif.FftModel Verif.CscModel Verif.PcnModel Verif.CcmModel.
Require Verif.CnvrepModel.
Import ListNotations.
Local Open Scope R_scope.

(** The mask for a single channel dictionary and a signal with several channels (258-268, 855-865): [w] has lengths [wC] and [wK] on
    the channel and signal axes; the result is the length of the merged axis and its values.  Spatial axes are not affected. *)
Definition bc (n j : nat) : nat := if Nat.eqb n 1 then O else j.
Definition mask_merge (C K wC wK : nat) (w : nat -> nat -> R) : nat * (nat -> R) :=
  let swck := (wC * wK)%nat in
  let '(sC, sK) := if (Nat.ltb 1 swck && Nat.ltb swck (C * K))%bool
    then if (Nat.eqb wK 1 && Nat.ltb 1 K)%bool then (wC, K) else (C, wK) else (wC, wK) in
  ((sC * sK)%nat, fun j => w (bc wC (j / sK)) (bc wK (j mod sK))).
(** Reading an axis of length [n] under numpy broadcasting. *)
Definition read (m : nat * (nat -> R)) (j : nat) : R := snd m (bc (fst m) j).

Section mdu.
Variables (nv : nat -> nat) (dN dC Cd K M : nat) (dsz : CnvrepModel.dsize) (zm : bool).
Variables (Z S : index -> R).
(** The mask array and its shape (244-245, 270), read with broadcasting. *)
Variables (wsh : nat -> nat) (W : index -> R).
Definition Wv (p : index) : R := W (fun a => bc (wsh a) (p a)).

(** block_sep0 (418-420), block_sep1 (admm.py 1142) and block_cat (443-445). *)
Definition swapKM (p : index) : index := fun a => if Nat.eqb a (dN + 1) then p (dN + 2)%nat else if Nat.eqb a (dN + 2) then p (dN + 1)%nat else p a.
Definition bsep0 (Y : index -> R) : index -> R := fun p => Y (swapKM p).
Definition bsep1 (Y : index -> R) : index -> R := fun p => Y (upd p (dN + 2) (K + p (dN + 2)%nat)).
Definition bcat (Y0 Y1 : index -> R) : index -> R :=
  fun p => if Nat.ltb (p (dN + 2)%nat) K then Y0 (swapKM p) else Y1 (upd p (dN + 2) (p (dN + 2)%nat - K)).

(** cnst_A0 (479-480) on a spectrum and cnst_A0T (492-495). *)
Definition mA0 (Xf : nat -> index -> C) : index -> R :=
  fun p => irfftn nv (axN dN) (fun i => csumn M (fun m => cmul (Zf nv dN Z (p (dN + 1)%nat) m i) (Xf m i))) (offKM dN p).
Definition mA0T (Y0 : index -> R) : index -> R :=
  fun p => irfftn nv (axN dN) (fun i => csumn K (fun k => cmul (conj (Zf nv dN Z k (p (dN + 2)%nat) i)) (rfftn nv (axN dN) (Sk dN Y0 k) i))) (offKM dN p).

(** ConvCnstrMODMaskDcpl_IterSM.xstep (643-651): the system of ConvCnstrMOD_IterSM with parameter 1.0 and the array of line 644 in
    place of the signal. *)
Definition mdu_sig (Y U : index -> R) : index -> R := fun p => bsep0 Y p - bsep0 U p + S p.
Definition mdu_xf (Y U : index -> R) : nat -> index -> C := ism_xf nv dN K M Z (mdu_sig Y U) 1 (bsep1 Y) (bsep1 U).
Definition mdu_x (Y U : index -> R) : index -> R := ism_x nv dN K M Z (mdu_sig Y U) 1 (bsep1 Y) (bsep1 U).
(** relax_AX (390-396). *)
Definition mdu_axnr (Y U : index -> R) : index -> R := bcat (mA0 (mdu_xf Y U)) (mdu_x Y U).
Definition mdu_ax (rlx : R) (Y U : index -> R) : index -> R :=
  fun p => rlx * mdu_axnr Y U p + (1 - rlx) * bcat (fun q => bsep0 Y q + S q) (bsep1 Y) p.
(** ystep (379-383). *)
Definition mdu_y (rho rlx : R) (Y U : index -> R) : index -> R :=
  let axu := fun p => mdu_ax rlx Y U p + U p in
  bcat (fun p => rho * (bsep0 axu p - S p) / (Wv p ^ 2 + rho)) (cPcn nv dN dC Cd M dsz zm (bsep1 axu)).
(** rsdl_r (admm.py 1398-1399) with cnst_c0 (504) and cnst_c1 (1342), and ustep (437). *)
Definition mdu_rsdl (AX Y : index -> R) : index -> R := fun p => AX p - bcat (fun q => bsep0 Y q + S q) (fun q => bsep1 Y q + 0) p.
Definition mdu_u (rho rlx : R) (Y U : index -> R) : index -> R := fun p => U p + mdu_rsdl (mdu_ax rlx Y U) (mdu_y rho rlx Y U) p.
(** numpy.linalg.norm of an array, and the residuals: rsdl_r of AXnr and the new Y, and rsdl_s (560) with cnst_AT (admm.py 1299-1300)
    of the new U. *)
Definition anorm (sh : nat -> nat) (x : index -> R) : R := sqrt (rsum sh (seq 0 (dN + 3)) (fun p => x p * x p) (fun _ => O)).
Definition bshape : nat -> nat := fun a => if Nat.ltb a dN then nv a else if Nat.eqb a dN then Cd else if Nat.eqb a (dN + 2) then (K + M)%nat else 1%nat.
Definition mdu_r (rho rlx : R) (Y U : index -> R) : R := anorm bshape (mdu_rsdl (mdu_axnr Y U) (mdu_y rho rlx Y U)).
Definition mdu_s (rho rlx : R) (Y U : index -> R) : R :=
  let V := mdu_u rho rlx Y U in rho * anorm (dshape nv dN Cd M) (fun p => mA0T (bsep0 V) p + bsep1 V p).
(** obfn_g0 (524) at obfn_g0var (464-465) with the default AuxVarObj False. *)
Definition sshape : nat -> nat := fun a => if Nat.ltb a dN then nv a else if Nat.eqb a dN then Cd else if Nat.eqb a (dN + 1) then K else 1%nat.
Definition mdu_dfid (Y U : index -> R) : R := anorm sshape (fun p => Wv p * (mA0 (mdu_xf Y U) p - S p)) ^ 2 / 2.

(** ConvCnstrMODMaskDcpl_Consensus.xstep (937-943): the block of signal [k], with rho set to 1.0 during the step (941). *)
Definition mcns_xf (k : nat) (Y Uk Y1 U1 : index -> R) (m : nat) (i : index) : C :=
  dbi_sm M (fun m => Zf nv dN Z k m i) 1
    (fun m => cadd (cmul (conj (Zf nv dN Z k m i)) (cadd (Sfk nv dN S k i) (rfftn nv (axN dN) (Sk dN (fun p => Y1 p - U1 p) k) i)))
                   (cmul (ofR 1) (rfftn nv (axN dN) (fun p => fil dN Y m p - fil dN Uk m p) i))) m.
Definition mcns_x (k : nat) (Y Uk Y1 U1 : index -> R) : index -> R :=
  fun p => irfftn nv (axN dN) (mcns_xf k Y Uk Y1 U1 (p (dN + 2)%nat)) (offKM dN p).
(** relax_AX (admm.py 1611-1616 and ccmodmd.py 916-923). *)
Definition mcns_ax (rlx : R) (Y : index -> R) (U : nat -> index -> R) (Y1 U1 : index -> R) (k : nat) : index -> R :=
  fun p => rlx * mcns_x k Y (U k) Y1 U1 p + (1 - rlx) * Y p.
Definition mcns_ax1nr (Y : index -> R) (U : nat -> index -> R) (Y1 U1 : index -> R) : index -> R :=
  fun p => let k := p (dN + 1)%nat in
    irfftn nv (axN dN) (fun i => csumn M (fun m => cmul (Zf nv dN Z k m i) (mcns_xf k Y (U k) Y1 U1 m i))) (offKM dN p).
Definition mcns_ax1 (rlx : R) (Y : index -> R) (U : nat -> index -> R) (Y1 U1 : index -> R) : index -> R :=
  fun p => rlx * mcns_ax1nr Y U Y1 U1 p + (1 - rlx) * (Y1 p + S p).
(** ystep (953-955) and ustep (965-966). *)
Definition mcns_y (rlx : R) (Y : index -> R) (U : nat -> index -> R) (Y1 U1 : index -> R) : index -> R :=
  cPcn nv dN dC Cd M dsz zm (fun p => sumn K (fun k => mcns_ax rlx Y U Y1 U1 k p + U k p) / INR K).
Definition mcns_y1 (rho rlx : R) (Y : index -> R) (U : nat -> index -> R) (Y1 U1 : index -> R) : index -> R :=
  fun p => rho * ((mcns_ax1 rlx Y U Y1 U1 p + U1 p) - S p) / (Wv p ^ 2 + rho).
Definition mcns_u (rlx : R) (Y : index -> R) (U : nat -> index -> R) (Y1 U1 : index -> R) (k : nat) : index -> R :=
  fun p => U k p + (mcns_ax rlx Y U Y1 U1 k p - mcns_y rlx Y U Y1 U1 p).
Definition mcns_u1 (rho rlx : R) (Y : index -> R) (U : nat -> index -> R) (Y1 U1 : index -> R) : index -> R :=
  fun p => U1 p + (mcns_ax1 rlx Y U Y1 U1 p - mcns_y1 rho rlx Y U Y1 U1 p - S p).
(** compute_residuals (992-1001). *)
Definition mcns_r (rho rlx : R) (Y : index -> R) (U : nat -> index -> R) (Y1 U1 : index -> R) : R :=
  sqrt (sumn K (fun k => anorm (dshape nv dN Cd M) (fun p => mcns_x k Y (U k) Y1 U1 p - mcns_y rlx Y U Y1 U1 p) ^ 2)
        + anorm sshape (fun p => mcns_ax1nr Y U Y1 U1 p - mcns_y1 rho rlx Y U Y1 U1 p - S p) ^ 2).
Definition mcns_s (rho rlx : R) (Y : index -> R) (U : nat -> index -> R) (Y1 U1 : index -> R) : R :=
  rho * sqrt (sumn K (fun k => anorm (dshape nv dN Cd M) (fun p => mcns_u rlx Y U Y1 U1 k p +
    irfftn nv (axN dN) (fun i => cmul (conj (Zf nv dN Z k (p (dN + 2)%nat) i)) (rfftn nv (axN dN) (Sk dN (mcns_u1 rho rlx Y U Y1 U1) k) i)) (offKM dN p)) ^ 2)).
End mdu.
