(** The proximal gradient solvers for convolutional sparse coding, sporco/pgm/cbpdn.py ConvBPDN (190-381) and ConvBPDNMask (412-508),
    for any number of spatial axes, channels, filters and signals, real data and exact arithmetic; the iteration is that of PGMDFT
    ([PgmModel.drun]), with a fixed step parameter L (no backtracking and no step size policy).
    Layout: [dN] spatial axes 0 .. dN - 1 of the lengths [Nv]; axis [dN] counts the [B] slices of the coefficient maps, i.e. the signals for
    a dictionary with several channels, and the pairs of a channel and a signal for a dictionary with one channel.  The code keeps channels
    and signals on two axes and broadcasts; the operations act on each slice alike.  The [Cd] channels of the dictionary and of the signals
    fitted with it are a separate argument; sums over all entries of an array are sums over the channels of sums over the other axes.  Coefficient maps are vectors for [PgmModel]: entry k of map m is at m * P + k, where k counts the positions of all slices.
    Transformed arrays have the same layout; the code stores the half of the spectrum that rfftn returns, of which irfftn is a function
    ([FftModel]). *)
Require Import List Arith Reals Bool.
Require Import Verif.RVec Verif.Cplx Verif.FftModel Verif.CscModel Verif.CscIterModel Verif.ProxModel Verif.PgmModel.
Import ListNotations.
Local Open Scope R_scope.

Section pgn.
Variables (Nv dsh : nat -> nat) (dN B Cd M : nat).
(** D c m: filter [m], channel [c], of size [dsh]; S c: channel [c] of the signals, with the slice on axis [dN]. *)
Variables (D : nat -> nat -> index -> R) (S : nat -> index -> R).
Definition pshape : nat -> nat := fun a => if Nat.ltb a dN then Nv a else if Nat.eqb a dN then B else 1%nat.
Definition paxN : list nat := seq 0 dN.
Definition paxB : list nat := dN :: seq 0 dN.
Definition pP : nat := size pshape paxB.
Definition pat (k : nat) : index := place pshape paxB idx0 k.
Definition pspec := nat -> nat -> C.
Definition pcut (h : pspec) : pspec := fun m k => if (Nat.ltb m M && Nat.ltb k pP)%bool then h m k else c0.
Definition padd (a b : pspec) : pspec := fun m k => cadd (a m k) (b m k).
Definition pscal (r : R) (a : pspec) : pspec := fun m k => cmul (ofR r) (a m k).
(** rfftn and irfftn of arrays of coefficient maps (pgm.py 797, 800; cbpdn.py 239). *)
Definition pn_fwd (x : vec) : pspec := pcut (fun m k => rfftn pshape paxN (arr pshape paxB x m) (pat k)).
Definition pn_un (h : pspec) (m : nat) (i : index) : C := h m (rank pshape paxB i).
Definition pn_inv (h : pspec) : vec := fun r => irfftn pshape paxN (pn_un h (r / pP)) (pat (r mod pP)).
(** The dictionary is the same for all slices (setdict 252); Sf (226). *)
Definition pD (c m : nat) (p : index) : R := D c m (upd p dN O).
Definition pn_Df (c m : nat) : index -> C := Df pshape dsh paxN pD c m.
Definition pn_Sf (c : nat) : index -> C := Sf pshape paxN S c.
(** inner over the filter axis, eval_Rf (284), grad_f (269-277; the sum over one channel is that channel) and hessian_f (305-310). *)
Definition pn_syn (Vf : pspec) (c : nat) (i : index) : C := csumn M (fun m => cmul (pn_Df c m i) (pn_un Vf m i)).
Definition pn_Rf (Vf : pspec) (c : nat) (i : index) : C := csub (pn_syn Vf c i) (pn_Sf c i).
Definition pn_grad (Vf : pspec) : pspec := pcut (fun m k => csumn Cd (fun c => cmul (conj (pn_Df c m (pat k))) (pn_Rf Vf c (pat k)))).
Definition pn_hess (Vf : pspec) : pspec := pcut (fun m k => csumn Cd (fun c => cmul (conj (pn_Df c m (pat k))) (pn_syn Vf c (pat k)))).
(** obfn_dfd (343-344). *)
Definition pn_dfd (Xf : pspec) : R := sumn Cd (fun c => rfl2norm2 (dN + 1) pshape paxN (pn_Rf Xf c)) / 2.
(** reconstruct (379-381). *)
Definition pn_recon (X : vec) (c : nat) : index -> R := irfftn pshape paxN (pn_syn (pn_fwd X) c).
(** ConvBPDNMask: [Wm c] is the mask (with broadcasting, see C66) of channel [c]; grad_f (462-477) and obfn_dfd (486-489). *)
Variable Wm : nat -> index -> R.
Definition pnm_grad (Vf : pspec) : pspec := pcut (fun m k => csumn Cd (fun c =>
  cmul (conj (pn_Df c m (pat k))) (rfftn pshape paxN (fun p => Wm c p ^ 2 * irfftn pshape paxN (pn_Rf Vf c) p) (pat k)))).
Definition pnm_dfd (Xf : pspec) : R :=
  sqrt (sumn Cd (fun c => rsum pshape (seq 0 (dN + 1)) (fun p => (Wm c p * irfftn pshape paxN (pn_Rf Xf c) p) ^ 2) idx0)) ^ 2 / 2.
(** prox_g (291-298) with NonNegCoef, and NoBndryCross, which sets the entries [z] to zero (see C59); obfn_reg (353-354). *)
Variables (z : nat -> bool) (nonneg : bool) (lmbda : R) (wl1 : vec).
Definition pn_prox (L : R) (V : vec) : vec := fun i => if z i then 0 else pb_prox lmbda wl1 nonneg L V i.
Definition pn_reg (X : vec) : R := lmbda * sumn (M * pP) (fun i => Rabs (wl1 i * X i)).
(** The solution after [K] iterations. *)
Definition pn_run (mono : bool) (mom : momentum) (K : nat) (X0 : vec) (L : R) : vec :=
  dX pspec (drun pspec padd pscal pn_fwd pn_inv pn_dfd pn_reg pn_grad pn_prox mono mom K (dinit pspec pn_fwd X0 L)).
Definition pnm_run (mono : bool) (mom : momentum) (K : nat) (X0 : vec) (L : R) : vec :=
  dX pspec (drun pspec padd pscal pn_fwd pn_inv pnm_dfd pn_reg pnm_grad pn_prox mono mom K (dinit pspec pn_fwd X0 L)).
End pgn.
