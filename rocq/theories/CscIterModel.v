(** The ADMM iteration of ConvBPDN, ConvElasticNet and ConvBPDNGradReg (sporco/admm/cbpdn.py) with the steps of CscModel, for
    real data.  The generic iteration of AdmmModel works on vectors, so that arrays are flattened in C order: entry (m, k) of the
    coefficients is at m * size + k, where k counts the positions on the filtered axes.  The x step treats the slices of the
    arrays with different coordinates on the other axes (signal index, channel index of a signal with a single-channel
    dictionary) independently (CscIterProofs.xstep_slice), and so do the other steps; the slice with the coordinates [base] is
    modelled. *)
Require Import List Arith Reals Bool.
Require Import Verif.RVec Verif.FftModel Verif.CscModel Verif.AdmmModel Verif.StepsModel.
Import ListNotations.
Local Open Scope R_scope.

(** Positions on the axes in C order. *)
Fixpoint size (s : nat -> nat) (axes : list nat) : nat := match axes with [] => 1%nat | ax :: r => (s ax * size s r)%nat end.
Fixpoint place (s : nat -> nat) (axes : list nat) (base : index) (k : nat) : index :=
  match axes with [] => base | ax :: r => place s r (upd base ax (k / size s r)) (k mod size s r) end.
Fixpoint rank (s : nat -> nat) (axes : list nat) (p : index) : nat :=
  match axes with [] => 0%nat | ax :: r => (p ax * size s r + rank s r p)%nat end.
Definition arr (s : nat -> nat) (axes : list nat) (x : vec) : nat -> index -> R := fun m p => x (m * size s axes + rank s axes p)%nat.
Definition cs_flat (s : nat -> nat) (axes : list nat) (base : index) (X : nat -> index -> R) : vec :=
  fun r => X (r / size s axes)%nat (place s axes base (r mod size s axes)).

(** xstep (271-281, 956-961, 1181-1187). *)
Definition cs_xstep (s dsh : nat -> nat) (axes : list nat) (M Cd : nat) (D : nat -> nat -> index -> R) (S : nat -> index -> R) (q : quad)
    (rho : R) (base : index) (y u : vec) : vec :=
  cs_flat s axes base (xstep s dsh axes M Cd D S q rho (arr s axes y) (arr s axes u)).
(** ystep (617-620) with the base class (306-311): soft thresholding, NonNegCoef, and NoBndryCross, which sets the entries [z] to
    zero (which entries these are is the subject of BndryModel). *)
Definition cs_ystep (z : nat -> bool) (nonneg : bool) (lmbda rho : R) (wl1 AX U : vec) : vec :=
  fun i => if z i then 0 else bpdn_ystep nonneg lmbda rho wl1 AX U i.
(** The main loop with fixed penalty parameter: Y and U after one iteration (admm.py 334-346). *)
Definition cs_iterate (s dsh : nat -> nat) (axes : list nat) (M Cd : nat) (D : nat -> nat -> index -> R) (S : nat -> index -> R) (q : quad)
    (rho rlx : R) (base : index) (z : nat -> bool) (nonneg : bool) (lmbda : R) (wl1 : vec) : nat -> state -> state :=
  iterate eq_A eq_B eq_c rlx (cs_xstep s dsh axes M Cd D S q rho base) (cs_ystep z nonneg lmbda rho wl1).
