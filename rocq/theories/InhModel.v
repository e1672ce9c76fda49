(** Model of sporco/admm/cbpdnin.py, ConvBPDNInhib: convolutional sparse coding with lateral and self inhibition, for real data.
    The x step and the relaxation, the non-negativity and boundary options of the y step and the dual update are those of
    CscIterModel and AdmmModel.  Exact arithmetic.  The window of scipy.signal.get_window (265) is an arbitrary function [win] of
    the sample number.  As in CscIterModel one slice (fixed signal and channel index) is modelled: lines 294-337 act on each slice
    separately. *)
Require Import List Arith ZArith Reals Bool.
Require Import Verif.RVec Verif.Cplx Verif.FftModel Verif.CscModel Verif.AdmmModel Verif.StepsModel Verif.ProxModel Verif.CscIterModel.
Import ListNotations.
Local Open Scope R_scope.

(** Whn += not Whn % 2 (261). *)
Definition odd_up (Whn : nat) : nat := if Nat.even Whn then S Whn else Whn.
(** np.power(prod, 1 / dimN) for values which are not negative (269). *)
Definition nonneg_pow (x a : R) : R := if Req_EM_T x 0 then 0 else Rpower x a.
(** Lines 263-270: the window in the corner of an array of zeros.  The index arrays and the sample arrays come from meshgrid calls
    with the same arguments, so that the sample at (j_0, ...) is the mean value formed from win j_0, .... *)
Definition corner (axes : list nat) (Whn : nat) (win : nat -> R) : index -> R :=
  fun j => if forallb (fun ax => Nat.ltb (j ax) Whn) axes
           then nonneg_pow (fold_right Rmult 1 (map (fun ax => win (j ax)) axes)) (1 / INR (length axes)) else 0.
(** np.roll(x, z, axis=ax). *)
Definition roll (n : nat) (z : Z) (ax : nat) (x : index -> R) : index -> R :=
  fun j => x (upd j ax (Z.to_nat ((Z.of_nat (j ax) - z) mod Z.of_nat n))).
(** Lines 261-278: Whl and Whs; None if the index arrays of 270 exceed the shape of the signal. *)
Definition centred (s : nat -> nat) (axes : list nat) (Whn : nat) (win : nat -> R) : index -> R :=
  fold_left (fun w ax => roll (s ax) (- Z.of_nat Whn / 2 + 1) ax w) axes (corner axes Whn win).
Definition without_origin (axes : list nat) (w : index -> R) : index -> R := fun j => if forallb (fun ax => Nat.eqb (j ax) 0) axes then 0 else w j.
Definition windows (s : nat -> nat) (axes : list nat) (Whn0 : nat) (win : nat -> R) : option ((index -> R) * (index -> R)) :=
  let Whn := odd_up Whn0 in
  if forallb (fun ax => Nat.leb Whn (s ax)) axes then
    let Whl := centred s axes Whn win in Some (Whl, without_origin axes Whl)
  else None.

Section inhibition.
Variables (s dsh : nat -> nat) (axes : list nat) (M Cd : nat) (D : nat -> nat -> index -> R) (S : nat -> index -> R).
Variables (rho rlx : R) (base : index) (z : nat -> bool) (nonneg : bool) (lmbda mu gamma smooth : R) (wl1 : vec).
(** Wg, with its number of rows, and the two windows (Whl, Whs). *)
Variables (Wg : option (nat * (nat -> nat -> R))) (Whl Whs : index -> R).

(** irfftn(Whf * rfftn(abs(X))) (310, 317, 330). *)
Definition spread (h : index -> R) (X : vec) (m : nat) : index -> R :=
  irfftn s axes (fun i => cmul (rfftn s axes h i) (rfftn s axes (fun p => Rabs (arr s axes X m p)) i)).
(** np.dot(np.dot(WhXal, Wg.T), Wg) - np.sum(Wg, axis=0) * WhXal (319-320). *)
Definition lateral (Ng : nat) (W : nat -> nat -> R) (A : nat -> index -> R) (m : nat) (p : index) : R :=
  sumn Ng (fun g => sumn M (fun n => A n p * W g n) * W g m) - sumn Ng (fun g => W g m) * A m p.
(** New weights (312-334). *)
Definition new_wml (X wml : vec) : vec :=
  match Wg with
  | None => wml
  | Some (Ng, W) => if Rlt_dec 0 mu then fun i => smooth * wml i + (1 - smooth) * cs_flat s axes base (lateral Ng W (spread Whl X)) i else wml
  end.
Definition new_wms (X wms : vec) : vec :=
  if Rlt_dec 0 gamma then fun i => smooth * wms i + (1 - smooth) * cs_flat s axes base (spread Whs X) i else wms.
(** The condition of line 298. *)
Definition plain : bool :=
  andb (match Wg with None => true | Some _ => if Req_EM_T mu 0 then true else false end) (if Req_EM_T gamma 0 then true else false).
(** The y step (298-306, 337): AX, U and the weights of the preceding iteration. *)
Definition in_ystep (wml wms AX U : vec) : vec :=
  if plain then cs_ystep z nonneg lmbda rho wl1 AX U
  else fun i => if z i then 0
    else clip nonneg (prox_l1 (fun p => AX p + U p) (fun p => (lmbda * wl1 p + mu * wml p + gamma * wms p) / rho)) i.

Record istate := mkI { iX : vec; iY : vec; iU : vec; iml : vec; ims : vec }.
(** One iteration: admm.py 334-346 with the ystep of this class. *)
Definition in_iteration (st : istate) : istate :=
  let X := cs_xstep s dsh axes M Cd D S QNone rho base (iY st) (iU st) in
  let AX := relax_AX eq_A eq_B eq_c rlx X (iY st) in
  let Y := in_ystep (iml st) (ims st) AX (iU st) in
  mkI X Y (ustep eq_B eq_c AX Y (iU st)) (if plain then iml st else new_wml X (iml st)) (if plain then ims st else new_wms X (ims st)).
Fixpoint in_iterate (k : nat) (st : istate) : istate := match k with O => st | Datatypes.S k' => in_iteration (in_iterate k' st) end.
End inhibition.
(** The weights before the first iteration are 0 (229). *)
Definition in_start (Y U : vec) : istate := mkI (fun _ => 0) Y U (fun _ => 0) (fun _ => 0).
