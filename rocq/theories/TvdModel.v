(** Model of total variation deconvolution for real data, sporco/admm/tvl2.py TVL2Deconv (497-701) and sporco/admm/tvl1.py
    TVL1Deconv (527-743): signal.gradient_filters (228-240), constructor, xstep, ystep, cnst_A and cnst_c, with the ADMM iteration of
    AdmmModel.  Exact arithmetic; complex data, LinSolveCheck and the initial values are not part of this model.
    Arrays are functions of an index as in FftModel, the component axis being a separate argument.  The generic iteration works on
    vectors, so that arrays are flattened.  The entries with the same coordinates on the axes which are not filtered form a slice;
    slice [t] has the coordinates [bases t], and entry k of it (in C order) is at t * size + k, component j of an array of gradients
    being at (j * NS + t) * size + k. *)
Require Import List Arith Reals Bool.
Require Import Verif.RVec Verif.Cplx Verif.FftModel Verif.CscModel Verif.CscIterModel Verif.ProxModel Verif.AdmmModel.
Import ListNotations.
Local Open Scope R_scope.
Local Notation vec := (nat -> R).

(** signal.gradient_filters (228-240), before the transform. The array g has [length axes] components (230-231), and for each k in
    axes the samples 1, -1 are stored in component k (232-234).  [None]: IndexError, when k is not a component. *)
Definition gradient_filters (axes : list nat) : option (nat -> index -> R) :=
  if forallb (fun k => Nat.ltb k (length axes)) axes
  then Some (fun j => if mem j axes then grad_filter axes j else fun _ => 0)
  else None.

(** eval_objfn (649; the same expression in TVL2Denoise, 294): np.sum(Wtv * np.sqrt(np.sum(gv**2, axis=saxes))) for S of shape (N1, N2, C)
    with caxis = 2. The weights which ystep accepts have shape (N1, N2, 1), the sum over saxes has shape (N1, N2), [t] being its square
    root; NumPy aligns the last axes: the result has shape (N1, bc N2 N1, N2), and the product is a ValueError ([None]) if N2 and N1 do not
    broadcast. *)
Definition bc (a b : nat) : option nat := if Nat.eqb a b then Some a else if Nat.eqb a 1 then Some b else if Nat.eqb b 1 then Some a else None.
Definition caxis_reg (N1 N2 : nat) (W t : nat -> nat -> R) : option R :=
  match bc N2 N1 with
  | Some n => Some (sumn N1 (fun i => sumn n (fun j => sumn N2 (fun k =>
      W i (if Nat.eqb N2 1 then 0 else j)%nat * t (if Nat.eqb N1 1 then 0 else j)%nat k))))
  | None => None
  end.

Section tvd.
Variables (s ash : nat -> nat) (axes : list nat).   (* shape of S; shape of A; the axes of the gradient and the blur *)
Variables (A S : index -> R).                       (* A: broadcast along the other axes *)
Variable G : nat -> index -> R.                     (* the filters returned by gradient_filters *)
Notation K := (length axes).

(** 562-565, 575; tvl1.py 591-594, 605. *)
Definition Af : index -> C := rfftn s axes (padR ash axes A).
Definition Sf : index -> C := rfftn s axes S.
Definition AHAf : index -> C := fun i => cmul (conj (Af i)) (Af i).
Definition AHSf : index -> C := fun i => cmul (conj (Af i)) (Sf i).
Definition Gf (j : nat) : index -> C := rfftn s axes (padR (fun _ => 2%nat) axes (G j)).
Definition GHGf : index -> R := fun i => re (csumn K (fun j => cmul (conj (Gf j i)) (Gf j i))).

(** TVL2Deconv.xstep (599-603). *)
Definition tvl2_xf (rho : R) (Y U : nat -> index -> R) : index -> C := fun i =>
  let b := cadd (AHSf i) (cmul (ofR rho) (csumn K (fun j => cmul (conj (Gf j i)) (rfftn s axes (fun p => Y j p - U j p) i)))) in
  cdiv b (cadd (AHAf i) (ofR (rho * GHGf i))).
Definition tvl2_x (rho : R) (Y U : nat -> index -> R) : index -> R := irfftn s axes (tvl2_xf rho Y U).
(** TVL2Deconv.cnst_A (668-671). *)
Definition tvl2_A (X : index -> R) (j : nat) : index -> R := irfftn s axes (fun i => cmul (Gf j i) (rfftn s axes X i)).

(** TVL1Deconv: 607-608, xstep (634-638), cnst_A (707-710). *)
Definition GAf (j : nat) : index -> C := if Nat.ltb j K then Gf j else Af.
Definition tvl1_xf (Y U : nat -> index -> R) : index -> C := fun i =>
  let b := cadd (AHSf i) (csumn (K + 1) (fun j => cmul (conj (GAf j i)) (rfftn s axes (fun p => Y j p - U j p) i))) in
  cdiv b (cadd (AHAf i) (ofR (GHGf i))).
Definition tvl1_x (Y U : nat -> index -> R) : index -> R := irfftn s axes (tvl1_xf Y U).
Definition tvl1_A (X : index -> R) (j : nat) : index -> R := irfftn s axes (fun i => cmul (GAf j i) (rfftn s axes X i)).

(** Flattened arrays. *)
Variables (NS : nat) (bases : nat -> index).
Notation P := (size s axes).
Definition slice (x : vec) (t : nat) : index -> R := fun p => x (t * P + rank s axes p)%nat.
Definition comps (y : vec) (t j : nat) : index -> R := slice y (j * NS + t).
Definition at_flat (f : nat -> index -> R) : vec := fun r => f (r / P)%nat (place s axes (bases ((r / P) mod NS)) (r mod P)).
(** xstep on the slices. *)
Definition tvl2_xstep (rho : R) (y u : vec) : vec := at_flat (fun t => tvl2_x rho (comps y t) (comps u t)).
Definition tvl1_xstep (y u : vec) : vec := at_flat (fun t => tvl1_x (comps y t) (comps u t)).
(** cnst_A on the slices; there are K (TVL2Deconv) or K + 1 components. *)
Definition tvl2_cnst_A (x : vec) : vec := fun r => if Nat.ltb r (K * NS * P) then at_flat (fun q => tvl2_A (slice x (q mod NS)) (q / NS)) r else 0.
Definition tvl1_cnst_A (x : vec) : vec := fun r => if Nat.ltb r ((K + 1) * NS * P) then at_flat (fun q => tvl1_A (slice x (q mod NS)) (q / NS)) r else 0.
(** cnst_c of TVL1Deconv (741-743); zero for TVL2Deconv (701). *)
Definition tvl1_c : vec := fun r => if andb (Nat.leb (K * NS * P) r) (Nat.ltb r ((K + 1) * NS * P)) then at_flat (fun _ => S) r else 0.

(** ystep of TVL2Deconv (618-619): prox_l2 along the axes saxes of the array, that is the component axis and the axis caxis if it is
    given.  These are [R1] components for each of [Q] groups, component r of group q being at r * Q + q. [w] is Wtvna. *)
Definition tvl2_ystep (R1 Q : nat) (lmbda rho : R) (w AX U : vec) : vec := fun i =>
  prox_l2 R1 (fun r => AX (r * Q + i mod Q)%nat + U (r * Q + i mod Q)%nat) (lmbda / rho * w (i mod Q)) (i / Q).
(** ystep of TVL1Deconv (653-658): the last component is the residual of the blurred image. [wd] is Wdf. *)
Definition tvl1_ystep (R1 Q : nat) (lmbda rho : R) (w wd AX U : vec) : vec := fun i =>
  if Nat.ltb i (R1 * Q) then tvl2_ystep R1 Q lmbda rho w AX U i
  else prox_l1 (fun k => AX (R1 * Q + k)%nat + U (R1 * Q + k)%nat - at_flat (fun _ => S) k) (fun k => 1 / rho * wd k) (i - R1 * Q).

Definition tvl2_iterate (C B : nat) (lmbda rho rlx : R) (w : vec) : nat -> state -> state :=
  iterate tvl2_cnst_A eq_B (fun _ => 0) rlx (tvl2_xstep rho) (tvl2_ystep (K * C) (B * P) lmbda rho w).
Definition tvl1_iterate (C B : nat) (lmbda rho rlx : R) (w wd : vec) : nat -> state -> state :=
  iterate tvl1_cnst_A eq_B tvl1_c rlx tvl1_xstep (tvl1_ystep (K * C) (B * P) lmbda rho w wd).
End tvd.
