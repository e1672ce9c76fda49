(** Model of the product dictionary sparse coding solvers ConvProdDictBPDN and ConvProdDictBPDNJoint of sporco/admm/pdcsc.py
    (28-287) for real data: setdict, xstep, ystep, obfn_dfd, obfn_reg and reconstruct, with the solver of sporco/linalg.py of
    CscModel.  Exact arithmetic.  The filter axis (m below M), the channel axis of the signal (c below C) and the channel axis of
    the coefficients (b below Cb, the number of columns of B: line 92) are separate arguments; the signal axis is a coordinate of
    the index which is not transformed.  np.linalg.eigh is an argument.  The cached part of the solution (HighMemSolve) is
    recomputed here; LinSolveCheck is not modelled. *)
Require Import List Arith Reals Bool.
Require Import Verif.RVec Verif.Cplx Verif.FftModel Verif.CscModel Verif.AdmmModel Verif.ProxModel Verif.StepsModel Verif.CscIterModel.
Import ListNotations.
Local Open Scope R_scope.

(** B.T.dot(B) (113). *)
Definition gram (C : nat) (B : nat -> nat -> R) : nat -> nat -> R := fun b b' => sumn C (fun c => B c b * B c b').

(** The attributes B, Gamma, Q, D and DSfBQ of the solver object. *)
Record pd_fac := mkFac { f_B : nat -> nat -> R; f_Gamma : nat -> R; f_Q : nat -> nat -> R; f_D : nat -> index -> R; f_DSfBQ : nat -> nat -> index -> Cplx.C }.

Section Pdc.
Variable eigh : (nat -> nat -> R) -> (nat -> R) * (nat -> nat -> R).
Variables (s dsh : nat -> nat) (axes : list nat) (M C Cb : nat) (S : nat -> index -> R).

(** Df (117) and Sf. *)
Definition pd_Df (D : nat -> index -> R) (m : nat) : index -> Cplx.C := rfftn s axes (padR dsh axes (D m)).
Definition pd_Sf (c : nat) : index -> Cplx.C := rfftn s axes (S c).
(** DSf and DSfBQ (118-120): DSf has the channel axis of the signal, and is multiplied along it by the transpose of BQ. *)
Definition pd_DSfBQ (D : nat -> index -> R) (B Q : nat -> nat -> R) (b m : nat) : index -> Cplx.C :=
  fun i => csumn C (fun c => cmul (ofR (sumn Cb (fun b' => B c b' * Q b' b))) (cmul (conj (pd_Df D m i)) (pd_Sf c i))).
(** The first call of setdict, from the constructor of GenericConvBPDN. *)
Definition pd_init (D : nat -> index -> R) (B : nat -> nat -> R) : pd_fac :=
  let (G, Q) := eigh (gram C B) in mkFac B (fun b => Rabs (G b)) Q D (pd_DSfBQ D B Q).
(** Later calls of setdict (104-133): the eigendecomposition is recomputed when B is given, DSfBQ when D is given. *)
Definition pd_setdict (st : pd_fac) (D : option (nat -> index -> R)) (B : option (nat -> nat -> R)) : pd_fac :=
  let D' := match D with Some D => D | None => f_D st end in
  let B' := match B with Some B => B | None => f_B st end in
  let GQ := match B with Some _ => let (G, Q) := eigh (gram C B') in (fun b => Rabs (G b), Q) | None => (f_Gamma st, f_Q st) end in
  mkFac B' (fst GQ) (snd GQ) D' (match D with Some _ => pd_DSfBQ D' B' (snd GQ) | None => f_DSfBQ st end).

(** gDf (126-127) and xstep (141-148). *)
Definition gDf (st : pd_fac) (b m : nat) (i : index) : Cplx.C := cmul (ofR (sqrt (f_Gamma st b))) (pd_Df (f_D st) m i).
Definition pd_Xh (st : pd_fac) (rho : R) (Y U : nat -> nat -> index -> R) (b m : nat) (i : index) : Cplx.C :=
  dbi_sm M (fun k => gDf st b k i) rho
    (fun k => cadd (f_DSfBQ st b k i) (cmul (ofR rho) (csumn Cb (fun b' => cmul (ofR (f_Q st b' b)) (rfftn s axes (fun p => Y b' k p - U b' k p) i))))) m.
Definition pd_xstepf (st : pd_fac) (rho : R) (Y U : nat -> nat -> index -> R) (b m : nat) : index -> Cplx.C :=
  fun i => csumn Cb (fun b' => cmul (ofR (f_Q st b b')) (pd_Xh st rho Y U b' m i)).
Definition pd_xstep (st : pd_fac) (rho : R) (Y U : nat -> nat -> index -> R) (b m : nat) : index -> R := irfftn s axes (pd_xstepf st rho Y U b m).

(** reconstruct (187-192) and obfn_dfd (167-171) for an array with [d] axes. *)
Definition pd_spec (st : pd_fac) (Vf : nat -> nat -> index -> Cplx.C) (c : nat) : index -> Cplx.C :=
  fun i => csumn Cb (fun b => cmul (ofR (f_B st c b)) (csumn M (fun m => cmul (pd_Df (f_D st) m i) (Vf b m i)))).
Definition pd_reconstruct (st : pd_fac) (X : nat -> nat -> index -> R) (c : nat) : index -> R :=
  irfftn s axes (pd_spec st (fun b m => rfftn s axes (X b m)) c).
Definition pd_dfd (st : pd_fac) (d : nat) (Vf : nat -> nat -> index -> Cplx.C) : R :=
  sumn C (fun c => rfl2norm2 d s axes (fun i => csub (pd_spec st Vf c i) (pd_Sf c i))) / 2.

(** The iteration on vectors, as in CscIterModel: entry (b, m, k) is at (b * M + m) * size + k, where k counts the positions on
    the filtered axes of the slice with the coordinates [base]. *)
Definition chan (X : nat -> index -> R) : nat -> nat -> index -> R := fun b m => X (b * M + m)%nat.
Definition pd_xs (st : pd_fac) (rho : R) (base : index) (y u : vec) : vec :=
  cs_flat s axes base (fun k => pd_xstep st rho (chan (arr s axes y)) (chan (arr s axes u)) (k / M) (k mod M)).
(** ConvBPDN.ystep (admm/cbpdn.py 617-620), inherited by ConvProdDictBPDN. *)
Definition pd_iterate (st : pd_fac) (rho rlx : R) (base : index) (z : nat -> bool) (nonneg : bool) (lmbda : R) (wl1 : vec) : nat -> state -> state :=
  iterate eq_A eq_B eq_c rlx (pd_xs st rho base) (cs_ystep z nonneg lmbda rho wl1).

(** ConvProdDictBPDNJoint.ystep (270-273): prox_sl1l2 (prox/_l21.py) along the channel axis, then the base class
    (cbpdn.py 306-311). *)
Definition pdj_ystep (z : nat -> bool) (nonneg : bool) (lmbda mu rho : R) (wl1 AX U : vec) : vec :=
  let N := (M * size s axes)%nat in
  let V := prox_l1 (fun i => AX i + U i) (fun i => lmbda / rho * wl1 i) in
  fun i => if z i then 0 else
    clip nonneg (fun i => prox_l2 Cb (fun b => V (b * N + i mod N)%nat) (mu / rho) (i / N)%nat) i.
Definition pdj_iterate (st : pd_fac) (rho rlx : R) (base : index) (z : nat -> bool) (nonneg : bool) (lmbda mu : R) (wl1 : vec) : nat -> state -> state :=
  iterate eq_A eq_B eq_c rlx (pd_xs st rho base) (pdj_ystep z nonneg lmbda mu rho wl1).
End Pdc.
