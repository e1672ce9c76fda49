(** Model of whole iterations of TVL2Denoise (sporco/admm/tvl2.py 183-371) and TVL1Denoise (sporco/admm/tvl1.py 183-365): the
    x step is the inner loop of GaussSeidelStep sweeps started from the previous X, stopped by MaxGSIter or by GSTol; the
    y step, the dual step and the relaxation are those of the outer ADMM loop (admm.py 334-346).

    Layout: an image is a vector of C channels (the axis caxis; C = 1 when caxis is None) of shape [s], pixel [q] (C order) of
    channel [c] being at [c * P + q] with [P = prod s]; axes of S other than [axes] and [caxis] are axes of [s] that are not
    listed in [axes]. Component [j] of a gradient array (its last axis) is at [(j * C + c) * P + q]. For TVL1Denoise the last
    component, of the size of the image, is at [K * C * P]. Exact arithmetic, fixed penalty parameter (AutoRho is in
    RhoModel). The operators are those of SignalModel. *)
Require Import List Arith ZArith Reals Bool.
Require Import Verif.RVec Verif.NdIndex Verif.NdSum Verif.SignalModel Verif.AdmmModel Verif.ProxModel Verif.TvdModel.
Import ListNotations.
Local Open Scope R_scope.

(** linalg.rrs (906-910). *)
Definition rrs (n : nat) (ax b : vec) : R :=
  let m := Rmax (nrm n ax) (nrm n b) in
  if Req_EM_T m 0 then 0 else nrm n (fun i => ax i - b i) / m.

(** The inner loop of xstep (tvl2.py 242-254, tvl1.py 248-260): [gsrrs] is np.inf before the first sweep, which is therefore made
    whenever MaxGSIter > 0. *)
Fixpoint gs_loop (step : vec -> vec) (rr : vec -> R) (tol : R) (fuel : nat) (first : bool) (X : vec) : vec :=
  match fuel with
  | O => X
  | Datatypes.S f => if (first || (if Rlt_dec tol (rr X) then true else false))%bool then gs_loop step rr tol f false (step X) else X
  end.

Section tdn.
Variables (s axes : list nat) (C : nat).
Let K := length axes.
Let P := prod s.

(** Block [b] of a vector as an array of shape s, and back. *)
Definition chan (x : vec) (b : nat) : list nat -> R := fun idx => x (b * P + ravel s idx)%nat.
Definition flat (f : nat -> list nat -> R) : vec := fun i => f (i / P)%nat (unravel s (i mod P)).

(** cnst_A (tvl2.py 314-315). *)
Definition td2_A (x : vec) : vec := flat (fun b => tv_A s axes (chan x (b mod C)) (b / C)).
(** cnst_AT (tvl2.py 326-327). The sum over the axes fails if an axis exceeds the number of components (IndexError, C26): such a
    choice of axes is excluded in the theorems, and the value is then irrelevant. *)
Definition or_zero (o : option (list nat -> R)) : list nat -> R := match o with Some h => h | None => fun _ => 0 end.
Definition td2_AT (y : vec) : vec := flat (fun c => or_zero (tv_AT s axes (fun j => chan y (j * C + c)))).
(** cnst_A, cnst_AT and cnst_c of TVL1Denoise (tvl1.py 324-325, 336-337, 357-358). *)
Definition td1_A (x : vec) : vec := flat (fun b => tv1_A s axes (chan x (b mod C)) (b / C)).
Definition td1_AT (y : vec) : vec := flat (fun c => or_zero (tv1_AT s axes (fun j => chan y (j * C + c)))).
Definition td1_c (S : vec) : vec := fun i => if Nat.ltb i (K * C * P) then 0 else S (i - K * C * P)%nat.

(** GaussSeidelStep (tvl2.py 361-371) on all the channels. *)
Definition gs_vec (S X ATYU : vec) (rho : R) (W2 : vec) : vec :=
  flat (fun c => gs_step s axes (chan S c) (chan X c) (chan ATYU c) rho (chan W2 c)).

(** xstep of TVL2Denoise (tvl2.py 237-254): [wd] is Wdf, of which the square is used (209). *)
Definition td2_xstep (maxit : nat) (tol rho : R) (S wd : vec) (X Y U : vec) : vec :=
  let W2 := fun i => wd i * wd i in
  let ATYU := td2_AT (fun i => Y i - U i) in
  gs_loop (fun X => gs_vec S X ATYU rho W2)
    (fun X => rrs (C * P) (fun i => rho * td2_AT (td2_A X) i + W2 i * X i) (fun i => W2 i * S i + rho * ATYU i))
    tol maxit true X.
(** xstep of TVL1Denoise (tvl1.py 240-260). *)
Definition td1_xstep (maxit : nat) (tol : R) (S : vec) (X Y U : vec) : vec :=
  let YU := fun i => Y i - U i in
  let SYU := fun i => S i + YU (K * C * P + i)%nat in
  let ATYU := td1_AT (fun i => if Nat.ltb i (K * C * P) then YU i else 0) in
  gs_loop (fun X => gs_vec SYU X ATYU 1 (fun _ => 1))
    (fun X => rrs (C * P) (td1_AT (td1_A X)) (td1_AT (fun i => td1_c S i - eq_B Y i - U i)))
    tol maxit true X.

(** ystep (tvl2.py 258-265): shrinkage of the vectors of all the components (and channels) at a pixel, which is the y step of
    TVL2Deconv; [w] is Wtv. In TVL1Denoise (tvl1.py 264-274) the last component is thresholded after removing S. *)
Definition td2_ystep (lmbda rho : R) (w : vec) : vec -> vec -> vec := tvl2_ystep (K * C) P lmbda rho w.
Definition td1_ystep (lmbda rho : R) (w wd S : vec) (AX U : vec) : vec := fun i =>
  if Nat.ltb i (K * C * P) then td2_ystep lmbda rho w AX U i
  else prox_l1 (fun k => AX (K * C * P + k)%nat + U (K * C * P + k)%nat - S k) (fun k => 1 / rho * wd k) (i - K * C * P).

(** The whole iteration: the x step starts from the X of the previous iteration (X = S before the first one, tvl2.py 219). *)
Fixpoint td2_iterate (maxit : nat) (tol lmbda rho rlx : R) (S wd w : vec) (k : nat) (st : state) : state :=
  match k with
  | O => st
  | Datatypes.S k' => let t := td2_iterate maxit tol lmbda rho rlx S wd w k' st in
      iteration td2_A eq_B (fun _ => 0) rlx (td2_xstep maxit tol rho S wd (sX t)) (td2_ystep lmbda rho w) t
  end.
Fixpoint td1_iterate (maxit : nat) (tol lmbda rho rlx : R) (S wd w : vec) (k : nat) (st : state) : state :=
  match k with
  | O => st
  | Datatypes.S k' => let t := td1_iterate maxit tol lmbda rho rlx S wd w k' st in
      iteration td1_A eq_B (td1_c S) rlx (td1_xstep maxit tol S (sX t)) (td1_ystep lmbda rho w wd S) t
  end.

(** eval_objfn (tvl2.py 291-296): the gradient is Y when gEvalY is set, otherwise cnst_A X. *)
Definition td2_obj (gEvalY : bool) (lmbda : R) (S wd w X Y : vec) : R :=
  let g := if gEvalY then Y else td2_A X in
  let reg := sumn P (fun q => w q * sqrt (sumn (K * C) (fun r => g (r * P + q)%nat * g (r * P + q)%nat))) in
  let dfd := / 2 * (nrm (C * P) (fun i => wd i * (X i - S i)) * nrm (C * P) (fun i => wd i * (X i - S i))) in
  dfd + lmbda * reg.
(** eval_objfn (tvl1.py 298-306). *)
Definition td1_obj (gEvalY : bool) (lmbda : R) (S wd w X Y : vec) : R :=
  let g := if gEvalY then Y else fun i => td1_A X i - td1_c S i in
  let reg := sumn P (fun q => w q * sqrt (sumn (K * C) (fun r => g (r * P + q)%nat * g (r * P + q)%nat))) in
  let dfd := sumn (C * P) (fun i => Rabs (wd i * g (K * C * P + i)%nat)) in
  dfd + lmbda * reg.
End tdn.
