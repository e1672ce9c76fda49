(** Model of the x step of the convolutional sparse coding solvers of sporco/admm/cbpdn.py for real data: setdict and xstep of
    GenericConvBPDN and ConvBPDN (242-293), ConvElasticNet (930-963), ConvBPDNGradReg (1145-1189) and ConvTwoBlockCnstrnt
    (1589-1631, inherited by ConvMinL1InL2Ball and ConvBPDNMaskDcpl), the data fidelity value (obfn_dfd 337-344) and reconstruct
    (373-380), with the solvers of sporco/linalg.py (266-273, 335-342, 366, 417-444) at each frequency.  Exact arithmetic.
    Arrays are functions of an index as in FftModel, except that the filter axis (and the channel axis of a multi-channel
    dictionary) is a separate argument.  The signal axis, and the channel axis of a signal coded with a single-channel
    dictionary, are coordinates of the index which are not transformed.  The cached part of the solution (HighMemSolve) is the
    subject of CacheModel, and is recomputed here. *)
Require Import List Arith ZArith Reals Bool.
Require Import Verif.RVec Verif.Cplx Verif.FftModel.
Import ListNotations.
Local Open Scope R_scope.

Definition cinv (z : C) : C := cscal (/ cabs2 z) (conj z).
Definition cdiv (x y : C) : C := cmul x (cinv y).
Definition cvec : Type := nat -> C.

(** linalg.inner over the filter axis (linalg.py 41-88): no conjugation. *)
Definition inner (M : nat) (x y : cvec) : C := csumn M (fun m => cmul (x m) (y m)).

(** solvedbi_sm (266-273) with solvedbi_sm_c (297). *)
Definition dbi_sm (M : nat) (ah : cvec) (rho : R) (b : cvec) : cvec :=
  let a := fun m => conj (ah m) in
  let c := fun m => cdiv (ah m) (cadd (inner M ah a) (ofR rho)) in
  fun m => cdiv (csub (b m) (cmul (a m) (inner M c b))) (ofR rho).
(** solvedbd_sm (335-342) with solvedbd_sm_c (366). *)
Definition dbd_sm (M : nat) (ah : cvec) (d : nat -> R) (b : cvec) : cvec :=
  let a := fun m => conj (ah m) in
  let c := fun m => cdiv (cdiv (ah m) (ofR (d m))) (cadd (inner M ah (fun k => cdiv (a k) (ofR (d k)))) c1) in
  fun m => cdiv (csub (b m) (cmul (a m) (inner M c b))) (ofR (d m)).

(** solvemdbi_ism (417-444), the argument rho being an array [d] over the filter axis.  [hist] lists (ah_l, gamma_l, delta_l)
    for the channels already treated; one update is lines 434-435 or 441-442. *)
Definition sm_update (M : nat) (ah gamma : cvec) (delta : C) (x : cvec) : cvec :=
  fun m => csub (x m) (cdiv (cmul (gamma m) (inner M ah x)) delta).
Definition ism_inner (M : nat) (hist : list (cvec * cvec * C)) (alpha : cvec) : cvec :=
  fold_left (fun al h => sm_update M (fst (fst h)) (snd (fst h)) (snd h) al) hist alpha.
Fixpoint ism_loop (M : nat) (d : nat -> R) (hist : list (cvec * cvec * C)) (alpha beta : cvec) (rest : list cvec) : cvec :=
  match rest with
  | [] => beta
  | ah :: rest' =>
      let gamma := alpha in
      let delta := cadd c1 (inner M ah gamma) in
      let beta' := sm_update M ah gamma delta beta in
      let hist' := hist ++ [(ah, gamma, delta)] in
      let alpha' := match rest' with ah1 :: _ => ism_inner M hist' (fun m => cdiv (conj (ah1 m)) (ofR (d m))) | [] => alpha end in
      ism_loop M d hist' alpha' beta' rest'
  end.
Definition mdbi_ism (M K : nat) (ah : nat -> cvec) (d : nat -> R) (b : cvec) : cvec :=
  ism_loop M d [] (fun m => cdiv (conj (ah O m)) (ofR (d m))) (fun m => cdiv (b m) (ofR (d m))) (map ah (seq 0 K)).

(** signal.gradient_filters (228-240) with axes = (0, ..., dimN-1): filter k is 1, -1 along axis k; the filters have length 2
    along each of the axes. *)
Definition grad_filter (axes : list nat) (k : nat) : index -> R :=
  fun i => if forallb (fun ax => orb (Nat.eqb ax k) (Nat.eqb (i ax) 0)) axes
           then match i k with O => 1 | 1%nat => -1 | _ => 0 end else 0.
Definition GHGf (s : nat -> nat) (axes : list nat) : index -> R :=
  fun i => re (csumn (length axes) (fun k => let Gf := rfftn s axes (padR (fun _ => 2%nat) axes (grad_filter axes (nth k axes O))) i in cmul (conj Gf) Gf)).

(** The quadratic part of the regularisation: none (ConvBPDN and the classes which use its x step), mu/2 ||x||^2
    (ConvElasticNet), or mu/2 times the squared gradient norm with weight [wg] for each filter (ConvBPDNGradReg, option
    GradWeight). *)
Inductive quad := QNone | QElastic (mu : R) | QGrad (mu : R) (wg : nat -> R).

Section Csc.
Variables (s dsh : nat -> nat) (axes : list nat) (M Cd : nat).
Variables (D : nat -> nat -> index -> R) (S : nat -> index -> R) (q : quad).

(** setdict: 247, 249-251; constructor: 231. *)
Definition Df (c m : nat) : index -> C := rfftn s axes (padR dsh axes (D c m)).
Definition Sf (c : nat) : index -> C := rfftn s axes (S c).
Definition DSf (m : nat) : index -> C := fun i => csumn Cd (fun c => cmul (conj (Df c m i)) (Sf c i)).

(** The array passed as rho or d to the solver: 275, 957, 1182. *)
Definition diag (rho : R) (i : index) (m : nat) : R :=
  match q with
  | QNone => rho
  | QElastic mu => mu + rho
  | QGrad mu wg => mu * (wg m * GHGf s axes i) + rho
  end.
(** Lines 274-279, 956-961, 1181-1187 at one frequency. *)
Definition solve_at (rho : R) (i : index) (b : cvec) : cvec :=
  if Nat.eqb Cd 1 then
    match q with
    | QNone => dbi_sm M (fun m => Df O m i) rho b
    | QElastic mu => dbi_sm M (fun m => Df O m i) (mu + rho) b
    | QGrad _ _ => dbd_sm M (fun m => Df O m i) (diag rho i) b
    end
  else mdbi_ism M Cd (fun c m => Df c m i) (diag rho i) b.

(** xstep: 271-281. *)
Definition xstepf (rho : R) (Y U : nat -> index -> R) (m : nat) : index -> C :=
  fun i => solve_at rho i (fun k => cadd (DSf k i) (cmul (ofR rho) (rfftn s axes (fun p => Y k p - U k p) i))) m.
Definition xstep (rho : R) (Y U : nat -> index -> R) (m : nat) : index -> R := irfftn s axes (xstepf rho Y U m).

(** ConvTwoBlockCnstrnt.xstep (1615-1631), the quadratic part being QNone and rho being 1: block 0 of Y and U has the shape of
    the signal, block 1 the shape of the coefficients. *)
Definition xstep2f (Y0 U0 : nat -> index -> R) (Y1 U1 : nat -> index -> R) (m : nat) : index -> C :=
  fun i => let YUf0 := fun c => rfftn s axes (fun p => Y0 c p - U0 c p + S c p) i in
    let b := fun k => cadd (csumn Cd (fun c => cmul (conj (Df c k i)) (YUf0 c))) (rfftn s axes (fun p => Y1 k p - U1 k p) i) in
    (if Nat.eqb Cd 1 then dbi_sm M (fun k => Df O k i) 1 b else mdbi_ism M Cd (fun c k => Df c k i) (fun _ => 1) b) m.
Definition xstep2 Y0 U0 Y1 U1 (m : nat) : index -> R := irfftn s axes (xstep2f Y0 U0 Y1 U1 m).

(** reconstruct (376-380) and obfn_dfd (342-344) for an array with [d] axes; [Vf] is Xf or the transform of Y (320-321). *)
Definition reconstruct (X : nat -> index -> R) (c : nat) : index -> R :=
  irfftn s axes (fun i => csumn M (fun m => cmul (Df c m i) (rfftn s axes (X m) i))).
Definition obfn_dfd (d : nat) (Vf : nat -> index -> C) : R :=
  sumn Cd (fun c => rfl2norm2 d s axes (fun i => csub (csumn M (fun m => cmul (Df c m i) (Vf m i))) (Sf c i))) / 2.
End Csc.
