(** Model of sporco/admm/cbpdntv.py for real data: ConvBPDNScalarTV (constructor 195-244, setdict 248-263, xstep 277-298, ystep
    314-321, obfn_reg 439-446, cnst_A 457-509, cnst_B 529, cnst_c 538) and ConvBPDNVectorTV (ystep 707-715, obfn_reg 719-727), with
    the ADMM iteration of AdmmModel.  Exact arithmetic.  HighMemSolve (whose cached value is the one computed by the solver, see
    CacheModel), LinSolveCheck and the initial values are not part of this model; cnst_A is given the transform of X, which is the
    array Xf that the code passes (CtvProps.C76_Xf).
    Arrays are functions of an index as in FftModel, the filter and component axes being separate arguments.  The generic iteration
    works on vectors, so that arrays are flattened.  The entries with the same coordinates on the axes which are not filtered (signal
    index, channel index of the coefficients) form a slice; slice [t] has the coordinates [bases t].  Entry k of the slice t of
    coefficient map m is at (m * NS + t) * size + k, component j of an array of gradients being at ((j * M + m) * NS + t) * size + k,
    and the component K is the copy of the coefficients. *)
Require Import List Arith Reals Bool.
Require Import Verif.RVec Verif.Cplx Verif.FftModel Verif.CscModel Verif.CscIterModel Verif.ProxModel Verif.AdmmModel Verif.TvdModel.
Import ListNotations.
Local Open Scope R_scope.
Local Notation vec := (nat -> R).

(** solvedbi_sm (linalg.py 266-273) with solvedbi_sm_c (297), called with an array instead of a number. *)
Definition dbi_arr (M : nat) (ah : cvec) (d : nat -> R) (b : cvec) : cvec :=
  let a := fun m => conj (ah m) in
  let c := fun m => cdiv (ah m) (cadd (inner M ah a) (ofR (d m))) in
  fun m => cdiv (csub (b m) (cmul (a m) (inner M c b))) (ofR (d m)).

(** obfn_reg (444; the same expression in 724) with an array of weights, one for each filter: Wl1 has the shape (1, ..., 1, M) and the
    variable has the shape (..., M, 1), so that the product has the shape (..., M, M). [a] are the sums of the absolute values of each
    coefficient map. *)
Definition reported_l1 (M : nat) (W a : nat -> R) : R := sumn M (fun m => sumn M (fun k => W k * a m)).

Section ctv.
Variables (s dsh : nat -> nat) (axes : list nat) (M Cd : nat).
Variables (D : nat -> nat -> index -> R) (S : nat -> index -> R).   (* filter m, channel c; signal, channel c *)
Variable G : nat -> index -> R.                                     (* the filters returned by gradient_filters *)
Variable wtv : nat -> R.                                            (* Wtv (213-218), the weight for each filter *)
Notation K := (length axes).

(** 237, 291, 295. *)
Definition tvdiag (rho : R) (i : index) (m : nat) : R := rho * (wtv m * wtv m * TvdModel.GHGf s axes G i) + rho.
(** xstep (281-298). *)
Definition ctv_xf (rho : R) (Y U : nat -> nat -> index -> R) (m : nat) : index -> C := fun i =>
  let YUf := fun j k => rfftn s axes (fun p => Y j k p - U j k p) i in
  let b := fun k => cadd (DSf s dsh axes Cd D S k i)
    (cmul (ofR rho) (cadd (YUf K k) (cmul (ofR (wtv k)) (csumn K (fun j => cmul (conj (Gf s axes G j i)) (YUf j k)))))) in
  if Nat.eqb Cd 1 then dbi_arr M (fun k => Df s dsh axes D O k i) (tvdiag rho i) b m
  else mdbi_ism M Cd (fun c k => Df s dsh axes D c k i) (tvdiag rho i) b m.
Definition ctv_x (rho : R) (Y U : nat -> nat -> index -> R) (m : nat) : index -> R := irfftn s axes (ctv_xf rho Y U m).
(** cnst_A (457-466, 488, 508-509), for coefficient map m. *)
Definition ctv_A (X : index -> R) (m j : nat) : index -> R :=
  if Nat.ltb j K then fun p => wtv m * irfftn s axes (fun i => cmul (Gf s axes G j i) (rfftn s axes X i)) p else X.

(** Flattened arrays. *)
Variables (NS : nat) (bases : nat -> index).
Notation P := (size s axes).
Definition comp (y : vec) (t j m : nat) : index -> R := slice s axes y ((j * M + m) * NS + t).
Definition ctv_xstep (rho : R) (y u : vec) : vec :=
  at_flat s axes NS bases (fun q => ctv_x rho (comp y (q mod NS)) (comp u (q mod NS)) (q / NS)).
Definition ctv_cnst_A (x : vec) : vec := fun r => if Nat.ltb r ((K + 1) * (M * NS * P)) then
  at_flat s axes NS bases (fun q => ctv_A (slice s axes x ((q / NS) mod M * NS + q mod NS)) ((q / NS) mod M) (q / NS / M)) r else 0.

(** ystep: the gradient components by ConvBPDNScalarTV (319; prox_l2 without an axis argument uses the norm of the whole array) and by
    ConvBPDNVectorTV (712-713; the axes of the filters and of the components); the copy of the coefficients (320-321, 714-715). *)
Definition scalar_grad (mu rho : R) (AX U : vec) : vec := prox_l2 (K * (M * NS * P)) (fun r => AX r + U r) (mu / rho).
Definition vector_grad (mu rho : R) (AX U : vec) : vec := fun i =>
  prox_l2 (K * M) (fun r => AX (r * (NS * P) + i mod (NS * P))%nat + U (r * (NS * P) + i mod (NS * P))%nat) (mu / rho) (i / (NS * P)).
Definition ctv_ystep (grad : vec -> vec -> vec) (lmbda rho : R) (wl1 AX U : vec) : vec := fun i =>
  let o := (K * (M * NS * P))%nat in
  if Nat.ltb i o then grad AX U i else prox_l1 (fun k => AX (o + k)%nat + U (o + k)%nat) (fun k => lmbda / rho * wl1 k) (i - o).

Definition scalar_iterate (lmbda mu rho rlx : R) (wl1 : vec) : nat -> state -> state :=
  iterate ctv_cnst_A eq_B (fun _ => 0) rlx (ctv_xstep rho) (ctv_ystep (scalar_grad mu rho) lmbda rho wl1).
Definition vector_iterate (lmbda mu rho rlx : R) (wl1 : vec) : nat -> state -> state :=
  iterate ctv_cnst_A eq_B (fun _ => 0) rlx (ctv_xstep rho) (ctv_ystep (vector_grad mu rho) lmbda rho wl1).
End ctv.
