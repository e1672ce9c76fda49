(** Model of sporco/admm/spline.py (class SplineL1, 130-291) and of the functions dctii and idctii of sporco/fft.py (318-372).
    The transforms of scipy.fftpack are written out as finite sums (dct of type 2 with norm='ortho', and idct of type 2, which is
    the transform of type 3); the call of scipy itself is not modelled. Exact arithmetic. An array of any dimension is a function
    of an index (FftModel); the iteration of AdmmModel works on vectors, so that arrays are flattened in C order (CscIterModel),
    [all] being the list of all the axes of the array. The penalty parameter is fixed. *)
Require Import List Arith Reals Bool.
Require Import Verif.RVec Verif.FftModel Verif.CscIterModel Verif.AdmmModel Verif.ProxModel.
Import ListNotations.
Local Open Scope R_scope.

(** scipy.fftpack.dct(x, type=2, norm='ortho') and scipy.fftpack.idct(x, type=2, norm='ortho') for one axis of length [N]. *)
Definition dct_w (N k : nat) : R := if Nat.eqb k 0 then sqrt (1 / (4 * INR N)) else sqrt (1 / (2 * INR N)).
Definition dct (N : nat) (x : nat -> R) (k : nat) : R :=
  dct_w N k * (2 * sumn N (fun j => x j * cos (PI * INR k * (2 * INR j + 1) / (2 * INR N)))).
Definition idct (N : nat) (y : nat -> R) (j : nat) : R :=
  y O / sqrt (INR N) + sqrt (2 / INR N) * sumn (N - 1) (fun k => y (S k) * cos (PI * (INR j + / 2) * INR (S k) / INR N)).
Definition dct_ax (s : nat -> nat) (ax : nat) (x : index -> R) : index -> R := fun i => dct (s ax) (fun j => x (upd i ax j)) (i ax).
Definition idct_ax (s : nat -> nat) (ax : nat) (x : index -> R) : index -> R := fun i => idct (s ax) (fun j => x (upd i ax j)) (i ax).
(** fft.py 341-343 and 370-372. *)
Definition dctii (s : nat -> nat) (axes : list nat) (x : index -> R) : index -> R := fold_left (fun a ax => dct_ax s ax a) axes x.
Definition idctii (s : nat -> nat) (axes : list nat) (x : index -> R) : index -> R := fold_left (fun a ax => idct_ax s ax a) (rev axes) x.

Section spline.
Variables (s : nat -> nat) (all axes : list nat) (lmbda rho : R) (S Wdf : vec).
Definition sp_arr (x : vec) : index -> R := fun p => x (rank s all p).
Definition sp_flat (x : index -> R) : vec := fun r => x (place s all (fun _ => O) r).

(** 166-172. *)
Definition Alpha : index -> R := fun i => fold_left (fun a ax => a + (-2 + 2 * cos (INR (i ax) * PI / INR (s ax)))) axes 0.
Definition Gamma : index -> R := fun i => 1 / (1 + (lmbda / rho) * (Alpha i * Alpha i)).
(** 193-194, on arrays and on vectors. *)
Definition sp_solve (v : index -> R) : index -> R := idctii s axes (fun i => Gamma i * dctii s axes v i).
Definition sp_xstep (Y U : vec) : vec := sp_flat (sp_solve (sp_arr (fun r => Y r + S r - U r))).
(** 211. *)
Definition sp_ystep (AX U : vec) : vec := prox_l1 (fun r => AX r - S r + U r) (fun r => Wdf r / rho).
(** 263-291: cnst_A, cnst_AT, cnst_B, cnst_c are eq_A, eq_AT, eq_B and S. *)
Definition sp_iterate (rlx : R) : nat -> state -> state := iterate eq_A eq_B S rlx sp_xstep sp_ystep.
(** 241-247: DFid, Reg and ObjFun; [gEvalY] selects the argument (227-230). *)
Definition sp_gvar (gEvalY : bool) (X Y : vec) : vec := if gEvalY then Y else fun r => X r - S r.
Definition sp_op (X : vec) : vec := sp_flat (idctii s axes (fun i => Alpha i * dctii s axes (sp_arr X) i)).
Definition sp_dfd (gEvalY : bool) (X Y : vec) : R := sumn (size s all) (fun r => Rabs (Wdf r * sp_gvar gEvalY X Y r)).
Definition sp_reg (X : vec) : R := / 2 * (nrm (size s all) (sp_op X) * nrm (size s all) (sp_op X)).
Definition sp_obj (gEvalY : bool) (X Y : vec) : R := sp_dfd gEvalY X Y + lmbda * sp_reg X.
(** 196-200: the residual of the x step equation whose relative size is reported with LinSolveCheck. *)
Definition sp_lhs (X : vec) : vec :=
  fun r => X r + (lmbda / rho) * sp_flat (idctii s axes (fun i => Alpha i * Alpha i * dctii s axes (sp_arr X) i)) r.
End spline.
