(** Model of sporco/admm/rpca.py, class RobustPCA: the main loop with the steps of StepsModel (rpca_xstep, rpca_ystep), and what
    eval_objfn (214-226) records. Matrices of [M] rows and [N] columns are flattened row by row; numpy.linalg.svd is a parameter.
    The penalty parameter is fixed. *)
Require Import Reals Arith.
Require Import Verif.RVec Verif.NucModel Verif.AdmmModel Verif.ProxModel Verif.StepsModel.
Local Open Scope R_scope.

Section rpca.
Variable svd : mat -> mat * (nat -> R) * mat.
Variables (M N : nat) (lmbda rho rlx : R) (S : vec).
(** The main loop (admm.py 334-346), with cnst_A, cnst_B and cnst_c of 230-262. *)
Definition rp_iterate : nat -> state -> state := iterate rpca_id rpca_id S rlx (rpca_xstep svd M N S rho) (rpca_ystep S lmbda rho).
(** self.ss: the second result of prox_nuclear in xstep (175). *)
Definition rp_ss (Y U : vec) : vec := snd (prox_nuclear svd M N (unvec N (fun p => S p - Y p - U p)) (1 / rho)).
(** 219-226 with obfn_fvar (195-198) and obfn_gvar (207-210). *)
Definition rp_nuc (fEvalX : bool) (ss Y : vec) : R := if fEvalX then sumn (Nat.min M N) ss else norm_nuclear svd M N (unvec N (fun p => S p - Y p)).
Definition rp_l1 (gEvalY : bool) (X Y : vec) : R := sumn (M * N) (fun p => Rabs (if gEvalY then Y p else S p - X p)).
Definition rp_cns (X Y : vec) : R := nrm (M * N) (fun p => X p + Y p - S p).
Definition rp_obj (fEvalX gEvalY : bool) (ss X Y : vec) : R := rp_nuc fEvalX ss Y + lmbda * rp_l1 gEvalY X Y.
(** The values recorded in iteration [k] (the first is number 0): self.ss is that of the x step of the same iteration. *)
Definition rp_recorded (fEvalX gEvalY : bool) (k : nat) (st : state) : R * R :=
  let a := rp_iterate k st in let b := rp_iterate (Datatypes.S k) st in
  (rp_obj fEvalX gEvalY (rp_ss (sY a) (sU a)) (sX b) (sY b), rp_cns (sX b) (sY b)).
End rpca.
