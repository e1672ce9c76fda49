(** Model of the sub-steps of the sparse coding and dictionary update solvers of sporco/admm/bpdn.py, cmod.py and rpca.py.
    A two-dimensional array with [Nm] columns is a vector in C order, element (i, k) being at i * Nm + k; exact arithmetic. *)
Require Import Reals Bool Arith.
Require Import Verif.RVec Verif.ProxModel Verif.L1ProjModel Verif.NucModel Verif.AdmmModel.
Local Open Scope R_scope.

(** D.dot(X) for X with [k] rows and [Nm] columns; the transpose; X.dot(Z) for X with [k] columns and Z with [Ns]. *)
Definition mm (k Nm : nat) (D : mat) (X : vec) : vec := fun p => sumn k (fun i => D (p / Nm)%nat i * X (i * Nm + p mod Nm)%nat).
Definition tr (D : mat) : mat := fun i j => D j i.
Definition mmr (k Ns : nat) (X : vec) (Z : mat) : vec := fun p => sumn k (fun i => X (p / Ns * k + i)%nat * Z i (p mod Ns)%nat).
(** A function of vectors applied to every row (axis=-1) or every column (axis=0) of an array with [Nm] columns. *)
Definition rows (Nm : nat) (F : vec -> vec) (V : vec) : vec := fun p => F (fun k => V (p / Nm * Nm + k)%nat) (p mod Nm)%nat.
Definition cols (Nm : nat) (F : vec -> vec) (V : vec) : vec := fun p => F (fun i => V (i * Nm + p mod Nm)%nat) (p / Nm)%nat.
(** GenericBPDN.ystep (bpdn.py 219-220): Y[Y < 0.0] = 0.0 if NonNegCoef. *)
Definition clip (nonneg : bool) (Y : vec) : vec := fun p => if (nonneg && ltb (Y p) 0)%bool then 0 else Y p.

Section bpdn.
Variables (Nr Nc Nm : nat).
(** linalg.cho_solve_ATAI(D, rho, b, lu, piv) with the factors of cho_factor(D, rho) (linalg.py), see C21. *)
Variable solve_ATAI : mat -> R -> vec -> vec.
Variables (D : mat) (S : vec).

(** GenericBPDN.setdict (178) and xstep (197-199). *)
Definition bpdn_rhs (rho : R) (Y U : vec) : vec := fun p => mm Nr Nm (tr D) S p + rho * (Y p - U p).
Definition bpdn_xstep (rho : R) (Y U : vec) : vec := solve_ATAI D rho (bpdn_rhs rho Y U).
(** BPDN.ystep (451-454). *)
Definition bpdn_ystep (nonneg : bool) (lmbda rho : R) (wl1 : vec) (AX U : vec) : vec :=
  clip nonneg (prox_l1 (fun p => AX p + U p) (fun p => lmbda / rho * wl1 p)).
(** BPDN.uinit with Y0 given (443). *)
Definition bpdn_uinit (lmbda rho : R) (Y : vec) : vec := fun p => lmbda / rho * sgn (Y p).
(** BPDNJoint.ystep (571-574): prox_sl1l2 (prox/_l21.py 88) along the last axis. *)
Definition joint_ystep (nonneg : bool) (lmbda mu rho : R) (wl1 : vec) (AX U : vec) : vec :=
  clip nonneg (rows Nm (fun v => prox_l2 Nm v (mu / rho)) (prox_l1 (fun p => AX p + U p) (fun p => lmbda / rho * wl1 p))).
(** ElasticNet.xstep (715-718). *)
Definition enet_xstep (mu rho : R) (Y U : vec) : vec := solve_ATAI D (mu + rho) (bpdn_rhs rho Y U).
(** BPDNProjL1.ystep (900-902): proj_l1 along the first axis, by the sort algorithm. *)
Definition projl1_ystep (nonneg : bool) (gamma : R) (AX U : vec) : vec :=
  clip nonneg (cols Nm (fun v => proj_l1_sortsum false Nc v gamma) (fun p => AX p + U p)).

(** MinL1InL2Ball: xstep (1113-1117), ystep (1126-1133), uinit with Y0 given (1085-1087), cnst_A1 (1141), cnst_A1T (1149). *)
Definition minl1_b : nat := (Nc * Nm)%nat.
Definition minl1_A1 (X : vec) : vec := mm Nc Nm D X.
Definition minl1_A1T (Y : vec) : vec := mm Nr Nm (tr D) Y.
Definition minl1_xstep (Y U : vec) : vec :=
  let YU := fun p => Y p - U p in
  solve_ATAI D 1 (fun p => block_sep0 YU p + minl1_A1T (block_sep1 minl1_b YU) p).
Definition minl1_ystep (nonneg : bool) (rho : R) (wl1 : vec) (epsilon : R) (AX U : vec) : vec :=
  let AXU := fun p => AX p + U p in
  block_cat minl1_b (clip nonneg (prox_l1 (block_sep0 AXU) (fun p => wl1 p / rho)))
    (fun p => S p + cols Nm (fun v => proj_l2 Nr v epsilon) (fun q => block_sep1 minl1_b AXU q - S q) p).
Definition minl1_uinit (rho : R) (Y : vec) : vec :=
  block_cat minl1_b (fun p => sgn (block_sep0 Y p) / rho) (fun p => block_sep1 minl1_b Y p - S p).
End bpdn.

(** ** RobustPCA (rpca.py): xstep 175, ystep 185, uinit 158. The matrix has [M] rows and [N] columns. *)
Definition unvec (N : nat) (X : vec) : mat := fun i j => X (i * N + j)%nat.
Definition vecm (N : nat) (X : mat) : vec := fun p => X (p / N)%nat (p mod N)%nat.
Section rpca.
Variable svd : mat -> mat * (nat -> R) * mat.
Variables (M N : nat) (S : vec).
Definition rpca_xstep (rho : R) (Y U : vec) : vec := vecm N (fst (prox_nuclear svd M N (unvec N (fun p => S p - Y p - U p)) (1 / rho))).
Definition rpca_ystep (lmbda rho : R) (AX U : vec) : vec := prox_l1 (fun p => S p - AX p - U p) (fun _ => lmbda / rho).
Definition rpca_uinit (lmbda rho : R) (Y : vec) : vec := fun p => lmbda / rho * sgn (Y p).
Definition rpca_id (X : vec) : vec := X.
End rpca.

(** ** CnstrMOD (cmod.py): setcoef 215, xstep 234-236, ystep 245, getPcn 301-304, zeromean 322, normalise 340-342. The
    dictionary X has [Nc] rows and [Nm] columns, Z has [Nm] rows and [Ns] columns. *)
Section cmod.
Variables (Nc Nm Ns : nat).
(** linalg.lu_solve_AATI(Z, rho, b, lu, piv): x with x (Z Z^T + rho I) = b. *)
Variable solve_AATI : mat -> R -> vec -> vec.
Variables (Z : mat) (S : vec).
Definition cmod_xstep (rho : R) (Y U : vec) : vec := solve_AATI Z rho (fun p => mmr Ns Nm S (tr Z) p + rho * (Y p - U p)).
Definition zeromean (v : vec) : vec := fun i => v i - sumn Nc v / INR Nc.
Definition normalise (v : vec) : vec :=
  let vn := sqrt (sumn Nc (fun i => v i ^ 2)) in fun i => v i / (if eqb vn 0 then 1 else vn).
Definition cmod_pcn (zm : bool) (V : vec) : vec := cols Nm (if zm then fun v => normalise (zeromean v) else normalise) V.
Definition cmod_ystep (zm : bool) (AX U : vec) : vec := cmod_pcn zm (fun p => AX p + U p).
(** uinit with Y0 given (207). *)
Definition cmod_uinit (Y : vec) : vec := Y.
End cmod.

(** ** Initial dual variable for a given Y0 in other classes. SplineL1.uinit (spline.py 185). *)
Definition spline_uinit (wdf : vec) (rho : R) (Y : vec) : vec := fun p => wdf p / rho * sgn (Y p).
(** TVL2Denoise.uinit (tvl2.py 232-233), TVL2Deconv.uinit (589-590): [K] gradient components per pixel, last axis. *)
Definition tv_uinit (K : nat) (lmbda rho : R) (Y : vec) : vec := rows K (fun v k => lmbda / rho * zdivide (v k) (sqrt (sumn K (fun l => v l ^ 2)))) Y.
(** ConvBPDNMaskDcpl.uinit (cbpdn.py 2233-2235): [b] components in block 0. *)
Definition maskdcpl_uinit (b : nat) (W : vec) (lmbda rho : R) (Y : vec) : vec :=
  block_cat b (fun p => W p ^ 2 * block_sep0 Y p / rho) (fun p => lmbda / rho * sgn (block_sep1 b Y p)).
(** ConvMinL1InL2Ball.uinit (cbpdn.py 2012-2015): [b] components in block 0, the block constrained to the ball by ystep (2025). *)
Definition cminl1_uinit (b : nat) (S : vec) (rho : R) (Y : vec) : vec :=
  block_cat b (fun p => sgn (block_sep0 Y p) / rho) (fun p => block_sep1 b Y p - S p).
