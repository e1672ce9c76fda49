(** Model of the dictionary update solvers without convolution: sporco/admm/cmod.py (CnstrMOD, 147-342) and sporco/pgm/cmod.py
    (CnstrMOD 110-232, WeightedCnstrMOD 291-336, getPcn 342-407) with the x step of the proximal gradient loop (pgm/pgm.py 399-411,
    no step size policy, no Monotone option).  Exact arithmetic.  A matrix is a function of row and column; a dictionary has Nc rows
    and Nm columns (atoms), Z has Nm rows and Ns columns, S and the weights W have Nc rows and Ns columns (W after broadcasting).
    The linear solver of the x step (linalg.lu_solve_AATI, C23) is an argument. *)
Require Import List Arith Reals Bool.
Require Import Verif.RVec.
Local Open Scope R_scope.

Definition matrix := nat -> nat -> R.

Section cmod.
Variables (Nc Nm Ns : nat) (Z S : matrix).

(** zeromean (admm/cmod.py 322, pgm/cmod.py 387): v - np.mean(v, 0). *)
Definition zeromean (v : matrix) : matrix := fun i m => v i m - sumn Nc (fun j => v j m) / INR Nc.
(** normalise (admm/cmod.py 340-342, pgm/cmod.py 405-407). *)
Definition normalise (v : matrix) : matrix := fun i m =>
  let vn := sqrt (sumn Nc (fun j => v j m ^ 2)) in v i m / (if Req_EM_T vn 0 then 1 else vn).
(** np.clip(x, 0, None) (pgm/cmod.py 367). *)
Definition clip0 (v : matrix) : matrix := fun i m => Rmax (v i m) 0.
(** getPcn of pgm/cmod.py (360-369): None for the ValueError; that of admm/cmod.py (301-304) is the case nnc = false. *)
Definition getPcn (zm nnc : bool) : option (matrix -> matrix) :=
  if zm then (if nnc then None else Some (fun x => normalise (zeromean x)))
  else if nnc then Some (fun x => normalise (clip0 x)) else Some normalise.
Variable Pcn : matrix -> matrix.

(** V.dot(Z), and A.dot(Z.T). *)
Definition dotZ (V : matrix) : matrix := fun i n => sumn Nm (fun m => V i m * Z m n).
Definition dotZT (A : matrix) : matrix := fun i m => sumn Ns (fun n => A i n * Z m n).

(** *** admm/cmod.py *)
Variables (solve : matrix -> matrix) (rho rlx : R).
(** xstep (234-236) with SZT of 215. *)
Definition cm_xstep (Y U : matrix) : matrix := solve (fun i m => dotZT S i m + rho * (Y i m - U i m)).
(** relax_AX (admm.py 877-885). *)
Definition cm_relax (X Y : matrix) : matrix := if Req_EM_T rlx 1 then X else fun i m => rlx * X i m + (1 - rlx) * Y i m.
(** ystep (245) and ustep (admm.py). *)
Definition cm_iteration (st : matrix * matrix * matrix) : matrix * matrix * matrix :=
  let '(_, Y, U) := st in
  let X := cm_xstep Y U in
  let AX := cm_relax X Y in
  let Y' := Pcn (fun i m => AX i m + U i m) in
  (X, Y', fun i m => U i m + AX i m - Y' i m).
Fixpoint cm_iterate (k : nat) (st : matrix * matrix * matrix) : matrix * matrix * matrix :=
  match k with O => st | Datatypes.S k' => cm_iteration (cm_iterate k' st) end.
(** Initial state without Y0 and U0: zeros. *)
Definition cm_start : matrix * matrix * matrix := (fun _ _ => 0, fun _ _ => 0, fun _ _ => 0).
(** Statistic Cnstr (274; pgm/cmod.py 223). *)
Definition cnstr (G : matrix) : R := sqrt (sumn Nc (fun i => sumn Nm (fun m => (Pcn G i m - G i m) ^ 2))).

(** *** pgm/cmod.py *)
Variables (W : matrix) (L : R).
(** grad_f (176; with weights 324) and obfn_f (214; 335-336). *)
Definition grad_f (V : matrix) : matrix := dotZT (fun i n => dotZ V i n - S i n).
Definition wgrad_f (V : matrix) : matrix := dotZT (fun i n => W i n * (dotZ V i n - S i n)).
Definition obfn_f (X : matrix) : R := 0.5 * sqrt (sumn Nc (fun i => sumn Ns (fun n => (dotZ X i n - S i n) ^ 2))) ^ 2.
Definition wobfn_f (X : matrix) : R := 0.5 * sqrt (sumn Nc (fun i => sumn Ns (fun n => (sqrt (W i n) * (dotZ X i n - S i n)) ^ 2))) ^ 2.
(** hessian_f (190), which WeightedCnstrMOD inherits. *)
Definition hessian_f (V : matrix) : matrix := dotZT (dotZ V).
(** PGM.xstep (400-411) for the class with (grad_f) or without weights. *)
Definition pg_xstep (grad : matrix -> matrix) (Y : matrix) : matrix := Pcn (fun i m => Y i m - 1 / L * grad Y i m).
(** One iteration of the loop with momentum coefficients (tprv - 1) / t = [b k] (pgm.py 433-441): X, its predecessor and Y. *)
Fixpoint pg_iterate (grad : matrix -> matrix) (b : nat -> R) (X0 : matrix) (k : nat) : matrix * matrix :=
  match k with
  | O => (X0, X0)
  | Datatypes.S k' => let '(X, Y) := pg_iterate grad b X0 k' in
                      let X' := pg_xstep grad Y in (X', fun i m => X' i m + b k' * (X' i m - X i m))
  end.
End cmod.
