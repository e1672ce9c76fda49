(** The dictionary updates that solve their linear system by conjugate gradients: linalg.solvemdbi_cg (sporco/linalg.py 515-579),
    ConvCnstrMOD_CG.xstep (sporco/admm/ccmod.py 587-600) and ConvCnstrMODMaskDcpl_CG.xstep (sporco/admm/ccmodmd.py 741-756).
    An array over F positions (frequency, channel) and M filters is flattened in C order: entry (f, m) is at f * M + m. *)
Require Import List Arith Reals Bool.
Require Import Verif.RVec Verif.Cplx.
Local Open Scope R_scope.

Definition spec : Type := nat -> C.
Section op.
Variables (F M K : nat) (ah : nat -> nat -> nat -> C) (rho : R).   (* ah f k m *)
(** Aop (573) and AHop (574), after the reshape of line 576. *)
Definition Aop (x : nat -> nat -> C) (f k : nat) : C := csumn M (fun m => cmul (ah f k m) (x f m)).
Definition AHop (y : nat -> nat -> C) (f m : nat) : C := csumn K (fun k => cmul (conj (ah f k m)) (y f k)).
Definition reshape (x : spec) (f m : nat) : C := x (f * M + m)%nat.
Definition ravel (x : nat -> nat -> C) : spec := fun i => x (i / M)%nat (i mod M)%nat.
(** vAHAoprI (576). *)
Definition vop (x : spec) : spec := fun i => cadd (ravel (AHop (Aop (reshape x))) i) (cscal rho (x i)).
End op.

(** numpy.linalg.norm of a complex vector of length n. *)
Definition cnorm (n : nat) (x : spec) : R := sqrt (sumn n (fun i => cabs2 (x i))).

(** scipy.sparse.linalg.cg(A, b, x0, maxiter, rtol) is external: a function of these arguments which returns x and info. *)
Definition cg_fun : Type := (spec -> spec) -> spec -> option spec -> nat -> R -> spec * nat.

(** solvemdbi_cg (570-579): the whole array is one system. *)
Definition solvemdbi_cg (cg : cg_fun) (M K : nat) (ah : nat -> nat -> nat -> C) (rho : R) (b : spec) (tol : R) (mit : nat) (isn : option spec) : spec * nat :=
  cg (vop M K ah rho) b isn mit tol.

(** ConvCnstrMOD_CG.xstep (591-598): the right hand side is ZSf + rho * fftn(Y - U), the initial solution is the previous Xf. *)
Definition cg_xstep (cg : cg_fun) (M K : nat) (Zf : nat -> nat -> nat -> C) (rho : R) (ZSf YUf : spec) (tol : R) (mit : nat) (Xf : spec) : spec * nat :=
  solvemdbi_cg cg M K Zf rho (fun i => cadd (ZSf i) (cscal rho (YUf i))) tol mit (Some Xf).
(** ZSf (ccmod.py 311): the product of the conjugate of Zf with the transform of the signals, summed over the signals. *)
Definition zsf (M K : nat) (Zf : nat -> nat -> nat -> C) (Sf : nat -> nat -> C) : spec := ravel M (AHop K Zf Sf).

(** The algorithm of scipy's cg without preconditioner, on vectors of length n, returning also the number of iterations made (the
    updates of x).  It is used to show that the assumptions made about [cg] can be met and how info relates to that number. *)
Definition vdot (n : nat) (x y : spec) : C := csumn n (fun i => cmul (conj (x i)) (y i)).
Definition cdivide (x y : C) : C := cmul x (cscal (/ cabs2 y) (conj y)).
Fixpoint cg_loop (n : nat) (A : spec -> spec) (atol : R) (mit rest : nat) (x r : spec) (prev : option (C * spec)) (count : nat) : spec * nat * nat :=
  match rest with
  | O => (x, mit, count)
  | S rest =>
      if Rlt_dec (cnorm n r) atol then (x, O, count)
      else
        let rho_cur := vdot n r r in
        let p := match prev with
                 | None => r
                 | Some (rho_prev, p) => let beta := cdivide rho_cur rho_prev in fun i => cadd (cmul beta (p i)) (r i)
                 end in
        let q := A p in
        let alpha := cdivide rho_cur (vdot n p q) in
        cg_loop n A atol mit rest (fun i => cadd (x i) (cmul alpha (p i))) (fun i => csub (r i) (cmul alpha (q i))) (Some (rho_cur, p)) (S count)
  end.
Definition cg_run (n : nat) (A : spec -> spec) (b : spec) (x0 : option spec) (mit : nat) (rtol : R) : spec * nat * nat :=
  if Req_EM_T (cnorm n b) 0 then (b, O, O)
  else let x := match x0 with None => fun _ => c0 | Some x => x end in
       cg_loop n A (rtol * cnorm n b) mit mit x (fun i => csub (b i) (A x i)) None O.
Definition scipy_cg (n : nat) : cg_fun := fun A b x0 mit tol => fst (cg_run n A b x0 mit tol).
