(** The linear systems of the dictionary update, position by position, and what is assumed about scipy's cg. *)
Require Import List Arith Reals.
Require Import Verif.RVec Verif.Cplx.
Local Open Scope R_scope.

(** (rho I + sum_k a_k a_k^H) x = b at each position f, with a_k^H the row ah f k. *)
Definition block_system (F M K : nat) (ah : nat -> nat -> nat -> C) (rho : R) (b x : nat -> C) : Prop :=
  forall f m, (f < F)%nat -> (m < M)%nat ->
    cadd (csumn K (fun k => cmul (conj (ah f k m)) (csumn M (fun j => cmul (ah f k j) (x (f * M + j)%nat))))) (cmul (ofR rho) (x (f * M + m)%nat))
    = b (f * M + m)%nat.
Definition size2 (n : nat) (x : nat -> C) : R := sumn n (fun i => re (x i) * re (x i) + im (x i) * im (x i)).
Definition len (n : nat) (x : nat -> C) : R := sqrt (size2 n x).
Definition inner_re (n : nat) (x y : nat -> C) : R := sumn n (fun i => re (x i) * re (y i) + im (x i) * im (y i)).
(** A linear operator on vectors of length n. *)
Definition linear_op (n : nat) (A : (nat -> C) -> nat -> C) : Prop :=
  (forall a x y i, (i < n)%nat -> A (fun j => cadd (x j) (cmul a (y j))) i = cadd (A x i) (cmul a (A y i))) /\
  (forall x y, (forall j, (j < n)%nat -> x j = y j) -> forall i, (i < n)%nat -> A x i = A y i).
Definition residual (A : (nat -> C) -> nat -> C) (b x : nat -> C) : nat -> C := fun i => csub (b i) (A x i).

(** The documented behaviour of cg for a linear operator, a nonzero right hand side and at least one iteration allowed: info 0
    means that the tolerance was met, an initial solution which meets it is returned, and otherwise info is the number of iterations. *)
Record cg_contract (n : nat) (cg : ((nat -> C) -> nat -> C) -> (nat -> C) -> option (nat -> C) -> nat -> R -> (nat -> C) * nat) : Prop := mkContract {
  cg_ok : forall A b x0 mit tol x, linear_op n A -> cg A b x0 mit tol = (x, O) -> (0 < mit)%nat -> 0 < tol -> len n (residual A b x) <= tol * len n b;
  cg_warm : forall A b x0 mit tol, linear_op n A -> (0 < mit)%nat -> len n (residual A b x0) < tol * len n b -> cg A b (Some x0) mit tol = (x0, O);
  cg_info : forall A b x0 mit tol, linear_op n A -> snd (cg A b x0 mit tol) = O \/ snd (cg A b x0 mit tol) = mit }.
