(** Model of the plug and play priors solvers: GenericPPP and PPP of sporco/admm/ppp.py (22-150), GenericPPPConsensus and
    PPPConsensus (156-299), and GenericPPP and PPP of sporco/pgm/ppp.py (23-152).  The functions the user supplies (proxf, proxg,
    proxfi, f, gradf) are parameters; they are called with the penalty parameter, which is fixed here, so that an operator below is
    the function at that value.  The proximal gradient solver is that of PgmModel with eval_objfn reduced to f (pgm/ppp.py 85). *)
Require Import Reals List Arith.
Require Import Verif.RVec Verif.AdmmModel Verif.PgmModel.
Local Open Scope R_scope.
Local Notation vec := (nat -> R).

(** admm/ppp.py 57 and 66, in the iteration of ADMMEqual. *)
Definition ppp_xstep (F : vec -> vec) (Y U : vec) : vec := F (fun i => Y i - U i).
Definition ppp_ystep (G : vec -> vec) (AX U : vec) : vec := G (fun i => AX i + U i).
Definition ppp_iterate (rlx : R) (F G : vec -> vec) : nat -> state -> state := iterate eq_A eq_B eq_c rlx (ppp_xstep F) (ppp_ystep G).

(** The consensus solver: block i of X and U is the last axis of the arrays. *)
Record cstate := mkC { cX : mvec; cY : vec; cU : mvec; cYprev : vec }.
Section cons.
Variables (nb : nat) (rlx rho : R) (alpha : vec) (prox_fi : nat -> vec -> R -> vec) (prox_g : vec -> R -> vec).
(** xistep (224) for each block, relax_AX (admm.py 1608-1616), ystep (1794-1801) and ustep (1808). *)
Definition pc_X (s : cstate) : mvec := fun j => prox_fi j (fun i => cY s i - cU s j i) rho.
Definition pc_iteration (s : cstate) : cstate :=
  let X := pc_X s in
  let AX := cn_relax_AX rlx X (cY s) in
  let Y := wc_ystep nb rho alpha prox_g AX (cU s) in
  mkC X Y (wc_ustep AX Y (cU s)) (cY s).
Fixpoint pc_iterate (k : nat) (s : cstate) : cstate := match k with O => s | S k' => pc_iteration (pc_iterate k' s) end.
End cons.
(** The default prox_g (242-253). *)
Definition pc_prox_id (X : vec) (rho : R) : vec := X.

(** pgm/ppp.py: the iteration of PGM with prox_g (66), grad_f (59), the objective f alone (85), and the residual (73). *)
Definition pgm_ppp_run (n : nat) (f : vec -> R) (gradf : vec -> vec) (proxg : vec -> R -> vec) (monotone : bool) (mom : momentum) (N : nat) (s : pstate) : option pstate :=
  prun n f (fun _ => 0) gradf (fun v => v) (fun L V => proxg V L) monotone false mom N s.
Definition pgm_ppp_rsdl (n : nat) (s : pstate) : R := sqrt (sumn n (fun i => (pX s i - pYprv s i) ^ 2)).
