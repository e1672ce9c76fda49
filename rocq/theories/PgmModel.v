(** Model of the proximal gradient solvers, sporco/pgm/pgm.py, backtrack.py, momentum.py and stepsize.py. Arrays are vectors with
    [n] components. The methods a derived class supplies are parameters: obfn_f, obfn_g, grad_f, hessian_f and prox_g (which
    reads self.L). Timers, statistics and display are left out (C32, C33, C63). *)
Require Import Reals List Bool.
Require Import Verif.RVec Verif.ProxModel.
Local Open Scope R_scope.
Definition vec := nat -> R.

(** momentum.py: MomentumNesterov.update 68, MomentumLinear.update 103, MomentumGenLinear.update 142; PGM.var_momentum (pgm.py
    666-668) passes t to the first and k to the others. *)
Inductive momentum := Nesterov | Linear (b : R) | GenLinear (a b : R).
Definition mom_update (m : momentum) (t : R) (k : nat) : R :=
  match m with
  | Nesterov => / 2 * (1 + sqrt (1 + 4 * t ^ 2))
  | Linear b => (INR k + b) / b
  | GenLinear a b => (INR k + a) / b
  end.

(** Step size policies (stepsize.py): [Bb] holds xprv and gradprv (104-105, 119-120). *)
Inductive policy := NoPolicy | Cauchy | Bb (xprv gradprv : vec).
(** Backtracking objects (backtrack.py): 75-76 and 153-158. *)
Inductive backtrack := NoBacktrack | Standard (gamma_u : R) (maxiter : nat) | Robust (gamma_d gamma_u : R) (maxiter : nat) (Tk : R) (Zrb : option vec).

(** Attributes of the solver object that the iterations change. *)
Record pstate := mkP { pX : vec; pY : vec; pXprv : vec; pYprv : vec; pZZ : vec; pt : R; pL : R; pk : nat;
  pobj : R; pobjprev : R; ppol : policy; pbt : backtrack; pF : R; pQ : R; pit : nat }.

Section pgm.
Variable n : nat.
Variables (obfn_f obfn_g : vec -> R) (grad_f hessian_f : vec -> vec) (prox_g : R -> vec -> vec).
(** Options Monotone, FastSolve, Momentum. *)
Variables (monotone fastsolve : bool) (mom : momentum).

(** pgm.py 558-566. *)
Definition eval_objfn (X : vec) : R := obfn_f X + obfn_g X.
(** The state after __init__ of a derived class (pgm.py 242-273; pgm/bpdn.py 155-156). *)
Definition pinit (X0 : vec) (L : R) (pol : policy) (bt : backtrack) : pstate :=
  mkP X0 X0 X0 (fun i => X0 i + 1000) X0 1 L 0 0 0 (match bt with NoBacktrack => pol | _ => NoPolicy end) bt 0 0 0.

(** pgm.py 485-496. *)
Definition on_iteration_start (s : pstate) : pstate :=
  let obj := if (monotone && Nat.eqb (pk s) 0)%bool then eval_objfn (pX s) else pobj s in
  mkP (pX s) (pY s) (pX s) (if (negb fastsolve || match pbt s with Robust _ _ _ _ _ => true | _ => false end)%bool then pY s else pYprv s)
    (pZZ s) (pt s) (pL s) (pk s) obj (if monotone then obj else pobjprev s) (ppol s) (pbt s) (pF s) (pQ s) (pit s).

(** stepsize.py 77-82, 134-145. *)
Definition cauchy_update (grad : vec) : R := sumn n (fun i => grad i * hessian_f grad i) / sumn n (fun i => grad i * grad i).
Definition bb_update (X xprv grad gradprv : vec) (L : R) : R :=
  let dx := fun i => X i - xprv i in let dg := fun i => grad i - gradprv i in
  let l := sumn n (fun i => dg i * dg i) / sumn n (fun i => dx i * dg i) in
  if ltb l 0 then L else l.
(** pgm.py 402-407. *)
Definition policy_step (s : pstate) (grad : vec) : R * policy :=
  match ppol s with
  | NoPolicy => (pL s, NoPolicy)
  | Cauchy => (if Nat.ltb 1 (pk s) then cauchy_update grad else pL s, Cauchy)
  | Bb xp gp => (if Nat.ltb 1 (pk s) then bb_update (pX s) xp grad gp (pL s) else pL s, Bb (pX s) grad)
  end.
(** pgm.py 393-422, with the gradient given. *)
Definition xstep (s : pstate) (grad : vec) : pstate :=
  let '(L, pol) := policy_step s grad in
  let V := fun i => pY s i - 1 / L * grad i in
  let X := prox_g L V in
  if (monotone && Nat.ltb 0 (pk s))%bool then
    let obj := eval_objfn X in
    if ltb (pobjprev s) obj
    then mkP (pXprv s) (pY s) (pXprv s) (pYprv s) X (pt s) L (pk s) (pobjprev s) (pobjprev s) pol (pbt s) (pF s) (pQ s) (pit s)
    else mkP X (pY s) (pXprv s) (pYprv s) X (pt s) L (pk s) obj (pobjprev s) pol (pbt s) (pF s) (pQ s) (pit s)
  else mkP X (pY s) (pXprv s) (pYprv s) (pZZ s) (pt s) L (pk s) (pobj s) (pobjprev s) pol (pbt s) (pF s) (pQ s) (pit s).
(** pgm.py 426-441. *)
Definition ystep (s : pstate) : pstate :=
  let tprv := pt s in
  let t := mom_update mom (pt s) (pk s) in
  let Y := if (monotone && Nat.ltb 0 (pk s))%bool
    then fun i => pX s i + tprv / t * (pZZ s i - pX s i) + (tprv - 1) / t * (pX s i - pXprv s i)
    else fun i => pX s i + (tprv - 1) / t * (pX s i - pXprv s i) in
  mkP (pX s) Y (pXprv s) (pYprv s) (pZZ s) t (pL s) (pk s) (pobj s) (pobjprev s) (ppol s) (pbt s) (pF s) (pQ s) (pit s).

(** Setting L, Y, the backtracking object and the values F, Q, iterBTrack. *)
Definition setL (s : pstate) (L : R) : pstate :=
  mkP (pX s) (pY s) (pXprv s) (pYprv s) (pZZ s) (pt s) L (pk s) (pobj s) (pobjprev s) (ppol s) (pbt s) (pF s) (pQ s) (pit s).
Definition setY (s : pstate) (Y : vec) : pstate :=
  mkP (pX s) Y (pXprv s) (pYprv s) (pZZ s) (pt s) (pL s) (pk s) (pobj s) (pobjprev s) (ppol s) (pbt s) (pF s) (pQ s) (pit s).
Definition setB (s : pstate) (b : backtrack) (F Q : R) (it : nat) : pstate :=
  mkP (pX s) (pY s) (pXprv s) (pYprv s) (pZZ s) (pt s) (pL s) (pk s) (pobj s) (pobjprev s) (ppol s) b F Q it.
Definition setk (s : pstate) (k : nat) : pstate :=
  mkP (pX s) (pY s) (pXprv s) (pYprv s) (pZZ s) (pt s) (pL s) k (pobj s) (pobjprev s) (ppol s) (pbt s) (pF s) (pQ s) (pit s).
(** backtrack.py 99-103, 190-194; eval_Dxy (pgm.py 502), eval_linear_approx (451). *)
Definition quad (s : pstate) (gradY : vec) : R :=
  let Dxy := fun i => pX s i - pY s i in
  obfn_f (pY s) + sumn n (fun i => Dxy i * gradY i) + pL s / 2 * sqrt (sumn n (fun i => Dxy i * Dxy i)) ^ 2.
(** BacktrackStandard.update: the loop 95-110; [m] = trials left, [last] = the values f, Q once assigned. *)
Fixpoint std_loop (gamma_u : R) (gradY : vec) (m it : nat) (last : option (R * R)) (s : pstate) : pstate * option (R * R) * nat :=
  match m with
  | O => (s, last, it)
  | S m' =>
      let s1 := xstep s gradY in
      let f := obfn_f (pX s1) in
      let Q := quad s1 gradY in
      if leb f Q then (s1, Some (f, Q), S it)
      else std_loop gamma_u gradY m' (S it) (Some (f, Q)) (setL s1 (pL s1 * gamma_u))
  end.
(** 80-116; None: f is unbound at 112 (maxiter = 0). *)
Definition std_update (gamma_u : R) (maxiter : nat) (s : pstate) : option pstate :=
  let '(s1, last, it) := std_loop gamma_u (grad_f (pY s)) maxiter 0 None s in
  match last with None => None | Some (f, Q) => Some (ystep (setB s1 (pbt s1) f Q it)) end.
(** BacktrackRobust.update: the loop 180-201. *)
Definition rob_t (L Tk : R) : R := (1 + sqrt (1 + 4 * L * Tk)) / (2 * L).
Fixpoint rob_loop (gamma_u Tk : R) (Z : vec) (m it : nat) (last : option (R * R * R * R)) (s : pstate) : pstate * option (R * R * R * R) * nat :=
  match m with
  | O => (s, last, it)
  | S m' =>
      let t := rob_t (pL s) Tk in
      let T := Tk + t in
      let s0 := setY s (fun i => (Tk * pXprv s i + t * Z i) / T) in
      let gradY := grad_f (pY s0) in
      let s1 := xstep s0 gradY in
      let f := obfn_f (pX s1) in
      let Q := quad s1 gradY in
      if leb f Q then (s1, Some (f, Q, t, T), S it)
      else rob_loop gamma_u Tk Z m' (S it) (Some (f, Q, t, T)) (setL s1 (pL s1 * gamma_u))
  end.
(** 162-208. *)
Definition rob_update (gamma_d gamma_u : R) (maxiter : nat) (Tk : R) (Zrb : option vec) (s : pstate) : option pstate :=
  let Z := match Zrb with None => pX s | Some Z => Z end in
  let '(s1, last, it) := rob_loop gamma_u Tk Z maxiter 0 None (setL s (pL s * gamma_d)) in
  match last with
  | None => None
  | Some (f, Q, t, T) => Some (setB s1 (Robust gamma_d gamma_u maxiter T (Some (fun i => Z i + t * pL s1 * (pX s1 i - pY s1 i)))) f Q it)
  end.
(** The body of the main loop (pgm.py 328-343), up to the statistics, and the next value of k. *)
Definition pbody (s : pstate) : option pstate :=
  let s := on_iteration_start s in
  match pbt s with
  | NoBacktrack => Some (ystep (xstep s (grad_f (pY s))))
  | Standard gu m => std_update gu m s
  | Robust gd gu m Tk Z => rob_update gd gu m Tk Z s
  end.
Definition piter (s : pstate) : option pstate := match pbody s with None => None | Some s' => Some (setk s' (S (pk s'))) end.
Fixpoint prun (N : nat) (s : pstate) : option pstate :=
  match N with O => Some s | S N' => match prun N' s with None => None | Some s' => piter s' end end.
(** The objective value in the iteration statistics (pgm.py 546-553), evaluated at the end of the iteration. *)
Definition recorded (s : pstate) : R := if monotone then pobj s else eval_objfn (pX s).
(** pgm.py 389: what solve returns. *)
Definition getmin (s : pstate) : vec := pX s.
(** pgm.py 700-702 (k is the number of the iteration just done, so the successor is stored here). *)
Definition rsdl (s : pstate) : R :=
  if (monotone && Nat.ltb 1 (pk s))%bool then sqrt (sumn n (fun i => (pX s i - pY s i) ^ 2)) else sqrt (sumn n (fun i => (pX s i - pYprv s i) ^ 2)).
End pgm.

(** PGMDFT (pgm.py 708-894), without backtracking and step size policy: the gradient step in the Fourier domain. [W] is the type of
    transformed arrays with addition and scaling; fwd and inv are rfftn and irfftn over the spatial axes. *)
Section dft.
Variable W : Type.
Variables (wadd : W -> W -> W) (wscal : R -> W -> W).
Variables (fwd : vec -> W) (inv : W -> vec).
Variables (obfn_dfd : W -> R) (obfn_reg : vec -> R) (grad_f : W -> W) (prox_g : R -> vec -> vec).
Variables (monotone : bool) (mom : momentum).
Definition wsub (a b : W) : W := wadd a (wscal (-1) b).
Record dstate := mkD { dX : vec; dXf : W; dYf : W; dXfprv : W; dZZf : W; dt : R; dL : R; dk : nat; dobj : R; dobjprev : R }.
(** pgm/cbpdn.py 229-240: __init__. *)
Definition dinit (X0 : vec) (L : R) : dstate := mkD X0 (fwd X0) (fwd X0) (fwd X0) (fwd X0) 1 L 0 0 0.
(** eval_objfn of pgm/cbpdn.py 322-354: data fidelity from Xf, regularisation from X. *)
Definition deval (X : vec) (Xf : W) : R := obfn_dfd Xf + obfn_reg X.
(** pgm.py 835-846. *)
Definition dstart (s : dstate) : dstate :=
  let obj := if (monotone && Nat.eqb (dk s) 0)%bool then deval (dX s) (dXf s) else dobj s in
  mkD (dX s) (dXf s) (dYf s) (dXf s) (dZZf s) (dt s) (dL s) (dk s) obj (if monotone then obj else dobjprev s).
(** pgm.py 779-811. *)
Definition dxstep (s : dstate) : dstate :=
  let Vf := wsub (dYf s) (wscal (1 / dL s) (grad_f (dYf s))) in
  let X := prox_g (dL s) (inv Vf) in
  let Xf := fwd X in
  if (monotone && Nat.ltb 0 (dk s))%bool then
    let obj := deval X Xf in
    if ltb (dobjprev s) obj
    then mkD X (dXfprv s) (dYf s) (dXfprv s) Xf (dt s) (dL s) (dk s) (dobjprev s) (dobjprev s)
    else mkD X Xf (dYf s) (dXfprv s) Xf (dt s) (dL s) (dk s) obj (dobjprev s)
  else mkD X Xf (dYf s) (dXfprv s) (dZZf s) (dt s) (dL s) (dk s) (dobj s) (dobjprev s).
(** pgm.py 815-831. *)
Definition dystep (s : dstate) : dstate :=
  let tprv := dt s in
  let t := mom_update mom (dt s) (dk s) in
  let Yf := if (monotone && Nat.ltb 0 (dk s))%bool
    then wadd (wadd (dXf s) (wscal (tprv / t) (wsub (dZZf s) (dXf s)))) (wscal ((tprv - 1) / t) (wsub (dXf s) (dXfprv s)))
    else wadd (dXf s) (wscal ((tprv - 1) / t) (wsub (dXf s) (dXfprv s))) in
  mkD (dX s) (dXf s) Yf (dXfprv s) (dZZf s) t (dL s) (dk s) (dobj s) (dobjprev s).
Definition diter (s : dstate) : dstate :=
  let s := dystep (dxstep (dstart s)) in
  mkD (dX s) (dXf s) (dYf s) (dXfprv s) (dZZf s) (dt s) (dL s) (S (dk s)) (dobj s) (dobjprev s).
Fixpoint drun (N : nat) (s : dstate) : dstate := match N with O => s | S N' => diter (drun N' s) end.
End dft.

(** ** Derived classes. pgm/bpdn.py BPDN: grad_f 182, prox_g 189-193, hessian_f 200, obfn_f 233, obfn_reg 222-223; WeightedBPDN: grad_f 358,
    obfn_f 368-369 (no hessian_f of its own, no Hessian with W). *)
Require Import Verif.StepsModel.
Section bpdn.
Variables (Nr Nc Nm : nat) (D : nat -> nat -> R) (S : vec) (W : vec) (lmbda : R) (wl1 : vec) (nonneg : bool).
Definition pb_grad (V : vec) : vec := mm Nr Nm (tr D) (fun p => mm Nc Nm D V p - S p).
Definition pb_prox (L : R) (V : vec) : vec := clip nonneg (prox_l1 V (fun p => lmbda / L * wl1 p)).
Definition pb_hess (V : vec) : vec := mm Nr Nm (tr D) (mm Nc Nm D V).
Definition pb_f (X : vec) : R := / 2 * sqrt (sumn (Nr * Nm) (fun p => (mm Nc Nm D X p - S p) ^ 2)) ^ 2.
Definition pb_g (X : vec) : R := lmbda * sumn (Nc * Nm) (fun p => Rabs (wl1 p * X p)).
Definition wb_grad (V : vec) : vec := mm Nr Nm (tr D) (fun p => W p * (mm Nc Nm D V p - S p)).
Definition wb_f (X : vec) : R := / 2 * sqrt (sumn (Nr * Nm) (fun p => (sqrt (W p) * (mm Nc Nm D X p - S p)) ^ 2)) ^ 2.
End bpdn.
