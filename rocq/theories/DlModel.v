(** Dictionary learning by alternation: /repo/sporco/dictlrn/dictlrn.py, with the sub-solvers used by cbpdndl.py (convolutional sparse coding
    and constrained dictionary update, by ADMM or by accelerated proximal gradients). Arrays are abstract; numerical functions are parameters. *)
Require Import Reals List Arith Bool.
Import ListNotations.
Local Open Scope R_scope.

Section Dl.
Variables (A M : Type).        (* arrays; momentum, step size and line search state of a proximal gradient solver *)

(** Functions used by the sub-solvers. *)
Record fns := mkFns {
  fftD : A -> A;               (* zero padding and transform of a cropped dictionary (admm/cbpdn.py 247, pgm/cbpdn.py 252) *)
  dsf : A -> A;                (* Df to DSf (admm/cbpdn.py 249-251) *)
  fftZ : A -> A;               (* admm/ccmod.py 325 *)
  zsf : A -> A;                (* admm/ccmod.py 327 *)
  crop : A -> A;               (* cnvrep.bcrop *)
  pcn : A -> A;                (* self.Pcn *)
  xsol : R -> A -> A -> A -> A -> A;    (* rho, Df, DSf, Y, U to X (admm/cbpdn.py 271-281) *)
  xrelax : A -> A -> A;        (* X, Y to AX (admm/admm.py 441-458) *)
  xprox : R -> A -> A -> A;    (* rho, AX, U to Y (admm/cbpdn.py 618-620) *)
  xdual : A -> A -> A -> A;    (* U, AX, Y to U (admm/admm.py 437) *)
  xrho : nat -> A -> A -> A -> A -> R -> R * A;   (* k, Yprev, X, Y, U, rho to new rho, U (admm/admm.py 549-575) *)
  dsol : R -> A -> A -> A -> A -> A;    (* rho, Zf, ZSf, Y, U to X *)
  drelax : A -> A -> A;
  dsum : A -> A -> A;          (* AX, U to AX + U, or its mean over the blocks (admm/ccmod.py 366, admm/admm.py 1590) *)
  ddual : A -> A -> A -> A;
  drhof : nat -> A -> A -> A -> A -> R -> R * A;
  xpoint : A -> A -> A -> M -> A;       (* D, Df, X and the rest of the state to the argument of prox_g (pgm/pgm.py 786-797) *)
  xpprox : A -> A -> A -> M -> A -> A;  (* the same and the argument, to prox_g (pgm/cbpdn.py 291-298) *)
  xmom : A -> A -> A -> M -> A -> M;    (* the same with the new X, to the rest of the state *)
  dpoint : A -> A -> M -> A;            (* Zf, X, rest *)
  dmom : A -> A -> M -> A -> M;
  dfid : A -> A -> R;          (* Df, X to the data fidelity term *)
  l1w : A -> R; l1 : A -> R;   (* weighted and plain l1 norm *)
  lmbda : R
}.
Variable f : fns.

(** Options: MaxMainIter of the sub-solvers, ReturnX, fEvalX, gEvalY of the ADMM sparse coding, AccurateDFid. *)
Record opts := mkOpts { xmax : nat; dmax : nat; returnx : bool; fevalx : bool; gevaly : bool; accurate : bool }.
Variable o : opts.
(** Decisions to stop a sub-solver after an iteration, by the stopping test or its callback, as functions of the iterate. *)
Variables (xstop dstop : nat -> A -> A -> bool).

(** Sparse coding by ADMM: D, Df, DSf, X, Y, U, rho, k, objective in the last iteration record. *)
Record xadm := mkXA { xa_D : A; xa_Df : A; xa_DSf : A; xa_X : A; xa_Y : A; xa_U : A; xa_rho : R; xa_k : nat; xa_obj : option R }.
(** One iteration (admm/admm.py 331-378). eval_objfn: admm/cbpdn.py, the data fidelity with Xf or the transform of Y, the l1 term with Y or X. *)
Definition xa_iter (s : xadm) : xadm :=
  let X := xsol f (xa_rho s) (xa_Df s) (xa_DSf s) (xa_Y s) (xa_U s) in
  let AX := xrelax f X (xa_Y s) in
  let Y := xprox f (xa_rho s) AX (xa_U s) in
  let U := xdual f (xa_U s) AX Y in
  let obj := dfid f (xa_Df s) (if fevalx o then X else Y) + lmbda f * l1w f (if gevaly o then Y else X) in
  let (rho, U) := xrho f (xa_k s) (xa_Y s) X Y U (xa_rho s) in
  mkXA (xa_D s) (xa_Df s) (xa_DSf s) X Y U rho (S (xa_k s)) (Some obj).
Fixpoint xa_loop (n : nat) (s : xadm) : xadm :=
  match n with O => s | S n => let s := xa_iter s in if xstop (xa_k s) (xa_X s) (xa_Y s) then s else xa_loop n s end.
(** setdict (admm/cbpdn.py 245-251) *)
Definition xa_setdict (D : A) (s : xadm) : xadm :=
  mkXA D (fftD f D) (dsf f (fftD f D)) (xa_X s) (xa_Y s) (xa_U s) (xa_rho s) (xa_k s) (xa_obj s).

(** Sparse coding by proximal gradients: D, Df, X, rest, k (pgm/cbpdn.py 222-252, pgm/pgm.py). *)
Record xpgm := mkXP { xp_D : A; xp_Df : A; xp_X : A; xp_m : M; xp_k : nat; xp_obj : option R }.
(** One iteration: PGMDFT.xstep 786-800 and what follows; eval_objfn pgm/cbpdn.py. *)
Definition xp_iter (s : xpgm) : xpgm :=
  let V := xpoint f (xp_D s) (xp_Df s) (xp_X s) (xp_m s) in
  let X := xpprox f (xp_D s) (xp_Df s) (xp_X s) (xp_m s) V in
  mkXP (xp_D s) (xp_Df s) X (xmom f (xp_D s) (xp_Df s) (xp_X s) (xp_m s) X) (S (xp_k s)) (Some (dfid f (xp_Df s) X + lmbda f * l1w f X)).
Fixpoint xp_loop (n : nat) (s : xpgm) : xpgm :=
  match n with O => s | S n => let s := xp_iter s in if xstop (xp_k s) (xp_X s) (xp_X s) then s else xp_loop n s end.
Definition xp_setdict (D : A) (s : xpgm) : xpgm := mkXP D (fftD f D) (xp_X s) (xp_m s) (xp_k s) (xp_obj s).

(** Dictionary update by ADMM (admm/ccmod.py 311-366): Z, Zf, ZSf (None before setcoef), X, Y, U, rho, k. *)
Record dadm := mkDA { da_Z : option (A * A * A); da_X : A; da_Y : A; da_U : A; da_rho : R; da_k : nat }.
(** One iteration; None: the attribute Zf does not exist. *)
Definition da_iter (s : dadm) : option dadm :=
  match da_Z s with
  | None => None
  | Some (Z, Zf, ZSf) =>
      let X := dsol f (da_rho s) Zf ZSf (da_Y s) (da_U s) in
      let AX := drelax f X (da_Y s) in
      let Y := pcn f (dsum f AX (da_U s)) in
      let U := ddual f (da_U s) AX Y in
      let (rho, U) := drhof f (da_k s) (da_Y s) X Y U (da_rho s) in
      Some (mkDA (da_Z s) X Y U rho (S (da_k s)))
  end.
Fixpoint da_loop (n : nat) (s : dadm) : option dadm :=
  match n with
  | O => Some s
  | S n => match da_iter s with None => None | Some s => if dstop (da_k s) (da_X s) (da_Y s) then Some s else da_loop n s end
  end.
Definition da_setcoef (Z : A) (s : dadm) : dadm :=
  mkDA (Some (Z, fftZ f Z, zsf f (fftZ f Z))) (da_X s) (da_Y s) (da_U s) (da_rho s) (da_k s).

(** Dictionary update by proximal gradients (pgm/ccmod.py 264-323): Z, Zf, X, rest, k. *)
Record dpgm := mkDP { dp_Z : option (A * A); dp_X : A; dp_m : M; dp_k : nat }.
Definition dp_iter (s : dpgm) : option dpgm :=
  match dp_Z s with
  | None => None
  | Some (Z, Zf) =>
      let X := pcn f (dpoint f Zf (dp_X s) (dp_m s)) in
      Some (mkDP (dp_Z s) X (dmom f Zf (dp_X s) (dp_m s) X) (S (dp_k s)))
  end.
Fixpoint dp_loop (n : nat) (s : dpgm) : option dpgm :=
  match n with
  | O => Some s
  | S n => match dp_iter s with None => None | Some s => if dstop (dp_k s) (dp_X s) (dp_X s) then Some s else dp_loop n s end
  end.
Definition dp_setcoef (Z : A) (s : dpgm) : dpgm := mkDP (Some (Z, fftZ f Z)) (dp_X s) (dp_m s) (dp_k s).

(** The two stages (cbpdndl.py xmethod, dmethod). *)
Inductive xst := XA (s : xadm) | XP (s : xpgm).
Inductive dst := DA (s : dadm) | DP (s : dpgm).
Definition xsolve (s : xst) : xst := match s with XA s => XA (xa_loop (xmax o) s) | XP s => XP (xp_loop (xmax o) s) end.
Definition setdict (D : A) (s : xst) : xst := match s with XA s => XA (xa_setdict D s) | XP s => XP (xp_setdict D s) end.
(** getcoef: admm/cbpdn.py 263 with admm/admm.py 873; pgm/cbpdn.py 259 *)
Definition getcoef (s : xst) : A := match s with XA s => if returnx o then xa_X s else xa_Y s | XP s => xp_X s end.
Definition xobj (s : xst) : option R := match s with XA s => xa_obj s | XP s => xp_obj s end.
Definition dsolve (s : dst) : option dst :=
  match s with DA s => option_map DA (da_loop (dmax o) s) | DP s => option_map DP (dp_loop (dmax o) s) end.
Definition setcoef (Z : A) (s : dst) : dst := match s with DA s => DA (da_setcoef Z s) | DP s => DP (dp_setcoef Z s) end.
(** getdict(crop=False), getdict(): admm/ccmod.py 336-339, pgm/ccmod.py 288-291 *)
Definition getdict_full (s : dst) : A := match s with DA s => da_Y s | DP s => dp_X s end.
Definition getdict (s : dst) : A := crop f (getdict_full s).

(** evaluate (cbpdndl.py 505-522) *)
Definition var_of (s : xst) : A := match s with XA s => xa_Y s | XP s => xp_X s end.
Definition evaluate (x : xst) (d : dst) : option R :=
  if accurate o then Some (dfid f (fftD f (getdict_full d)) (var_of x) + lmbda f * l1 f (var_of x)) else None.
(** ObjFun of the record: from evaluate, or from the last record of the sparse coding stage, or 0 if it has none (dictlrn.py 345-351). *)
Definition objfun (x : xst) (d : dst) : R :=
  match evaluate x d with Some v => v | None => match xobj x with Some v => v | None => 0 end end.

(** DictLearn.solve (dictlrn.py 326-365); the callback does not change the state. State: stages, self.j, iteration records. *)
Record dl := mkDl { dl_x : xst; dl_d : dst; dl_j : nat; dl_it : list (nat * R) }.
Fixpoint dl_loop (cb : nat -> xst -> dst -> bool) (n j : nat) (s : dl) : option dl :=
  match n with
  | O => Some s
  | S n =>
      let x := xsolve (dl_x s) in
      let d := setcoef (getcoef x) (dl_d s) in
      match dsolve d with
      | None => None
      | Some d =>
          let x' := setdict (getdict d) x in
          let s := mkDl x' d j (dl_it s ++ [(j, objfun x' d)]) in
          if cb j x' d then Some s else dl_loop cb n (S j) s
      end
  end.
Definition dl_solve (cb : nat -> xst -> dst -> bool) (n : nat) (s : dl) : option dl :=
  match dl_loop cb n (dl_j s) s with None => None | Some s => Some (mkDl (dl_x s) (dl_d s) (S (dl_j s)) (dl_it s)) end.
Fixpoint dl_calls (l : list ((nat -> xst -> dst -> bool) * nat)) (s : dl) : option dl :=
  match l with [] => Some s | (cb, n) :: l => match dl_solve cb n s with None => None | Some s => dl_calls l s end end.
End Dl.
