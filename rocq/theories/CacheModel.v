(** Model of the cached part of the linear solve (option HighMemSolve) of the convolutional sparse coding solvers:
    sporco/admm/cbpdn.py, pdcsc.py and cbpdntv.py.  As in LinSolveModel one DFT frequency is modelled (for the product
    dictionary classes one frequency and one eigenvector of B^T B), and the dictionary has a single channel: otherwise
    the code stores None in the cache (e.g. cbpdn.py 252-256).  The right hand side of the x step depends on Y and U
    and is an argument of the step. *)
From mathcomp Require Import all_ssreflect all_algebra.
From Verif Require Import LinSolveModel.
Set Implicit Arguments.
Unset Strict Implicit.
Unset Printing Implicit Defensive.
Import GRing.Theory Num.Theory.
Local Open Scope ring_scope.

(** The classes, grouped by the methods setdict, xstep and rhochange they use.
    KGen: GenericConvBPDN and ConvBPDNProjL1; KConv: ConvBPDN, ConvBPDNJoint, ConvBPDNInhib; KElastic: ConvElasticNet; KGrad:
    ConvBPDNGradReg; KTwo: ConvMinL1InL2Ball and ConvBPDNMaskDcpl; KL1Grd: ConvL1L1Grd; KTV: ConvBPDNScalarTV and
    ConvBPDNVectorTV; KProd: ConvProdDictBPDN and its joint version; KProdL1: ConvProdDictL1L1Grd and its joint version. *)
Inductive kind := KGen | KConv | KElastic | KGrad | KTwo | KL1Grd | KTV | KProd | KProdL1.

Section Cache.
Variables (C : numClosedFieldType) (M : nat).
Notation vec := ('I_M -> C).

(** Attributes of the object; mu and GHGf are absent until they are assigned, [gam] is the square root of the eigenvalue
    (1 for the classes without product dictionary). *)
Record st := mkSt { hi : bool; mu : option C; ghg : option vec; rho : C; df : vec; gam : C; cache : option vec }.

(** solvedbi_sm and solvedbi_sm_c (linalg.py 266-273, 297) called with an array in place of the scalar rho, as in
    cbpdntv.py 259-261 and 290-292: numpy broadcasting makes the sum and both divisions elementwise. *)
Definition dbi_c (ah a d : vec) : vec := fun m => ah m / (inner ah a + d m).
Definition dbi (ah d b : vec) (c : option vec) : vec :=
  let a := fun m => (ah m)^* in
  let c := if c is Some c then c else dbi_c ah a d in
  fun m => (b m - a m * inner c b) / d m.

(** self.Df, or self.gDf = sqrt(Gamma) * self.Df (pdcsc.py 127, 498). *)
Definition ahv (s : st) : vec := fun m => gam s * df s m.
Definition conjv (a : vec) : vec := fun m => (a m)^*.

(** The expression for the diagonal passed to the solver; None if an attribute does not exist.
    xstep: cbpdn.py 275, 957, 1182, 1625, 2692; cbpdntv.py 291; pdcsc.py 146, 525. *)
Definition diag (k : kind) (s : st) : option vec :=
  match k with
  | KGen | KConv | KProd => Some (fun=> rho s)
  | KElastic => if mu s is Some u then Some (fun=> u + rho s) else None
  | KGrad => if (mu s, ghg s) is (Some u, Some g) then Some (fun m => u * g m + rho s) else None
  | KTwo => Some (fun=> 1)
  | KL1Grd | KProdL1 => if (mu s, ghg s) is (Some u, Some g) then Some (fun m => (u / rho s) * g m + 1) else None
  | KTV => if ghg s is Some g then Some (fun m => rho s * g m + rho s) else None
  end.

(** Which of the two routines is called: solvedbd_sm for a genuine diagonal, solvedbi_sm otherwise. *)
Definition uses_dbd (k : kind) : bool := match k with KGrad | KL1Grd | KProdL1 => true | _ => false end.

Definition cache_of (k : kind) (ah d : vec) : vec :=
  if uses_dbd k then solvedbd_sm_c ah (conjv ah) d else dbi_c ah (conjv ah) d.

Definition with_cache (s : st) c := mkSt (hi s) (mu s) (ghg s) (rho s) (df s) (gam s) c.

(** setdict: cbpdn.py 242-256, 930-944, 1154-1169, 1589-1599, 2661-2672; cbpdntv.py 248-263; pdcsc.py 104-133, 478-505.
    None: AttributeError. *)
Definition setdict (k : kind) (D : vec) (g : C) (s : st) : option st :=
  let s := mkSt (hi s) (mu s) (ghg s) (rho s) D g (cache s) in
  if hi s then
    if diag k s is Some d then Some (with_cache s (Some (cache_of k (ahv s) d))) else None
  else Some (with_cache s None).

(** rhochange: cbpdn.py 364-369 (inherited by ConvElasticNet and ConvBPDNGradReg), 2767-2773; cbpdntv.py 267-273;
    pdcsc.py 175-180, 544-550; the two-block classes inherit the empty method of ADMM (admm.py 779-785). *)
Definition rhochange (k : kind) (s : st) : option st :=
  match k with
  | KTwo => Some s
  | KGen | KConv | KElastic | KGrad | KProd =>
      Some (if hi s then with_cache s (Some (dbi_c (ahv s) (conjv (ahv s)) (fun=> rho s))) else s)
  | KL1Grd | KTV | KProdL1 =>
      if hi s then if diag k s is Some d then Some (with_cache s (Some (cache_of k (ahv s) d))) else None
      else Some s
  end.

(** update_rho (admm.py 572-575): multiply rho, and tell the class unless the factor is one. *)
Definition update_rho (k : kind) (rsf : C) (s : st) : option st :=
  let s := mkSt (hi s) (mu s) (ghg s) (rho s * rsf) (df s) (gam s) (cache s) in
  if rsf == 1 then Some s else rhochange k s.

(** xstep: the call of the solver. *)
Definition xstep (k : kind) (b : vec) (s : st) : option vec :=
  if diag k s is Some d then
    Some (if uses_dbd k then solvedbd_sm (ahv s) d b (cache s) else dbi (ahv s) d b (cache s))
  else None.

(** Constructors.  [r0] is the penalty given in the options, if any; [lam] the regularisation parameter.
    ADMM.__init__ (admm.py 247) sets rho to [r0] or 1 unless it exists; the classes derived from ConvBPDN then run
    setdict (cbpdn.py 238) and after that set rho to [r0] or 50 lam + 1 with reset (584-585).  ConvElasticNet and ConvBPDNGradReg
    assign mu and GHGf before (923, 1138-1147), ConvL1L1Grd after (2648-2657) the constructor of the base class.  In
    cbpdntv.py 221 the assignment of rho is without reset and has no effect, GHGf precedes setdict (237, 244). *)
Definition construct (k : kind) (high : bool) (r0 : option C) (lam u : C) (g D : vec) (gm : C) : option st :=
  let rho0 := odflt 1 r0 in
  let early := match k with KElastic => (Some u, None) | KGrad => (Some u, Some g) | KTV => (None, Some g) | _ => (None, None) end in
  let s := mkSt high early.1 early.2 rho0 D gm None in
  if setdict k D gm s is Some s then
    let rho1 := match k with KConv | KElastic | KGrad | KProd => odflt (50%:R * lam + 1) r0 | _ => rho s end in
    let late := match k with KL1Grd | KProdL1 => (Some u, Some g) | _ => (mu s, ghg s) end in
    Some (mkSt (hi s) late.1 late.2 rho1 (df s) (gam s) (cache s))
  else None.

(** What happens to an object after its construction. *)
Inductive event := ESetDict of vec & C | ERho of C | EX of vec.

(** One event; an x step also yields its result. *)
Definition step (k : kind) (s : st) (e : event) : option (st * option vec) :=
  match e with
  | ESetDict D g => if setdict k D g s is Some s' then Some (s', None) else None
  | ERho r => if update_rho k r s is Some s' then Some (s', None) else None
  | EX b => if xstep k b s is Some x then Some (s, Some x) else None
  end.

(** A given sequence of events. *)
Fixpoint exec (k : kind) (h : seq event) (s : st) : option st :=
  if h is e :: h' then if step k s e is Some (s', _) then exec k h' s' else None else Some s.

(** An execution of [n] events: the next event may depend on its number and on all the results so far (the right hand
    sides, the residuals that determine the factor of the penalty and the dictionary updates do). *)
Fixpoint run (k : kind) (strat : nat -> seq vec -> event) (i n : nat) (s : st) (outs : seq vec) : option (seq vec) :=
  if n is n'.+1 then
    if step k s (strat i outs) is Some (s', o) then
      run k strat i.+1 n' s' (if o is Some x then rcons outs x else outs)
    else None
  else Some outs.
End Cache.
