(** Which array objects the solvers create, share and overwrite.

    The numbers are abstracted away completely: an array has some content of an
    arbitrary type, and an assignment may put any content into it.  What is
    kept is object identity: whether a statement binds an attribute to a new
    array ([self.X = ifftn(...)]), to an array that already exists
    ([self.Y = self.X], [np.asarray] of an array that already has the right
    dtype) or writes into the array the attribute is bound to ([self.Y[:] = ...],
    [self.U += ...], [self.Y[self.Y < 0] = 0]).  Views (slices, reshapes, swapped
    axes, [bcrop] of a single scale dictionary) are identified with the array they
    look into: writing through the one changes what the other shows.

    Every branch that depends on options or on numbers (relaxation, NonNegCoef,
    AutoRho, Monotone, backtracking, whether asarray copies) is a
    nondeterministic [Choice], every while loop is a [Loop] of any length. *)
From Coq Require Import List String.
Import ListNotations.
Open Scope string_scope.

Definition attr := string.
Definition loc := nat.

Record st (V : Type) : Type := mkst {
  env : attr -> option loc;      (* attribute -> array object, None if not set *)
  heap : loc -> V;               (* content of each array object *)
  next : loc                     (* first array object that does not exist yet *)
}.
Arguments mkst {V} _ _ _.
Arguments env {V} _ _.
Arguments heap {V} _ _.
Arguments next {V} _.

Inductive cmd : Type :=
| Skip
| New (a : attr)          (* a = expression with a new array as its value *)
| Bind (a b : attr)       (* a = b *)
| Write (a : attr)        (* a[...] = expression, a += expression *)
| Seq (c d : cmd)
| Choice (c d : cmd)      (* if ... else ... *)
| Loop (c : cmd).         (* while ... *)

Notation "c ;; d" := (Seq c d) (at level 60, right associativity).

Definition set_env (e : attr -> option loc) (a : attr) (x : option loc) : attr -> option loc :=
  fun b => if String.eqb a b then x else e b.

Definition set_heap {V} (h : loc -> V) (l : loc) (v : V) : loc -> V :=
  fun k => if Nat.eqb l k then v else h k.

(** Execution.  A write to an attribute that is not set has no execution (an
    exception is raised in the code). *)
Inductive run {V : Type} : cmd -> st V -> st V -> Prop :=
| run_skip : forall s, run Skip s s
| run_new : forall a s v,
    run (New a) s
        (mkst (set_env (env s) a (Some (next s))) (set_heap (heap s) (next s) v)
              (S (next s)))
| run_bind : forall a b s,
    run (Bind a b) s (mkst (set_env (env s) a (env s b)) (heap s) (next s))
| run_write : forall a s l v,
    env s a = Some l ->
    run (Write a) s (mkst (env s) (set_heap (heap s) l v) (next s))
| run_seq : forall c d s t u, run c s t -> run d t u -> run (c ;; d) s u
| run_left : forall c d s t, run c s t -> run (Choice c d) s t
| run_right : forall c d s t, run d s t -> run (Choice c d) s t
| run_stop : forall c s, run (Loop c) s s
| run_again : forall c s t u, run c s t -> run (Loop c) t u -> run (Loop c) s u.

(** A solver class: what the constructor does, what one iteration of solve() does
    (in two parts: up to and including the copies of the previous iterate, and
    the rest), what the caller can call between iterations, the names of the
    arrays passed in by the caller, and the attributes that are handed out. *)
Record prog : Type := mkprog {
  args : list attr;          (* arrays owned by the caller *)
  init : cmd;                (* constructor *)
  pre : cmd;                 (* start of an iteration: copies of the iterate *)
  post : cmd;                (* the rest of the iteration *)
  prevs : list attr;         (* the copies made by [pre] *)
  results : list attr        (* what solve/getmin/getcoef/getdict return, and
                                what other objects keep a reference to *)
}.

Definition body (p : prog) : cmd := pre p ;; post p.

Definition opt (c : cmd) : cmd := Choice c Skip.
(* numpy.asarray(x, dtype): x itself or a new array *)
Definition asarray (a x : attr) : cmd := Choice (Bind a x) (New a).

(* ---------------------------------------------------------------------- *)
(** ** ADMM classes *)

(* admm/admm.py 262-272: Y0 and U0 are copied by astype(..., copy=True); yinit
   (279-283) and the default uinit give new arrays; Yprev = Y.copy() *)
Definition admm_init : cmd := New "Y" ;; New "Yprev" ;; New "U".
(* The same constructor with the uinit of admm/ccmod.py 298-307 and
   admm/cmod.py 198-207, which returns self.Y itself when option Y0 is set and U0
   is not *)
Definition admm_init_uY : cmd :=
  New "Y" ;; New "Yprev" ;; Choice (New "U") (Bind "U" "Y").
(* admm/admm.py 334: self.Yprev = self.Y.copy() *)
Definition admm_pre : cmd := New "Yprev".
(* admm/admm.py 877-885: AXnr = X; AX = X when RelaxParam is 1, else a new array *)
Definition relax_equal : cmd :=
  Bind "AXnr" "X" ;; Choice (Bind "AX" "X") (New "AX").
(* admm/admm.py 441-462, 1165-1179 with a cnst_A that computes a new array *)
Definition relax_new : cmd :=
  New "AXnr" ;; Choice (Bind "AX" "AXnr") (New "AX").
(* admm/admm.py 433-437: self.U += self.rsdl_r(self.AX, self.Y) *)
Definition ustep : cmd := Write "U".
(* admm/admm.py 556-575: self.U /= rsf in update_rho *)
Definition update_rho : cmd := opt (Write "U").

(* admm/bpdn.py 165-181 (asarray of S, D and, in BPDN, L1Weight), 192-199 (xstep),
   447-454 (ystep of BPDN: prox_l1 gives a new array), 210-220 (NonNegCoef
   written into the new Y), 185-188 (getcoef returns Y) and admm.py 870-873
   (getmin returns X or Y).  The caller may call setdict between iterations. *)
Definition bpdn : prog := mkprog
  ["arg.S"; "arg.D"; "arg.W"; "arg.D2"]
  (asarray "wl1" "arg.W" ;; admm_init ;; asarray "S" "arg.S" ;; asarray "D" "arg.D" ;;
   New "DTS" ;; New "lu")
  admm_pre
  (New "X" ;; relax_equal ;; New "Y" ;; opt (Write "Y") ;; ustep ;; update_rho ;;
   opt (New "lu") ;;
   opt (asarray "D" "arg.D2" ;; New "DTS" ;; New "lu"))
  ["Yprev"] ["X"; "Y"].

(* admm/cbpdn.py 227-239 (asarray of D and S, aligned buffers YU and Xf), 242-256
   (setdict), 266-282 (xstep: writes into YU and Xf, X = ifftn(Xf)), 297-311 and
   614-620 (ystep of ConvBPDN: new Y, then the NonNegCoef and NoBndryCross
   writes into it); covers ConvBPDN, ConvBPDNJoint, ConvElasticNet, ConvBPDNGradReg,
   ConvBPDNProjL1, ConvBPDNInhib and MultiDictConvBPDN, which change only formulas
   for new arrays. *)
Definition convbpdn : prog := mkprog
  ["arg.S"; "arg.D"; "arg.W"; "arg.D2"]
  (asarray "wl1" "arg.W" ;; admm_init ;; asarray "D" "arg.D" ;; asarray "S" "arg.S" ;;
   New "Sf" ;; New "YU" ;; New "Xf" ;; New "Df" ;; New "DSf")
  admm_pre
  (Write "YU" ;; Write "Xf" ;; New "X" ;; relax_equal ;;
   New "Y" ;; Loop (Write "Y") ;; ustep ;; update_rho ;;
   opt (asarray "D" "arg.D2" ;; New "Df" ;; New "DSf"))
  ["Yprev"] ["X"; "Y"].

(* admm/cbpdn.py 2339-2391 (AddMaskSim): the ystep of the inner solver followed by
   writes into its Y; Yi is a new array (2385) *)
Definition addmasksim : prog := mkprog
  ["arg.S"; "arg.D"; "arg.W"; "arg.mask"]
  (asarray "W" "arg.mask" ;; asarray "wl1" "arg.W" ;; admm_init ;; asarray "D" "arg.D" ;;
   asarray "S" "arg.S" ;; New "Sf" ;; New "YU" ;; New "Xf" ;; New "Df" ;; New "DSf")
  admm_pre
  (Write "YU" ;; Write "Xf" ;; New "X" ;; relax_equal ;;
   New "Yi" ;; New "Y" ;; Loop (Write "Y") ;; Write "Yi" ;; Write "Y" ;;
   ustep ;; update_rho)
  ["Yprev"] ["X"; "Y"].

(* admm/cbpdn.py 1577-1585, 1610-1631 (xstep: YU and the view block_sep0(YU) are
   written), 1664-1677 (relax_AX), 2239-2251 (ystep of ConvBPDNMaskDcpl; block_cat
   is a concatenation, hence new) and 1647-1660 (writes into the view
   block_sep1(Y) of the new Y); admm.py 1113-1124: getmin returns X or a view of Y.
   ConvMinL1InL2Ball has the same form. *)
Definition convtwoblock : prog := mkprog
  ["arg.S"; "arg.D"; "arg.W"; "arg.mask"; "arg.D2"]
  (asarray "wl1" "arg.W" ;; asarray "W" "arg.mask" ;; admm_init ;;
   asarray "D" "arg.D" ;; asarray "S" "arg.S" ;; New "YU" ;; New "Xf" ;; New "Df")
  admm_pre
  (Write "YU" ;; Write "YU" ;; Write "Xf" ;; New "X" ;; relax_new ;;
   New "AXU" ;; New "Y" ;; Loop (Write "Y") ;; ustep ;; update_rho ;;
   opt (asarray "D" "arg.D2" ;; New "Df"))
  ["Yprev"] ["X"; "Y"].

(* admm/rpca.py 143-145, 162-186 with cnst_A (230-235) returning its argument, so
   that AXnr is X; solve returns X and Y *)
Definition rpca : prog := mkprog
  ["arg.S"]
  (admm_init ;; asarray "S" "arg.S")
  admm_pre
  (New "X" ;; relax_equal ;; New "Y" ;; ustep ;; update_rho)
  ["Yprev"] ["X"; "Y"].

(* admm/tvl2.py 193-219 (S = asarray, X = S), 237-254 (any number of Gauss-Seidel
   steps, each a new X), 258-265 (ystep); getmin returns X (admm.py 407-410).
   tvl1.py 193-260 is the same with a temporary YU written at 249. *)
Definition tvdenoise : prog := mkprog
  ["arg.S"; "arg.W"]
  (asarray "Wdf" "arg.W" ;; asarray "S" "arg.S" ;; admm_init ;; Bind "X" "S")
  admm_pre
  (New "T" ;; opt (Write "T") ;; Loop (New "X") ;; relax_new ;; New "Y" ;; ustep ;;
   update_rho)
  ["Yprev"] ["X"].

(* admm/cmod.py 182-194, 211-245: X and Y new in every iteration, getdict returns Y *)
Definition cmod : prog := mkprog
  ["arg.S"; "arg.Z"; "arg.Z2"]
  (admm_init_uY ;; asarray "S" "arg.S" ;; asarray "Z" "arg.Z" ;; New "SZT" ;; New "lu")
  admm_pre
  (New "X" ;; relax_equal ;; New "Y" ;; ustep ;; update_rho ;; opt (New "lu") ;;
   opt (asarray "Z" "arg.Z2" ;; New "SZT" ;; New "lu"))
  ["Yprev"] ["X"; "Y"].

(* admm/ccmod.py 275-294, 311-327 (setcoef), 496-505 (xstep of
   ConvCnstrMOD_IterSM; 583-600 of ConvCnstrMOD_CG, which also fills Xf with zeros
   in the constructor), 361-366 (ystep: Y = Pcn(AX + U), new); getdict returns Y or
   its cropped view *)
Definition ccmod : prog := mkprog
  ["arg.S"; "arg.Z"; "arg.Z2"]
  (admm_init_uY ;; asarray "S" "arg.S" ;; New "Sf" ;; New "YU" ;; New "Xf" ;;
   asarray "Z" "arg.Z" ;; New "Zf" ;; New "ZSf" ;; opt (Write "Xf"))
  admm_pre
  (Write "YU" ;; Write "Xf" ;; New "X" ;; relax_equal ;; New "Y" ;; ustep ;; update_rho ;;
   opt (asarray "Z" "arg.Z2" ;; New "Zf" ;; New "ZSf"))
  ["Yprev"] ["X"; "Y"].

(* admm/ccmod.py 712-735 and 787-845 (ConvCnstrMOD_Consensus) over admm.py
   1585-1591: self.Y[:] = prox_g(...); X is either written slice by slice (837) or
   bound to a new array (807); getmin and getdict return Y *)
Definition ccmod_cns : prog := mkprog
  ["arg.S"; "arg.Z"; "arg.Z2"]
  (admm_init ;; asarray "S" "arg.S" ;; New "Sf" ;; asarray "Z" "arg.Z" ;; New "Zf" ;;
   New "ZSf" ;; New "X" ;; New "YU" ;; New "Xf")
  admm_pre
  (Choice (Loop (Write "YU" ;; Write "Xf" ;; Write "X"))
          (Write "YU" ;; Loop (Write "Xf") ;; New "X") ;;
   relax_equal ;; Write "Y" ;; ustep ;; update_rho ;;
   opt (asarray "Z" "arg.Z2" ;; New "Zf" ;; New "ZSf"))
  ["Yprev"] ["Y"].

(* admm/cbpdntv.py 277-298, 314-321 (ConvBPDNScalarTV; ConvBPDNVectorTV 707-715) and
   1024-1079, 1098-1106 (ConvBPDNRecTV): ystep writes both parts of the existing Y;
   getmin (368-371, 1153-1156) returns X, or a view of Y without ReturnX *)
Definition convbpdntv : prog := mkprog
  ["arg.S"; "arg.D"; "arg.W"; "arg.D2"]
  (asarray "Wl1" "arg.W" ;; admm_init ;; asarray "D" "arg.D" ;; asarray "S" "arg.S" ;;
   New "Sf" ;; New "YU" ;; New "Xf" ;; New "Df" ;; New "DSf")
  admm_pre
  (Write "YU" ;; Write "Xf" ;; New "X" ;; relax_new ;; New "AXU" ;;
   Write "Y" ;; Write "Y" ;; ustep ;; update_rho ;;
   opt (asarray "D" "arg.D2" ;; New "Df" ;; New "DSf"))
  ["Yprev"] ["Y"].
(* the same class with option ReturnX (the default of the class is False) *)
Definition convbpdntv_rx : prog :=
  mkprog (args convbpdntv) (init convbpdntv) (pre convbpdntv) (post convbpdntv)
         (prevs convbpdntv) ["X"].

(* ---------------------------------------------------------------------- *)
(** ** PGM classes *)

(* pgm/pgm.py 485-491 *)
Definition pgm_pre : cmd := New "Xprv" ;; New "Yprv".
(* pgm/pgm.py 393-422 (xstep) with stepsize.py 109-120: StepSizePolicyBB keeps
   references to X and to the gradient *)
Definition pgm_xstep : cmd :=
  opt (Bind "bb.xprv" "X" ;; Bind "bb.gradprv" "grad") ;;
  New "V" ;; New "X" ;; opt (Write "X") ;;
  opt (New "ZZ" ;; opt (New "X")).
(* pgm/pgm.py 426-441; backtrack.py 80-116 (BacktrackStandard: the gradient once,
   then any number of x steps), 162-208 (BacktrackRobust: Zrb is created as a
   copy of X, Y is bound to a new array before every x step, Zrb is updated in
   place) *)
Definition pgm_step (xstep : cmd) (Y : attr) : cmd :=
  Choice (New "grad" ;; xstep ;; New Y)
  (Choice (New "grad" ;; Loop xstep ;; New Y)
          (opt (New "bt.Zrb") ;; Loop (New "y" ;; Bind Y "y" ;; New "grad" ;; xstep) ;;
           Write "bt.Zrb")).

(* pgm/bpdn.py 143-158 and 186-193 over pgm/pgm.py 258-261 (X0 copied); getcoef
   returns X *)
Definition pgm_bpdn : prog := mkprog
  ["arg.S"; "arg.D"; "arg.W"; "arg.D2"]
  (asarray "wl1" "arg.W" ;; New "X" ;; asarray "S" "arg.S" ;; New "Y" ;; New "Yprv" ;;
   asarray "D" "arg.D" ;; New "bt.Zrb")
  pgm_pre
  (pgm_step pgm_xstep "Y" ;; opt (asarray "D" "arg.D2"))
  ["Xprv"; "Yprv"] ["X"; "Y"; "bb.xprv"; "bb.gradprv"].

(* pgm/cmod.py 140-151, 155-193; the weighted version 380-440 has the same form *)
Definition pgm_cmod : prog := mkprog
  ["arg.S"; "arg.Z"; "arg.Z2"]
  (New "X" ;; asarray "S" "arg.S" ;; New "Y" ;; New "Yprv" ;; asarray "Z" "arg.Z" ;;
   New "bt.Zrb")
  pgm_pre
  (pgm_step pgm_xstep "Y" ;; opt (asarray "Z" "arg.Z2"))
  ["Xprv"; "Yprv"] ["X"; "Y"; "bb.xprv"; "bb.gradprv"].

(* pgm/pgm.py 835-841 *)
Definition pgmdft_pre : cmd := New "Xfprv" ;; New "Yfprv".
(* pgm/pgm.py 779-811: Vf and X are written in place, Xf is a new array *)
Definition pgmdft_xstep : cmd :=
  opt (Bind "bb.xprv" "Xf" ;; Bind "bb.gradprv" "grad") ;;
  Write "Vf" ;; New "V" ;; New "T" ;; opt (Write "T") ;; Write "X" ;; New "Xf" ;;
  opt (New "ZZf" ;; opt (New "Xf")).

(* pgm/cbpdn.py 219-259; getcoef returns X *)
Definition pgm_convbpdn : prog := mkprog
  ["arg.S"; "arg.D"; "arg.W"; "arg.D2"]
  (asarray "wl1" "arg.W" ;; New "X" ;; asarray "D" "arg.D" ;; asarray "S" "arg.S" ;;
   New "Sf" ;; New "Y" ;; New "X" ;; Write "X" ;; New "Vf" ;; New "Xf" ;; New "Yf" ;;
   New "Yfprv" ;; New "Df" ;; New "bt.Zrb")
  pgmdft_pre
  (pgm_step pgmdft_xstep "Yf" ;; opt (asarray "D" "arg.D2" ;; New "Df"))
  ["Xfprv"; "Yfprv"] ["X"].
(* the same class, for the arrays it keeps internally across iterations *)
Definition pgm_convbpdn_f : prog :=
  mkprog (args pgm_convbpdn) (init pgm_convbpdn) (pre pgm_convbpdn) (post pgm_convbpdn)
         (prevs pgm_convbpdn) ["Xf"; "Yf"; "bb.xprv"; "bb.gradprv"].

(* pgm/ccmod.py 231-260, 283-291; Y is left bound to the X of PGM.__init__ (246)
   and Yf to Xf (256); getdict returns X or its cropped view *)
Definition pgm_ccmod : prog := mkprog
  ["arg.S"; "arg.Z"; "arg.Z2"]
  (New "X" ;; asarray "S" "arg.S" ;; New "Sf" ;; Bind "Y" "X" ;; New "X" ;; Write "X" ;;
   New "Vf" ;; New "Xf" ;; Bind "Yf" "Xf" ;; New "Yfprv" ;; asarray "Z" "arg.Z" ;;
   New "Zf" ;; New "bt.Zrb")
  pgmdft_pre
  (pgm_step pgmdft_xstep "Yf" ;; opt (asarray "Z" "arg.Z2" ;; New "Zf"))
  ["Xfprv"; "Yfprv"] ["X"].
Definition pgm_ccmod_f : prog :=
  mkprog (args pgm_ccmod) (init pgm_ccmod) (pre pgm_ccmod) (post pgm_ccmod)
         (prevs pgm_ccmod) ["Xf"; "Yf"; "bb.xprv"; "bb.gradprv"].

(* ---------------------------------------------------------------------- *)
(** ** Dictionary learning *)

(* dictlrn/onlinecdl.py 193-196 (D = Pcn(...) new, Dprv = D.copy()); one call of
   solve(S), 211-240: init_vars (258-263: new arrays or Df written in place), xstep
   (281-287: a ConvBPDN object on D.squeeze(), a view of D, whose coefficients are
   copied into Z, 305), dstep (328-333: Gf, Dprv and D written in place); solve and
   getdict return D *)
Definition onlinecdl : prog := mkprog
  ["arg.S"; "arg.D0"]
  (New "D0" ;; New "D" ;; New "Dprv" ;; New "Df" ;; New "Gf" ;; New "Z")
  Skip
  (Choice (New "Df" ;; New "Gf" ;; New "Z") (Write "Df") ;;
   asarray "x.D" "D" ;; asarray "x.S" "arg.S" ;; New "x.Y" ;; New "x.U" ;;
   Loop (New "x.Y" ;; Write "x.U") ;; New "Sf" ;;
   opt (New "Z") ;; Write "Z" ;; New "Zf" ;;
   Write "Gf" ;; New "G" ;; Write "Dprv" ;; Write "D")
  [] ["D"].

(* dictlrn/dictlrn.py 326-334, 379-389 with the sparse coding object [x.] and the
   dictionary update object [d.]: any number of inner iterations of each, the
   coefficients passed on by setcoef and the dictionary by setdict, both of which keep
   a reference when the dtype agrees (cbpdn.py 242-256, ccmod.py 311-327).  The
   x object is admm.cbpdn.ConvBPDN. *)
Definition dl_x_init : cmd :=
  asarray "x.D" "arg.D0" ;; asarray "x.S" "arg.S" ;; New "x.Y" ;; New "x.U" ;;
  New "x.YU" ;; New "x.Xf" ;; New "x.X".
Definition dl_x_iter : cmd :=
  New "x.Yprev" ;; Write "x.YU" ;; Write "x.Xf" ;; New "x.X" ;;
  Choice (Bind "x.AX" "x.X") (New "x.AX") ;; New "x.Y" ;; Loop (Write "x.Y") ;;
  Write "x.U".
(* ConvBPDNDictLearn (dictlrn/cbpdndl.py) with dmethod 'ism' or 'cg' *)
Definition dictlearn_ism : prog := mkprog
  ["arg.S"; "arg.D0"]
  (dl_x_init ;; asarray "d.S" "arg.S" ;; New "d.Y" ;; New "d.U" ;; New "d.YU" ;;
   New "d.Xf")
  Skip
  (Loop dl_x_iter ;; Choice (asarray "d.Z" "x.Y") (asarray "d.Z" "x.X") ;; New "d.Zf" ;;
   Loop (New "d.Yprev" ;; Write "d.YU" ;; Write "d.Xf" ;; New "d.X" ;;
         Choice (Bind "d.AX" "d.X") (New "d.AX") ;; New "d.Y" ;; Write "d.U") ;;
   asarray "x.D" "d.Y" ;; New "x.Df")
  [] ["d.Y"; "x.Y"; "x.X"].
(* with dmethod 'cns' *)
Definition dictlearn_cns : prog := mkprog
  ["arg.S"; "arg.D0"]
  (dl_x_init ;; asarray "d.S" "arg.S" ;; New "d.Y" ;; New "d.U" ;; New "d.YU" ;;
   New "d.Xf" ;; New "d.X")
  Skip
  (Loop dl_x_iter ;; Choice (asarray "d.Z" "x.Y") (asarray "d.Z" "x.X") ;; New "d.Zf" ;;
   Loop (New "d.Yprev" ;; Write "d.YU" ;; Write "d.Xf" ;; New "d.X" ;;
         Choice (Bind "d.AX" "d.X") (New "d.AX") ;; Write "d.Y" ;; Write "d.U") ;;
   asarray "x.D" "d.Y" ;; New "x.Df")
  [] ["d.Y"].
(* with dmethod 'pgm' (pgm/ccmod.py): X is returned and written in place *)
Definition dictlearn_pgm : prog := mkprog
  ["arg.S"; "arg.D0"]
  (dl_x_init ;; asarray "d.S" "arg.S" ;; New "d.X" ;; New "d.Vf" ;; New "d.Xf" ;;
   Bind "d.Yf" "d.Xf")
  Skip
  (Loop dl_x_iter ;; Choice (asarray "d.Z" "x.Y") (asarray "d.Z" "x.X") ;; New "d.Zf" ;;
   Loop (New "d.Xfprv" ;; New "d.Yfprv" ;; New "d.grad" ;; Write "d.Vf" ;; Write "d.X" ;;
         New "d.Xf" ;; New "d.Yf") ;;
   asarray "x.D" "d.X" ;; New "x.Df")
  [] ["d.X"].
(* the coefficients of both *)
Definition dictlearn_cns_x : prog :=
  mkprog (args dictlearn_cns) (init dictlearn_cns) (pre dictlearn_cns) (post dictlearn_cns)
         [] ["x.Y"; "x.X"].
Definition dictlearn_pgm_x : prog :=
  mkprog (args dictlearn_pgm) (init dictlearn_pgm) (pre dictlearn_pgm) (post dictlearn_pgm)
         [] ["x.Y"; "x.X"].

Definition all_progs : list prog :=
  [bpdn; convbpdn; addmasksim; convtwoblock; rpca; tvdenoise; cmod; ccmod; ccmod_cns;
   convbpdntv; convbpdntv_rx; pgm_bpdn; pgm_cmod; pgm_convbpdn; pgm_convbpdn_f; pgm_ccmod;
   pgm_ccmod_f; onlinecdl; dictlearn_ism; dictlearn_cns; dictlearn_pgm; dictlearn_cns_x;
   dictlearn_pgm_x].
