(** Model of the initialiser chains of the solver classes as sequences of attribute definitions and uses
    (sporco/common.py 146-225 and the __init__ methods cited below). *)
Require Import String List Bool.
Import ListNotations.
Local Open Scope string_scope.
Local Open Scope list_scope.

Section Init.
Context {V : Type}.
(** Attribute values: a number (or other object) or Python None. *)
Definition store := string -> option (option V).
Definition empty_store : store := fun _ => None.
Definition put (n : string) (v : option V) (s : store) : store := fun m => if String.eqb m n then Some v else s m.

(** Statements of an initialiser.  Array computations are reduced to the attributes that they read and write; casting
    to the data type of the solver (common.py 215-219) does not change real values and is left out. *)
Inductive stmt :=
| SSetAttr (n : string) (val dval : option V) (reset : bool)   (* self.set_attr(n, val, dval=dval, reset=reset) *)
| SAssign (n : string) (v : option V)                           (* self.n = ... *)
| SUse (n : string).                                            (* ... self.n ... *)

(** IterativeSolver.set_attr (common.py 177-225). *)
Definition set_attr (n : string) (val dval : option V) (reset : bool) (s : store) : store :=
  let v := match val with None => dval | Some _ => val end in            (* lines 210-211 *)
  if reset then put n v s                                                (* lines 223-225 *)
  else match s n with
       | None => put n v s
       | Some None => put n v s
       | Some (Some _) => s
       end.

(** A call of set_attr on one attribute: its class default and reset flag.  The user's option value [u] is the same in
    all calls, because they read the same option. *)
Definition calls (n : string) (u : option V) (l : list (option V * bool)) (s : store) : store :=
  fold_left (fun s c => set_attr n u (fst c) (snd c) s) l s.

Inductive outcome := Built (s : store) | AttributeError (n : string).

Fixpoint run (p : list stmt) (s : store) : outcome :=
  match p with
  | [] => Built s
  | SSetAttr n v d r :: p' => run p' (set_attr n v d r s)
  | SAssign n v :: p' => run p' (put n v s)
  | SUse n :: p' => match s n with None => AttributeError n | Some _ => run p' s end
  end.

(** Constructor arguments: the values of the options that influence the chain, and the class-specific defaults.
    [one]: the constant 1.0; [tok]: stands for any array or other object. *)
Record args := mkArgs {
  one : V; tok : V;
  rho_opt : option V;        (* options rho / L *)
  xi_opt : option V;         (* option AutoRho.RsdlTarget *)
  cls_rho : V; cls_xi : V;   (* the default that the class computes for rho (or L) and for rho_xi *)
  y0 : bool; u0 : bool;      (* starting values Y0 / U0 given *)
  highmem : bool;            (* HighMemSolve and single-channel dictionary *)
  own_opt : bool             (* an options object of the class is passed (opt is not None) *)
}.

Section Prog.
Variable a : args.
Let T (n : string) := SAssign n (Some (tok a)).
Definition set_dtype := SSetAttr "dtype" (Some (tok a)) None false.     (* common.py 146-173 *)

(** ADMM.__init__ (admm/admm.py 228-275); [uinit] is the overriding method of the class. *)
Definition admm_init (uinit : list stmt) : list stmt :=
  [T "opt"; T "Nx"; T "Nc"; set_dtype; SUse "dtype";
   SSetAttr "rho" (rho_opt a) (Some (one a)) false;
   SSetAttr "rho_tau" (Some (tok a)) (Some (tok a)) false;
   SSetAttr "rho_mu" (Some (tok a)) (Some (tok a)) false;
   SSetAttr "rho_xi" (xi_opt a) (Some (one a)) false;
   SSetAttr "rlx" (Some (tok a)) (Some (one a)) false;
   T "X"; SUse "dtype"; T "Y"; SUse "Y"; T "Yprev"]
  ++ (if u0 a then [SUse "dtype"] else uinit)
  ++ [T "U"; T "itstat"; T "k"].

Definition zeros := [SUse "dtype"].
(** The common form of uinit: zeros unless Y0 is given (e.g. admm/bpdn.py 437-443). *)
Definition uinit_y0 (reads : list string) : list stmt :=
  SUse "opt" :: (if y0 a then map SUse reads else zeros).

(** GenericBPDN.__init__ and setdict (admm/bpdn.py 163-181); [sd] is what the overriding setdict reads besides. *)
Definition generic_bpdn (uinit : list stmt) (sd : list string) : list stmt :=
  admm_init uinit ++ [T "S"; T "D"; SUse "D"; SUse "S"; T "DTS"] ++ map SUse ("rho" :: sd) ++ [T "lu"; T "piv"].

(** BPDN.__init__ (admm/bpdn.py 403-430), uinit (434-443). *)
Definition bpdn (sd : list string) : list stmt :=
  [set_dtype; T "lmbda"; T "wl1"; SUse "lmbda";
   SSetAttr "rho" (rho_opt a) (Some (cls_rho a)) false;
   SSetAttr "rho_xi" (xi_opt a) (Some (cls_xi a)) false]
  ++ generic_bpdn (uinit_y0 ["lmbda"; "rho"; "Y"]) sd.

Definition bpdn_joint := bpdn [] ++ [SUse "dtype"; T "mu"].                       (* admm/bpdn.py 561-564 *)
Definition elastic_net := [set_dtype; SUse "dtype"; T "mu"] ++ bpdn ["mu"].        (* admm/bpdn.py 687-706 *)
Definition bpdn_projl1 := generic_bpdn (uinit_y0 ["dtype"]) [] ++ [T "gamma"].     (* admm/bpdn.py 873-891 *)

(** ADMMTwoBlockCnstrnt.__init__ (admm/admm.py 1104-1109). *)
Definition twoblock_init (uinit : list stmt) : list stmt := [T "blkaxis"; T "blkidx"] ++ admm_init uinit.

(** MinL1InL2Ball.__init__ (admm/bpdn.py 1060-1072), uinit (1076-1087). *)
Definition minl1inl2ball : list stmt :=
  twoblock_init (uinit_y0 ["blkaxis"; "blkidx"; "Y"; "rho"; "S"])
  ++ [T "epsilon"; T "wl1"; T "S"; T "D"; SUse "D"; T "lu"; T "piv"].

(** CnstrMOD.__init__ (admm/cmod.py 173-194), uinit (198-207). *)
Definition cnstrmod : list stmt :=
  admm_init (uinit_y0 ["Y"]) ++ [SSetAttr "rho" (rho_opt a) (Some (cls_rho a)) false; T "S"; T "Pcn"].

(** GenericConvBPDN.__init__ (admm/cbpdn.py 207-238); [setdict] is the overriding method of the class. *)
Definition generic_convbpdn (uinit setdict : list stmt) : list stmt :=
  [T "real_dtype"; T "fftn"; T "cri"; SUse "cri"] ++ admm_init uinit
  ++ [T "D"; T "S"; SUse "S"; T "Sf"; SUse "Y"; T "YU"; T "Xf"] ++ setdict.

(** GenericConvBPDN.setdict (admm/cbpdn.py 242-256), with what the cached coefficient needs. *)
Definition conv_setdict (reads : list string) : list stmt :=
  [SUse "D"; T "Df"; SUse "Sf"; T "DSf"; SUse "opt"] ++ (if highmem a then map SUse reads else []) ++ [T "c"].

(** ConvBPDN.__init__ (admm/cbpdn.py 563-597), uinit (601-610). *)
Definition convbpdn (setdict : list stmt) : list stmt :=
  [set_dtype] ++ generic_convbpdn (uinit_y0 ["lmbda"; "rho"; "Y"]) setdict
  ++ [T "lmbda"; SUse "lmbda";
      SSetAttr "rho" (rho_opt a) (Some (cls_rho a)) true;
      SSetAttr "rho_xi" (xi_opt a) (Some (cls_xi a)) true; T "wl1"].

(** The options object of ConvBPDNJoint: if none is given, line 777 creates one of the parent class, which has no
    L21Weight entry; the entry is represented as the attribute "opt[L21Weight]". *)
Definition convbpdn_joint : list stmt :=                                           (* admm/cbpdn.py 776-781 *)
  (if own_opt a then [T "opt[L21Weight]"] else [])
  ++ convbpdn (conv_setdict ["Df"; "rho"]) ++ [T "mu"; SUse "opt[L21Weight]"; T "wl21"].
Definition conv_elastic_net : list stmt :=                                         (* admm/cbpdn.py 917-944 *)
  [set_dtype; T "mu"] ++ convbpdn (conv_setdict ["Df"; "mu"; "rho"]).
Definition convbpdn_gradreg : list stmt :=                                         (* admm/cbpdn.py 1130-1169 *)
  [T "cri"; set_dtype; T "mu"; T "Wgrd"; T "Gf"; SUse "Wgrd"; T "GHGf"]
  ++ convbpdn (conv_setdict ["Df"; "mu"; "GHGf"; "rho"]).
Definition convbpdn_projl1 : list stmt :=                                          (* admm/cbpdn.py 1350-1369 *)
  generic_convbpdn (uinit_y0 ["dtype"]) (conv_setdict ["Df"; "rho"]) ++ [T "gamma"].

(** ConvTwoBlockCnstrnt.__init__ (admm/cbpdn.py 1552-1585). *)
Definition conv_twoblock (uinit setdict : list stmt) : list stmt :=
  [T "real_dtype"; T "fftn"; T "cri"; T "y0swapaxes"] ++ twoblock_init uinit
  ++ [T "D"; T "S"; SUse "Y"; T "YU"; T "Xf"] ++ setdict.
Definition twoblock_setdict (reads : list string) : list stmt :=                   (* admm/cbpdn.py 1589-1599 *)
  [SUse "D"; T "Df"; SUse "opt"] ++ (if highmem a then map SUse reads else []) ++ [T "c"].

(** ConvMinL1InL2Ball (admm/cbpdn.py 1987-2015): uinit calls sl.atleast_nd, which the module sporco.linalg (imported
    as sl) does not define or import (linalg.py 13-25); it is represented as the attribute "sl.atleast_nd". *)
Definition conv_minl1inl2ball : list stmt :=
  [T "S"] ++ conv_twoblock (uinit_y0 ["blkaxis"; "Y"; "rho"; "sl.atleast_nd"; "S"]) (twoblock_setdict ["Df"])
  ++ [T "wl1"; T "epsilon"].
(** ConvBPDNMaskDcpl (admm/cbpdn.py 2209-2235). *)
Definition convbpdn_maskdcpl (setdict : list stmt) : list stmt :=
  conv_twoblock (uinit_y0 ["W"; "blkaxis"; "Y"; "rho"; "lmbda"]) setdict ++ [T "lmbda"; T "W"; T "wl1"].
(** ConvL1L1Grd (admm/cbpdn.py 2642-2672): its setdict runs inside the parent initialiser. *)
Definition convl1l1grd : list stmt :=
  convbpdn_maskdcpl (twoblock_setdict ["Df"; "mu"; "rho"; "GHGf"]) ++ [T "mu"; T "Wgrd"; T "Gf"; T "GHGf"].

(** ConvCnstrMODBase (admm/ccmod.py 245-307) and ConvCnstrMOD_Consensus (679-748). *)
Definition convcnstrmod : list stmt :=
  [T "cri"] ++ admm_init (uinit_y0 ["Y"]) ++ [SSetAttr "rho" (rho_opt a) (Some (cls_rho a)) false; T "S"; T "Sf"; T "Pcn"].
Definition convcnstrmod_consensus : list stmt :=
  [T "cri"; T "Nb"; T "xshape"; T "yshape"] ++ admm_init (uinit_y0 ["Y"; "Nb"])
  ++ [SSetAttr "rho" (rho_opt a) (Some (cls_rho a)) false; T "S"; T "Sf"; T "Pcn"].
(** ConvCnstrMODMaskDcplBase (admm/ccmodmd.py 237-322): W is set before the parent initialiser runs. *)
Definition convcnstrmod_maskdcpl : list stmt :=
  [T "cri"; T "W"] ++ twoblock_init (uinit_y0 ["W"; "blkaxis"; "Y"; "rho"]) ++ [T "S"; T "Pcn"; T "YU"; T "Xf"].

(** TVL1Denoise (admm/tvl1.py 183-236), TVL1Deconv (560-625), TVL2Denoise (admm/tvl2.py 183-233) and TVL2Deconv
    (530-590) do the same as far as attributes are concerned. *)
Definition tv : list stmt :=
  [set_dtype; T "S"; T "axes"; T "lmbda"; SSetAttr "rho" (rho_opt a) (Some (cls_rho a)) false]
  ++ admm_init (uinit_y0 ["Y"; "S"; "lmbda"; "rho"]) ++ [T "Wdf"; T "lcw"; T "Wtv"; SUse "S"].
(** SplineL1 (admm/spline.py 144-185): Wdf is set after the parent initialiser. *)
Definition spline : list stmt :=
  [set_dtype; T "axes"; T "lmbda"; SSetAttr "rho" (rho_opt a) (Some (cls_rho a)) false]
  ++ admm_init (uinit_y0 ["Wdf"; "rho"; "Y"]) ++ [T "S"; T "Wdf"; T "Alpha"; SUse "rho"; T "Gamma"].
(** RobustPCA (admm/rpca.py 127-158). *)
Definition rpca : list stmt :=
  [set_dtype; T "lmbda"; SSetAttr "rho" (rho_opt a) (Some (cls_rho a)) false]
  ++ admm_init (uinit_y0 ["lmbda"; "rho"; "Y"]) ++ [T "S"].
(** ConvBPDNScalarTV (admm/cbpdntv.py 195-240) and ConvBPDNRecTV (904-950); no uinit of their own. *)
Definition convbpdn_tv : list stmt :=
  [T "cri"] ++ admm_init zeros
  ++ [T "lmbda"; T "Wl1"; T "mu"; T "Wtv"; SSetAttr "rho" (rho_opt a) (Some (cls_rho a)) false;
      SSetAttr "rho_xi" (xi_opt a) (Some (one a)) false; T "D"; T "S"; T "Sf"].
(** ParConvBPDN (admm/parcbpdn.py 536-571 and the attributes read later). *)
Definition parconvbpdn : list stmt :=
  [T "pool"; set_dtype; T "lmbda"; SSetAttr "rho" (rho_opt a) (Some (cls_rho a)) false; T "alpha"]
  ++ generic_convbpdn zeros (conv_setdict ["Df"; "rho"]) ++ [T "W"; T "wl1"; SUse "rho"].

(** PGM.__init__ (pgm/pgm.py 228-273) and pgm ConvCnstrMOD.__init__ (pgm/ccmod.py 208-260): the step parameter L. *)
Definition pgm_init : list stmt :=
  [T "opt"; set_dtype; SSetAttr "L" (rho_opt a) (Some (one a)) false; T "X"; T "momentum"; T "Y"; T "itstat"; T "k"; T "t"].
Definition pgm_ccmod : list stmt :=
  [T "cri"] ++ pgm_init ++ [SSetAttr "L" (rho_opt a) (Some (cls_rho a)) false; T "S"; T "Sf"; T "Pcn"; SUse "X"; T "Y"; T "Xf"].

End Prog.

(** The solver classes of the model. *)
Inductive cls :=
| GenericBPDN | BPDN | BPDNJoint | ElasticNet | BPDNProjL1 | MinL1InL2Ball | CnstrMOD
| GenericConvBPDN | ConvBPDN | ConvBPDNJoint | ConvElasticNet | ConvBPDNGradReg | ConvBPDNProjL1
| ConvMinL1InL2Ball | ConvBPDNMaskDcpl | ConvL1L1Grd
| ConvCnstrMOD_IterSM | ConvCnstrMOD_CG | ConvCnstrMOD_Consensus | ConvCnstrMODMaskDcpl_IterSM
| TVL1Denoise | TVL1Deconv | TVL2Denoise | TVL2Deconv | SplineL1 | RobustPCA
| ConvBPDNScalarTV | ConvBPDNRecTV | ParConvBPDN | PGM_ConvCnstrMOD.

Definition prog (c : cls) (a : args) : list stmt :=
  match c with
  | GenericBPDN => generic_bpdn a (zeros ) []
  | BPDN => bpdn a []
  | BPDNJoint => bpdn_joint a
  | ElasticNet => elastic_net a
  | BPDNProjL1 => bpdn_projl1 a
  | MinL1InL2Ball => minl1inl2ball a
  | CnstrMOD => cnstrmod a
  | GenericConvBPDN => generic_convbpdn a zeros (conv_setdict a ["Df"; "rho"])
  | ConvBPDN => convbpdn a (conv_setdict a ["Df"; "rho"])
  | ConvBPDNJoint => convbpdn_joint a
  | ConvElasticNet => conv_elastic_net a
  | ConvBPDNGradReg => convbpdn_gradreg a
  | ConvBPDNProjL1 => convbpdn_projl1 a
  | ConvMinL1InL2Ball => conv_minl1inl2ball a
  | ConvBPDNMaskDcpl => convbpdn_maskdcpl a (twoblock_setdict a ["Df"])
  | ConvL1L1Grd => convl1l1grd a
  | ConvCnstrMOD_IterSM | ConvCnstrMOD_CG => convcnstrmod a
  | ConvCnstrMOD_Consensus => convcnstrmod_consensus a
  | ConvCnstrMODMaskDcpl_IterSM => convcnstrmod_maskdcpl a
  | TVL1Denoise | TVL1Deconv | TVL2Denoise | TVL2Deconv => tv a
  | SplineL1 => spline a
  | RobustPCA => rpca a
  | ConvBPDNScalarTV | ConvBPDNRecTV => convbpdn_tv a
  | ParConvBPDN => parconvbpdn a
  | PGM_ConvCnstrMOD => pgm_ccmod a
  end.

(** Construction of an instance. *)
Definition construct (c : cls) (a : args) : outcome := run (prog c a) empty_store.

(** Name of the penalty or step parameter of the class. *)
Definition par_name (c : cls) : string := match c with PGM_ConvCnstrMOD => "L" | _ => "rho" end.
End Init.
Arguments stmt V : clear implicits.
Arguments args V : clear implicits.
Arguments outcome V : clear implicits.
Arguments store V : clear implicits.
