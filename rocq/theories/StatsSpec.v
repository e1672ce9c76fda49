(** What the iteration statistics are documented to contain: the objective function of each problem (class docstrings), the
    meaning of the field names and of the column headings. *)
Require Import String Bool Reals List.
Require Import Verif.StatsModel.
Import ListNotations.
Local Open Scope string_scope.
Local Open Scope list_scope.
Local Open Scope R_scope.

(** Classes that can be instantiated and solved: all but the common base class and the two generic sparse coding classes,
    whose regularisation term must be supplied by a derived class. *)
Definition concrete (c : cls) : bool :=
  match c with KIterativeSolver | KGenericBPDN | KGenericConvBPDN => false | _ => true end.

(** Solvers by the proximal gradient method. *)
Definition pgm_class (c : cls) : bool :=
  match c with
  | KPGM | KPGMDFT | KPgmBPDN | KPgmWeightedBPDN | KPgmConvBPDN | KPgmConvBPDNMask | KPgmConvCnstrMOD
  | KPgmConvCnstrMODMask | KPgmCnstrMOD | KPgmWeightedCnstrMOD | KPgmGenericPPP | KPgmPPP => true
  | _ => false
  end.

(** The function that each problem minimises, from the class docstrings. *)
Definition doc_objective (c : cls) (e : env) : R :=
  match c with
  | KADMM | KADMMEqual | KADMMConsensus | KWeightedADMMConsensus | KPGM | KPGMDFT => e TF + e TG
  | KADMMTwoBlockCnstrnt => e TF + e TG0 + e TG1
  | KConvTwoBlockCnstrnt => e TG0 + e TG1
  | KBPDN | KConvBPDN | KParConvBPDN | KConvBPDNMaskDcpl | KConvProdDictBPDN | KPgmBPDN | KPgmWeightedBPDN | KPgmConvBPDN
  | KPgmConvBPDNMask => e TDfd + e Lmbda * e TL1
  | KBPDNJoint | KConvBPDNJoint | KConvProdDictBPDNJoint => e TDfd + e Lmbda * e TL1 + e Mu * e TL21
  | KElasticNet | KConvElasticNet => e TDfd + e Lmbda * e TL1 + e Mu * e TL2
  | KConvBPDNGradReg | KConvL1L1Grd | KConvProdDictL1L1Grd => e TDfd + e Lmbda * e TL1 + e Mu * e TGrad
  | KConvProdDictL1L1GrdJoint => e TDfd + e Lmbda * e TL21 + e Mu * e TGrad
  | KConvBPDNInhib => e TDfd + e Lmbda * e TL1 + e Mu * e TLat + e Gamma * e TSelf
  | KConvBPDNScalarTV | KConvBPDNVectorTV | KConvBPDNRecTV => e TDfd + e Lmbda * e TL1 + e Mu * e TTV
  | KBPDNProjL1 | KConvBPDNProjL1 => e TDfd
  | KMinL1InL2Ball | KConvMinL1InL2Ball => e TL1
  | KRobustPCA => e TNuc + e Lmbda * e TL1
  | KSplineL1 => e TDfd + e Lmbda * e TSpl
  | KTVL1Denoise | KTVL1Deconv | KTVL2Denoise | KTVL2Deconv => e TDfd + e Lmbda * e TTV
  | _ => e TDfd
  end.

(** Meaning of a field name. *)
Definition doc_value (c : cls) (e : env) (f : string) : option R :=
  let is := String.eqb f in
  if is "Iter" then Some (e AK) else if is "Time" then Some (e ATime)
  else if is "ObjFun" then Some (doc_objective c e)
  else if is "FVal" then Some (e TF) else if is "GVal" then Some (e TG)
  else if is "G0Val" then Some (e TG0) else if is "G1Val" then Some (e TG1)
  else if is "DFid" then Some (e TDfd) else if is "Cnstr" then Some (e TCns)
  else if is "Reg" then Some (e TSpl)
  else if is "RegL1" then Some (e TL1) else if is "NrmL1" then Some (e TL1)
  else if is "RegL21" then Some (e TL21) else if is "RegL2" then Some (e TL2)
  else if is "RegGrad" then Some (e TGrad) else if is "RegTV" then Some (e TTV)
  else if is "RegLat" then Some (e TLat) else if is "RegSelf" then Some (e TSelf)
  else if is "NrmNuc" then Some (e TNuc)
  else if is "PrimalRsdl" then Some (e ARsdlR) else if is "DualRsdl" then Some (e ARsdlS)
  else if is "EpsPrimal" then Some (e AEpri) else if is "EpsDual" then Some (e AEdua)
  else if is "Rho" then Some (e ARho)
  else if is "Rsdl" then Some (e ARsdl) else if is "L" then Some (e AL)
  else if is "F_Btrack" then Some (e AFbt) else if is "Q_Btrack" then Some (e AQbt)
  else if is "IterBTrack" then Some (e AItbt)
  else if is "XSlvRelRes" then Some (e AXrrs) else if is "XSlvCGIt" then Some (e ACgit)
  else if is "GSIter" then Some (e AGsit) else if is "GSRelRes" then Some (e AGsrrs)
  else None.

(** Meaning of a column heading. *)
Definition doc_column (c : cls) (e : env) (h : string) : option R :=
  let is := String.eqb h in
  if is "Itn" then Some (e AK)
  else if is "Fnc" then Some (doc_objective c e)
  else if is "f" then Some (e TF) else if is "FVal" then Some (e TF) else if is "g" then Some (e TG)
  else if is "g0" then Some (e TG0) else if is "g1" then Some (e TG1)
  else if is "DFid" then Some (e TDfd) else if is "Cnstr" then Some (e TCns) else if is "Reg" then Some (e TSpl)
  else if is "Regl1" then Some (e TL1) else if is "Nrml1" then Some (e TL1)
  else if is "Regl2,1" then Some (e TL21) else if is "Regl21" then Some (e TL21) else if is "Regl2" then Some (e TL2)
  else if is "Regl2grad" then Some (e TGrad) else if is "RegTV" then Some (e TTV)
  else if is "RegLat" then Some (e TLat) else if is "RegSelf" then Some (e TSelf)
  else if is "NrmNuc" then Some (e TNuc)
  else if is "r" then Some (e ARsdlR) else if is "s" then Some (e ARsdlS) else if is "rho" then Some (e ARho)
  else if is "Rsdl" then Some (e ARsdl) else if is "L" then Some (e AL)
  else if is "F" then Some (e AFbt) else if is "Q" then Some (e AQbt) else if is "It_Bt" then Some (e AItbt)
  else None.

(** Fields listed in the class docstrings. *)
Definition doc_fields (c : cls) : option (list string) :=
  match c with
  | KADMM => Some ["Iter"; "ObjFun"; "FVal"; "GVal"; "PrimalRsdl"; "DualRsdl"; "EpsPrimal"; "EpsDual"; "Rho"; "Time"] (* admm/admm.py 47 *)
  | KGenericBPDN => Some ["Iter"; "ObjFun"; "DFid"; "Reg"; "PrimalRsdl"; "DualRsdl"; "EpsPrimal"; "EpsDual"; "Rho"; "Time"] (* admm/bpdn.py 54 *)
  | KBPDN => Some ["Iter"; "ObjFun"; "DFid"; "RegL1"; "PrimalRsdl"; "DualRsdl"; "EpsPrimal"; "EpsDual"; "Rho"; "Time"] (* admm/bpdn.py 312 *)
  | KBPDNJoint => Some ["Iter"; "ObjFun"; "DFid"; "RegL1"; "RegL21"; "PrimalRsdl"; "DualRsdl"; "EpsPrimal"; "EpsDual"; "Rho"; "Time"] (* admm/bpdn.py 499 *)
  | KElasticNet => Some ["Iter"; "ObjFun"; "DFid"; "RegL1"; "RegL2"; "PrimalRsdl"; "DualRsdl"; "EpsPrimal"; "EpsDual"; "Rho"; "Time"] (* admm/bpdn.py 623 *)
  | KBPDNProjL1 => Some ["Iter"; "ObjFun"; "Cnstr"; "PrimalRsdl"; "DualRsdl"; "EpsPrimal"; "EpsDual"; "Rho"; "Time"] (* admm/bpdn.py 793 *)
  | KMinL1InL2Ball => Some ["Iter"; "ObjFun"; "Cnstr"; "PrimalRsdl"; "DualRsdl"; "EpsPrimal"; "EpsDual"; "Rho"; "Time"] (* admm/bpdn.py 967 *)
  | KGenericConvBPDN => Some ["Iter"; "ObjFun"; "DFid"; "Reg"; "PrimalRsdl"; "DualRsdl"; "EpsPrimal"; "EpsDual"; "Rho"; "XSlvRelRes"; "Time"] (* admm/cbpdn.py 66 *)
  | KConvBPDN => Some ["Iter"; "ObjFun"; "DFid"; "RegL1"; "PrimalRsdl"; "DualRsdl"; "EpsPrimal"; "EpsDual"; "Rho"; "XSlvRelRes"; "Time"] (* admm/cbpdn.py 450 *)
  | KConvBPDNJoint => Some ["Iter"; "ObjFun"; "DFid"; "RegL1"; "RegL21"; "PrimalRsdl"; "DualRsdl"; "EpsPrimal"; "EpsDual"; "Rho"; "Time"] (* admm/cbpdn.py 672 *)
  | KConvElasticNet => Some ["Iter"; "ObjFun"; "DFid"; "RegL1"; "RegL2"; "PrimalRsdl"; "DualRsdl"; "EpsPrimal"; "EpsDual"; "Rho"; "XSlvRelRes"; "Time"] (* admm/cbpdn.py 846 *)
  | KConvBPDNGradReg => Some ["Iter"; "ObjFun"; "DFid"; "RegL1"; "RegGrad"; "PrimalRsdl"; "DualRsdl"; "EpsPrimal"; "EpsDual"; "Rho"; "XSlvRelRes"; "Time"] (* admm/cbpdn.py 1027 *)
  | KConvBPDNProjL1 => Some ["Iter"; "ObjFun"; "Cnstr"; "PrimalRsdl"; "DualRsdl"; "EpsPrimal"; "EpsDual"; "Rho"; "XSlvRelRes"; "Time"] (* admm/cbpdn.py 1264 *)
  | KConvMinL1InL2Ball => Some ["Iter"; "ObjFun"; "Cnstr"; "PrimalRsdl"; "DualRsdl"; "EpsPrimal"; "EpsDual"; "Rho"; "Time"] (* admm/cbpdn.py 1887 *)
  | KConvBPDNMaskDcpl => Some ["Iter"; "ObjFun"; "DFid"; "RegL1"; "PrimalRsdl"; "DualRsdl"; "EpsPrimal"; "EpsDual"; "Rho"; "XSlvRelRes"; "Time"] (* admm/cbpdn.py 2103 *)
  | KConvL1L1Grd => Some ["Iter"; "ObjFun"; "DFid"; "RegL1"; "RegGrad"; "PrimalRsdl"; "DualRsdl"; "EpsPrimal"; "EpsDual"; "Rho"; "XSlvRelRes"; "Time"] (* admm/cbpdn.py 2534 *)
  | KConvBPDNInhib => Some ["Iter"; "ObjFun"; "DFid"; "RegL1"; "RegLat"; "RegSelf"; "PrimalRsdl"; "DualRsdl"; "EpsPrimal"; "EpsDual"; "Rho"; "XSlvRelRes"; "Time"] (* admm/cbpdnin.py 74 *)
  | KConvBPDNScalarTV => Some ["Iter"; "ObjFun"; "DFid"; "RegL1"; "RegTV"; "PrimalRsdl"; "DualRsdl"; "EpsPrimal"; "EpsDual"; "Rho"; "XSlvRelRes"; "Time"] (* admm/cbpdntv.py 90 *)
  | KConvBPDNVectorTV => Some ["Iter"; "ObjFun"; "DFid"; "RegL1"; "RegTV"; "PrimalRsdl"; "DualRsdl"; "EpsPrimal"; "EpsDual"; "Rho"; "XSlvRelRes"; "Time"] (* admm/cbpdntv.py 638 *)
  | KConvBPDNRecTV => Some ["Iter"; "ObjFun"; "DFid"; "RegL1"; "RegTV"; "PrimalRsdl"; "DualRsdl"; "EpsPrimal"; "EpsDual"; "Rho"; "XSlvRelRes"; "Time"] (* admm/cbpdntv.py 797 *)
  | KConvCnstrMODBase => Some ["Iter"; "DFid"; "Cnstr"; "PrimalRsdl"; "DualRsdl"; "EpsPrimal"; "EpsDual"; "Rho"; "XSlvRelRes"; "Time"] (* admm/ccmod.py 84 *)
  | KConvCnstrMODMaskDcplBase => Some ["Iter"; "DFid"; "Cnstr"; "PrimalRsdl"; "DualRsdl"; "EpsPrimal"; "EpsDual"; "Rho"; "XSlvRelRes"; "Time"] (* admm/ccmodmd.py 125 *)
  | KCnstrMOD => Some ["Iter"; "DFid"; "Cnstr"; "PrimalRsdl"; "DualRsdl"; "EpsPrimal"; "EpsDual"; "Rho"; "Time"] (* admm/cmod.py 54 *)
  | KParConvBPDN => Some ["Iter"; "ObjFun"; "DFid"; "RegL1"; "PrimalRsdl"; "DualRsdl"; "EpsPrimal"; "EpsDual"; "Rho"; "XSlvRelRes"; "Time"] (* admm/parcbpdn.py 432 *)
  | KRobustPCA => Some ["Iter"; "ObjFun"; "NrmNuc"; "NrmL1"; "Cnstr"; "PrimalRsdl"; "DualRsdl"; "EpsPrimal"; "EpsDual"; "Rho"; "Time"] (* admm/rpca.py 41 *)
  | KSplineL1 => Some ["Iter"; "ObjFun"; "DFid"; "Reg"; "PrimalRsdl"; "DualRsdl"; "EpsPrimal"; "EpsDual"; "Rho"; "XSlvRelRes"; "Time"] (* admm/spline.py 51 *)
  | KTVL1Denoise => Some ["Iter"; "ObjFun"; "DFid"; "RegTV"; "PrimalRsdl"; "DualRsdl"; "EpsPrimal"; "EpsDual"; "Rho"; "GSIter"; "GSRelRes"; "Time"] (* admm/tvl1.py 66 *)
  | KTVL1Deconv => Some ["Iter"; "ObjFun"; "DFid"; "RegTV"; "PrimalRsdl"; "DualRsdl"; "EpsPrimal"; "EpsDual"; "Rho"; "XSlvRelRes"; "Time"] (* admm/tvl1.py 446 *)
  | KTVL2Denoise => Some ["Iter"; "ObjFun"; "DFid"; "RegTV"; "PrimalRsdl"; "DualRsdl"; "EpsPrimal"; "EpsDual"; "Rho"; "GSIter"; "GSRelRes"; "Time"] (* admm/tvl2.py 66 *)
  | KTVL2Deconv => Some ["Iter"; "ObjFun"; "DFid"; "RegTV"; "PrimalRsdl"; "DualRsdl"; "EpsPrimal"; "EpsDual"; "Rho"; "XSlvRelRes"; "Time"] (* admm/tvl2.py 419 *)
  | KPGM => Some ["Iter"; "ObjFun"; "FVal"; "GVal"; "F_Btrack"; "Q_Btrack"; "IterBtrack"; "Rsdl"; "L"; "Time"] (* pgm/pgm.py 56 *)
  | KPgmBPDN => Some ["Iter"; "ObjFun"; "DFid"; "RegL1"; "Rsdl"; "L"; "Time"] (* pgm/bpdn.py 51 *)
  | KPgmWeightedBPDN => Some ["Iter"; "ObjFun"; "DFid"; "RegL1"; "Rsdl"; "L"; "Time"] (* pgm/bpdn.py 308 *)
  | KPgmConvBPDN => Some ["Iter"; "ObjFun"; "DFid"; "RegL1"; "Rsdl"; "L"; "Time"] (* pgm/cbpdn.py 73 *)
  | KPgmConvCnstrMOD => Some ["Iter"; "DFid"; "Cnstr"; "Rsdl"; "L"; "Time"] (* pgm/ccmod.py 82 *)
  | KPgmCnstrMOD => Some ["Iter"; "DFid"; "Cnstr"; "Rsdl"; "L"; "Time"] (* pgm/cmod.py 49 *)
  | KPgmWeightedCnstrMOD => Some ["Iter"; "DFid"; "Cnstr"; "Rsdl"; "L"; "Time"] (* pgm/cmod.py 277 *)
  | _ => None
  end.

(** [l] is a subsequence of [m]. *)
Inductive subseq {A} : list A -> list A -> Prop :=
| sub_nil : forall m, subseq [] m
| sub_keep : forall a l m, subseq l m -> subseq (a :: l) (a :: m)
| sub_skip : forall a l m, subseq l m -> subseq l (a :: m).

(** Meaning of the fields of a dictionary learning record: [ex], [ed] the values in the last iterations of the sparse coding
    and of the dictionary update, [cx] the class of the former, [dfd], [rl1] the terms evaluated for the final
    dictionary and coefficients. *)
Definition dl_doc_value (acc : bool) (cx : cls) (ex ed : env) (j t dfd rl1 lmbda : R) (f : string) : option R :=
  let is := String.eqb f in
  if is "Iter" then Some j else if is "Time" then Some t
  else if is "ObjFun" then Some (if acc then dfd + lmbda * rl1 else doc_objective cx ex)
  else if is "DFid" then Some (if acc then dfd else ex TDfd)
  else if is "RegL1" then Some (if acc then rl1 else ex TL1)
  else if is "Cnstr" then Some (ed TCns)
  else if is "XPrRsdl" then Some (ex ARsdlR) else if is "XDlRsdl" then Some (ex ARsdlS)
  else if is "XRho" then Some (ex ARho)
  else if is "X_F_Btrack" then Some (ex AFbt) else if is "X_Q_Btrack" then Some (ex AQbt)
  else if is "X_ItBt" then Some (ex AItbt)
  else if is "X_L" then Some (ex AL) else if is "XL" then Some (ex AL)
  else if is "X_Rsdl" then Some (ex ARsdl) else if is "XRsdl" then Some (ex ARsdl)
  else if is "DPrRsdl" then Some (ed ARsdlR) else if is "DDlRsdl" then Some (ed ARsdlS)
  else if is "DRho" then Some (ed ARho)
  else if is "D_F_Btrack" then Some (ed AFbt) else if is "D_Q_Btrack" then Some (ed AQbt)
  else if is "D_ItBt" then Some (ed AItbt)
  else if is "D_L" then Some (ed AL) else if is "DL" then Some (ed AL)
  else if is "D_Rsdl" then Some (ed ARsdl) else if is "DRsdl" then Some (ed ARsdl)
  else None.

(** Meaning of the column headings of dictionary learning. *)
Definition dl_doc_column (acc : bool) (cx : cls) (ex ed : env) (j dfd rl1 lmbda : R) (h : string) : option R :=
  let is := String.eqb h in
  if is "Itn" then Some j
  else if is "Fnc" then Some (if acc then dfd + lmbda * rl1 else doc_objective cx ex)
  else if is "DFid" then Some (if acc then dfd else ex TDfd)
  else if is "l1" then Some (if acc then rl1 else ex TL1)
  else if is "Cnstr" then Some (ed TCns)
  else if is "r_X" then Some (ex ARsdlR) else if is "s_X" then Some (ex ARsdlS) else if is "rho_X" then Some (ex ARho)
  else if is "F_X" then Some (ex AFbt) else if is "Q_X" then Some (ex AQbt) else if is "It_X" then Some (ex AItbt)
  else if is "L_X" then Some (ex AL) else if is "X_L" then Some (ex AL) else if is "X_Rsdl" then Some (ex ARsdl)
  else if is "r_D" then Some (ed ARsdlR) else if is "s_D" then Some (ed ARsdlS) else if is "rho_D" then Some (ed ARho)
  else if is "F_D" then Some (ed AFbt) else if is "Q_D" then Some (ed AQbt) else if is "It_D" then Some (ed AItbt)
  else if is "L_D" then Some (ed AL) else if is "D_L" then Some (ed AL) else if is "D_Rsdl" then Some (ed ARsdl)
  else None.
