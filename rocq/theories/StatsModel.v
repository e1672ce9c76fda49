(** Model of the iteration statistics of the solver classes: the class attributes that declare the fields of the records
    and the columns of the display, the methods that compute the values, and the configuration objects of the dictionary
    learning classes (sporco/common.py 97-142, sporco/admm/*.py, sporco/pgm/*.py, sporco/dictlrn/dictlrn.py 29-158,
    sporco/dictlrn/common.py).

    A class is a constructor of [cls]; attributes and methods are resolved as Python does for single inheritance, from the
    class itself up through its bases.  The numerical terms are parameters: [env] gives the value of each mathematical
    term (data fidelity, norms, ...) at the current iterate, as computed by the lines cited, so that the model keeps which
    term is put in which position and how the objective function is assembled from them.  Names containing Greek or
    script letters are transliterated, different names remaining different. *)
Require Import String Bool Arith Reals List.
Import ListNotations.
Local Open Scope string_scope.
Local Open Scope list_scope.

(** The solver classes of sporco.admm and sporco.pgm. *)
Inductive cls :=
| KIterativeSolver (* common.py 120 *)
| KADMM (* admm/admm.py 28 *)
| KADMMEqual (* admm/admm.py 791 *)
| KADMMTwoBlockCnstrnt (* admm/admm.py 989 *)
| KADMMConsensus (* admm/admm.py 1444 *)
| KWeightedADMMConsensus (* admm/admm.py 1713 *)
| KGenericBPDN (* admm/bpdn.py 24 *)
| KBPDN (* admm/bpdn.py 271 *)
| KBPDNJoint (* admm/bpdn.py 469 *)
| KElasticNet (* admm/bpdn.py 592 *)
| KBPDNProjL1 (* admm/bpdn.py 750 *)
| KMinL1InL2Ball (* admm/bpdn.py 920 *)
| KGenericConvBPDN (* admm/cbpdn.py 30 *)
| KConvBPDN (* admm/cbpdn.py 386 *)
| KConvBPDNJoint (* admm/cbpdn.py 636 *)
| KConvElasticNet (* admm/cbpdn.py 813 *)
| KConvBPDNGradReg (* admm/cbpdn.py 992 *)
| KConvBPDNProjL1 (* admm/cbpdn.py 1220 *)
| KConvTwoBlockCnstrnt (* admm/cbpdn.py 1401 *)
| KConvMinL1InL2Ball (* admm/cbpdn.py 1830 *)
| KConvBPDNMaskDcpl (* admm/cbpdn.py 2066 *)
| KConvL1L1Grd (* admm/cbpdn.py 2488 *)
| KConvBPDNInhib (* admm/cbpdnin.py 28 *)
| KConvBPDNScalarTV (* admm/cbpdntv.py 31 *)
| KConvBPDNVectorTV (* admm/cbpdntv.py 577 *)
| KConvBPDNRecTV (* admm/cbpdntv.py 733 *)
| KConvCnstrMODBase (* admm/ccmod.py 26 *)
| KConvCnstrMODIterSM (* admm/ccmod.py 433 *)
| KConvCnstrMODCG (* admm/ccmod.py 511 *)
| KConvCnstrMODConsensus (* admm/ccmod.py 613 *)
| KConvCnstrMODMaskDcplBase (* admm/ccmodmd.py 27 *)
| KConvCnstrMODMaskDcplIterSM (* admm/ccmodmd.py 573 *)
| KConvCnstrMODMaskDcplCG (* admm/ccmodmd.py 658 *)
| KConvCnstrMODMaskDcplConsensus (* admm/ccmodmd.py 766 *)
| KCnstrMOD (* admm/cmod.py 21 *)
| KParConvBPDN (* admm/parcbpdn.py 353 *)
| KConvProdDictBPDN (* admm/pdcsc.py 28 *)
| KConvProdDictBPDNJoint (* admm/pdcsc.py 198 *)
| KConvProdDictL1L1Grd (* admm/pdcsc.py 293 *)
| KConvProdDictL1L1GrdJoint (* admm/pdcsc.py 584 *)
| KGenericPPP (* admm/ppp.py 22 *)
| KPPP (* admm/ppp.py 120 *)
| KGenericPPPConsensus (* admm/ppp.py 156 *)
| KPPPConsensus (* admm/ppp.py 258 *)
| KRobustPCA (* admm/rpca.py 23 *)
| KSplineL1 (* admm/spline.py 24 *)
| KTVL1Denoise (* admm/tvl1.py 27 *)
| KTVL1Deconv (* admm/tvl1.py 403 *)
| KTVL2Denoise (* admm/tvl2.py 27 *)
| KTVL2Deconv (* admm/tvl2.py 377 *)
| KPGM (* pgm/pgm.py 34 *)
| KPGMDFT (* pgm/pgm.py 708 *)
| KPgmBPDN (* pgm/bpdn.py 26 *)
| KPgmWeightedBPDN (* pgm/bpdn.py 248 *)
| KPgmConvBPDN (* pgm/cbpdn.py 29 *)
| KPgmConvBPDNMask (* pgm/cbpdn.py 387 *)
| KPgmConvCnstrMOD (* pgm/ccmod.py 28 *)
| KPgmConvCnstrMODMask (* pgm/ccmod.py 408 *)
| KPgmCnstrMOD (* pgm/cmod.py 24 *)
| KPgmWeightedCnstrMOD (* pgm/cmod.py 238 *)
| KPgmGenericPPP (* pgm/ppp.py 23 *)
| KPgmPPP (* pgm/ppp.py 124 *)
.

Definition cls_eq_dec (a b : cls) : {a = b} + {a <> b}.
Proof. decide equality. Defined.

Definition cls_eqb (a b : cls) : bool := if cls_eq_dec a b then true else false.

(** Base class of each class (the class statements cited above). *)
Definition parent (c : cls) : option cls :=
  match c with
  | KIterativeSolver => None
  | KADMM => Some KIterativeSolver
  | KADMMEqual => Some KADMM
  | KADMMTwoBlockCnstrnt => Some KADMM
  | KADMMConsensus => Some KADMM
  | KWeightedADMMConsensus => Some KADMMConsensus
  | KGenericBPDN => Some KADMMEqual
  | KBPDN => Some KGenericBPDN
  | KBPDNJoint => Some KBPDN
  | KElasticNet => Some KBPDN
  | KBPDNProjL1 => Some KGenericBPDN
  | KMinL1InL2Ball => Some KADMMTwoBlockCnstrnt
  | KGenericConvBPDN => Some KADMMEqual
  | KConvBPDN => Some KGenericConvBPDN
  | KConvBPDNJoint => Some KConvBPDN
  | KConvElasticNet => Some KConvBPDN
  | KConvBPDNGradReg => Some KConvBPDN
  | KConvBPDNProjL1 => Some KGenericConvBPDN
  | KConvTwoBlockCnstrnt => Some KADMMTwoBlockCnstrnt
  | KConvMinL1InL2Ball => Some KConvTwoBlockCnstrnt
  | KConvBPDNMaskDcpl => Some KConvTwoBlockCnstrnt
  | KConvL1L1Grd => Some KConvBPDNMaskDcpl
  | KConvBPDNInhib => Some KConvBPDN
  | KConvBPDNScalarTV => Some KADMM
  | KConvBPDNVectorTV => Some KConvBPDNScalarTV
  | KConvBPDNRecTV => Some KADMM
  | KConvCnstrMODBase => Some KADMMEqual
  | KConvCnstrMODIterSM => Some KConvCnstrMODBase
  | KConvCnstrMODCG => Some KConvCnstrMODBase
  | KConvCnstrMODConsensus => Some KADMMConsensus
  | KConvCnstrMODMaskDcplBase => Some KADMMTwoBlockCnstrnt
  | KConvCnstrMODMaskDcplIterSM => Some KConvCnstrMODMaskDcplBase
  | KConvCnstrMODMaskDcplCG => Some KConvCnstrMODMaskDcplBase
  | KConvCnstrMODMaskDcplConsensus => Some KConvCnstrMODConsensus
  | KCnstrMOD => Some KADMMEqual
  | KParConvBPDN => Some KGenericConvBPDN
  | KConvProdDictBPDN => Some KConvBPDN
  | KConvProdDictBPDNJoint => Some KConvProdDictBPDN
  | KConvProdDictL1L1Grd => Some KConvL1L1Grd
  | KConvProdDictL1L1GrdJoint => Some KConvProdDictL1L1Grd
  | KGenericPPP => Some KADMMEqual
  | KPPP => Some KGenericPPP
  | KGenericPPPConsensus => Some KWeightedADMMConsensus
  | KPPPConsensus => Some KGenericPPPConsensus
  | KRobustPCA => Some KADMM
  | KSplineL1 => Some KADMM
  | KTVL1Denoise => Some KADMM
  | KTVL1Deconv => Some KADMM
  | KTVL2Denoise => Some KADMM
  | KTVL2Deconv => Some KADMM
  | KPGM => Some KIterativeSolver
  | KPGMDFT => Some KPGM
  | KPgmBPDN => Some KPGM
  | KPgmWeightedBPDN => Some KPgmBPDN
  | KPgmConvBPDN => Some KPGMDFT
  | KPgmConvBPDNMask => Some KPgmConvBPDN
  | KPgmConvCnstrMOD => Some KPGMDFT
  | KPgmConvCnstrMODMask => Some KPgmConvCnstrMOD
  | KPgmCnstrMOD => Some KPGM
  | KPgmWeightedCnstrMOD => Some KPgmCnstrMOD
  | KPgmGenericPPP => Some KPGM
  | KPgmPPP => Some KPgmGenericPPP
  end.

(** Class attributes as defined in the body of each class. *)
Definition own_itstat_fields_objfn (c : cls) : option (list string) :=
  match c with
  | KIterativeSolver => Some [] (* common.py 125 *)
  | KADMM => Some ["ObjFun"; "FVal"; "GVal"] (* admm/admm.py 182 *)
  | KADMMTwoBlockCnstrnt => Some ["ObjFun"; "FVal"; "G0Val"; "G1Val"] (* admm/admm.py 1069 *)
  | KGenericBPDN => Some ["ObjFun"; "DFid"; "Reg"] (* admm/bpdn.py 144 *)
  | KBPDN => Some ["ObjFun"; "DFid"; "RegL1"] (* admm/bpdn.py 371 *)
  | KBPDNJoint => Some ["ObjFun"; "DFid"; "RegL1"; "RegL21"] (* admm/bpdn.py 527 *)
  | KElasticNet => Some ["ObjFun"; "DFid"; "RegL1"; "RegL2"] (* admm/bpdn.py 653 *)
  | KBPDNProjL1 => Some ["ObjFun"; "Cnstr"] (* admm/bpdn.py 841 *)
  | KMinL1InL2Ball => Some ["ObjFun"; "Cnstr"] (* admm/bpdn.py 1029 *)
  | KGenericConvBPDN => Some ["ObjFun"; "DFid"; "Reg"] (* admm/cbpdn.py 168 *)
  | KConvBPDN => Some ["ObjFun"; "DFid"; "RegL1"] (* admm/cbpdn.py 512 *)
  | KConvBPDNJoint => Some ["ObjFun"; "DFid"; "RegL1"; "RegL21"] (* admm/cbpdn.py 737 *)
  | KConvElasticNet => Some ["ObjFun"; "DFid"; "RegL1"; "RegL2"] (* admm/cbpdn.py 878 *)
  | KConvBPDNGradReg => Some ["ObjFun"; "DFid"; "RegL1"; "RegGrad"] (* admm/cbpdn.py 1091 *)
  | KConvBPDNProjL1 => Some ["ObjFun"; "Cnstr"] (* admm/cbpdn.py 1313 *)
  | KConvTwoBlockCnstrnt => Some ["ObjFun"; "G0Val"; "G1Val"] (* admm/cbpdn.py 1528 *)
  | KConvMinL1InL2Ball => Some ["ObjFun"; "Cnstr"] (* admm/cbpdn.py 1950 *)
  | KConvBPDNMaskDcpl => Some ["ObjFun"; "DFid"; "RegL1"] (* admm/cbpdn.py 2165 *)
  | KConvL1L1Grd => Some ["ObjFun"; "DFid"; "RegL1"; "RegGrad"] (* admm/cbpdn.py 2598 *)
  | KConvBPDNInhib => Some ["ObjFun"; "DFid"; "RegL1"; "RegLat"; "RegSelf"] (* admm/cbpdnin.py 138 *)
  | KConvBPDNScalarTV => Some ["ObjFun"; "DFid"; "RegL1"; "RegTV"] (* admm/cbpdntv.py 155 *)
  | KConvBPDNRecTV => Some ["ObjFun"; "DFid"; "RegL1"; "RegTV"] (* admm/cbpdntv.py 864 *)
  | KConvCnstrMODBase => Some ["DFid"; "Cnstr"] (* admm/ccmod.py 181 *)
  | KConvCnstrMODConsensus => Some ["DFid"; "Cnstr"] (* admm/ccmod.py 659 *)
  | KConvCnstrMODMaskDcplBase => Some ["DFid"; "Cnstr"] (* admm/ccmodmd.py 203 *)
  | KCnstrMOD => Some ["DFid"; "Cnstr"] (* admm/cmod.py 141 *)
  | KParConvBPDN => Some ["ObjFun"; "DFid"; "RegL1"] (* admm/parcbpdn.py 503 *)
  | KConvProdDictBPDNJoint => Some ["ObjFun"; "DFid"; "RegL1"; "RegL21"] (* admm/pdcsc.py 229 *)
  | KConvProdDictL1L1GrdJoint => Some ["ObjFun"; "DFid"; "RegL21"; "RegGrad"] (* admm/pdcsc.py 641 *)
  | KGenericPPP => Some ["FVal"] (* admm/ppp.py 46 *)
  | KGenericPPPConsensus => Some [] (* admm/ppp.py 201 *)
  | KRobustPCA => Some ["ObjFun"; "NrmNuc"; "NrmL1"; "Cnstr"] (* admm/rpca.py 108 *)
  | KSplineL1 => Some ["ObjFun"; "DFid"; "Reg"] (* admm/spline.py 123 *)
  | KTVL1Denoise => Some ["ObjFun"; "DFid"; "RegTV"] (* admm/tvl1.py 145 *)
  | KTVL1Deconv => Some ["ObjFun"; "DFid"; "RegTV"] (* admm/tvl1.py 520 *)
  | KTVL2Denoise => Some ["ObjFun"; "DFid"; "RegTV"] (* admm/tvl2.py 145 *)
  | KTVL2Deconv => Some ["ObjFun"; "DFid"; "RegTV"] (* admm/tvl2.py 490 *)
  | KPGM => Some ["ObjFun"; "FVal"; "GVal"] (* pgm/pgm.py 187 *)
  | KPgmBPDN => Some ["ObjFun"; "DFid"; "RegL1"] (* pgm/bpdn.py 110 *)
  | KPgmConvBPDN => Some ["ObjFun"; "DFid"; "RegL1"] (* pgm/cbpdn.py 141 *)
  | KPgmConvCnstrMOD => Some ["DFid"; "Cnstr"] (* pgm/ccmod.py 133 *)
  | KPgmCnstrMOD => Some ["DFid"; "Cnstr"] (* pgm/cmod.py 104 *)
  | KPgmGenericPPP => Some ["FVal"] (* pgm/ppp.py 50 *)
  | _ => None
  end.

Definition own_itstat_fields_alg (c : cls) : option (list string) :=
  match c with
  | KIterativeSolver => Some [] (* common.py 127 *)
  | KADMM => Some ["PrimalRsdl"; "DualRsdl"; "EpsPrimal"; "EpsDual"; "Rho"] (* admm/admm.py 185 *)
  | KPGM => Some ["Rsdl"; "F_Btrack"; "Q_Btrack"; "IterBTrack"; "L"] (* pgm/pgm.py 190 *)
  | _ => None
  end.

Definition own_itstat_fields_extra (c : cls) : option (list string) :=
  match c with
  | KIterativeSolver => Some [] (* common.py 130 *)
  | KADMM => Some [] (* admm/admm.py 189 *)
  | KGenericBPDN => Some ["XSlvRelRes"] (* admm/bpdn.py 145 *)
  | KGenericConvBPDN => Some ["XSlvRelRes"] (* admm/cbpdn.py 169 *)
  | KConvTwoBlockCnstrnt => Some ["XSlvRelRes"] (* admm/cbpdn.py 1529 *)
  | KConvBPDNScalarTV => Some ["XSlvRelRes"] (* admm/cbpdntv.py 156 *)
  | KConvBPDNRecTV => Some ["XSlvRelRes"] (* admm/cbpdntv.py 865 *)
  | KConvCnstrMODBase => Some ["XSlvRelRes"] (* admm/ccmod.py 182 *)
  | KConvCnstrMODCG => Some ["XSlvRelRes"; "XSlvCGIt"] (* admm/ccmod.py 562 *)
  | KConvCnstrMODConsensus => Some ["XSlvRelRes"] (* admm/ccmod.py 660 *)
  | KConvCnstrMODMaskDcplBase => Some ["XSlvRelRes"] (* admm/ccmodmd.py 204 *)
  | KConvCnstrMODMaskDcplCG => Some ["XSlvRelRes"; "XSlvCGIt"] (* admm/ccmodmd.py 709 *)
  | KSplineL1 => Some ["XSlvRelRes"] (* admm/spline.py 124 *)
  | KTVL1Denoise => Some ["GSIter"; "GSRelRes"] (* admm/tvl1.py 146 *)
  | KTVL1Deconv => Some ["XSlvRelRes"] (* admm/tvl1.py 521 *)
  | KTVL2Denoise => Some ["GSIter"; "GSRelRes"] (* admm/tvl2.py 146 *)
  | KTVL2Deconv => Some ["XSlvRelRes"] (* admm/tvl2.py 491 *)
  | KPGM => Some [] (* pgm/pgm.py 193 *)
  | _ => None
  end.

Definition own_hdrtxt_objfn (c : cls) : option (list string) :=
  match c with
  | KADMM => Some ["Fnc"; "f"; "g"] (* admm/admm.py 192 *)
  | KADMMTwoBlockCnstrnt => Some ["Fnc"; "f"; "g0"; "g1"] (* admm/admm.py 1073 *)
  | KGenericBPDN => Some ["Fnc"; "DFid"; "Reg"] (* admm/bpdn.py 146 *)
  | KBPDN => Some ["Fnc"; "DFid"; "Regl1"] (* admm/bpdn.py 372 *)
  | KBPDNJoint => Some ["Fnc"; "DFid"; "Regl1"; "Regl2,1"] (* admm/bpdn.py 528 *)
  | KElasticNet => Some ["Fnc"; "DFid"; "Regl1"; "Regl2"] (* admm/bpdn.py 654 *)
  | KBPDNProjL1 => Some ["Fnc"; "Cnstr"] (* admm/bpdn.py 842 *)
  | KMinL1InL2Ball => Some ["Fnc"; "Cnstr"] (* admm/bpdn.py 1030 *)
  | KGenericConvBPDN => Some ["Fnc"; "DFid"; "Reg"] (* admm/cbpdn.py 170 *)
  | KConvBPDN => Some ["Fnc"; "DFid"; "Regl1"] (* admm/cbpdn.py 513 *)
  | KConvBPDNJoint => Some ["Fnc"; "DFid"; "Regl1"; "Regl2,1"] (* admm/cbpdn.py 738 *)
  | KConvElasticNet => Some ["Fnc"; "DFid"; "Regl1"; "Regl2"] (* admm/cbpdn.py 879 *)
  | KConvBPDNGradReg => Some ["Fnc"; "DFid"; "Regl1"; "Regl2grad"] (* admm/cbpdn.py 1092 *)
  | KConvBPDNProjL1 => Some ["Fnc"; "Cnstr"] (* admm/cbpdn.py 1314 *)
  | KConvTwoBlockCnstrnt => Some ["Fnc"; "g0"; "g1"] (* admm/cbpdn.py 1530 *)
  | KConvMinL1InL2Ball => Some ["Fnc"; "Cnstr"] (* admm/cbpdn.py 1951 *)
  | KConvBPDNMaskDcpl => Some ["Fnc"; "DFid"; "Regl1"] (* admm/cbpdn.py 2166 *)
  | KConvL1L1Grd => Some ["Fnc"; "DFid"; "Regl1"; "Regl2grad"] (* admm/cbpdn.py 2599 *)
  | KConvBPDNInhib => Some ["Fnc"; "DFid"; "Regl1"; "RegLat"; "RegSelf"] (* admm/cbpdnin.py 139 *)
  | KConvBPDNScalarTV => Some ["Fnc"; "DFid"; "Regl1"; "RegTV"] (* admm/cbpdntv.py 157 *)
  | KConvBPDNRecTV => Some ["Fnc"; "DFid"; "Regl1"; "RegTV"] (* admm/cbpdntv.py 866 *)
  | KConvCnstrMODBase => Some ["DFid"; "Cnstr"] (* admm/ccmod.py 183 *)
  | KConvCnstrMODConsensus => Some ["DFid"; "Cnstr"] (* admm/ccmod.py 661 *)
  | KConvCnstrMODMaskDcplBase => Some ["DFid"; "Cnstr"] (* admm/ccmodmd.py 205 *)
  | KCnstrMOD => Some ["DFid"; "Cnstr"] (* admm/cmod.py 142 *)
  | KParConvBPDN => Some ["Fnc"; "DFid"; "Regl1"] (* admm/parcbpdn.py 504 *)
  | KConvProdDictBPDNJoint => Some ["Fnc"; "DFid"; "Regl1"; "Regl2,1"] (* admm/pdcsc.py 230 *)
  | KConvProdDictL1L1GrdJoint => Some ["Fnc"; "DFid"; "Regl21"; "Regl2grad"] (* admm/pdcsc.py 642 *)
  | KGenericPPP => Some ["FVal"] (* admm/ppp.py 47 *)
  | KGenericPPPConsensus => Some [] (* admm/ppp.py 202 *)
  | KRobustPCA => Some ["Fnc"; "NrmNuc"; "Nrml1"; "Cnstr"] (* admm/rpca.py 109 *)
  | KSplineL1 => Some ["Fnc"; "DFid"; "Reg"] (* admm/spline.py 125 *)
  | KTVL1Denoise => Some ["Fnc"; "DFid"; "RegTV"] (* admm/tvl1.py 147 *)
  | KTVL1Deconv => Some ["Fnc"; "DFid"; "RegTV"] (* admm/tvl1.py 522 *)
  | KTVL2Denoise => Some ["Fnc"; "DFid"; "RegTV"] (* admm/tvl2.py 147 *)
  | KTVL2Deconv => Some ["Fnc"; "DFid"; "RegTV"] (* admm/tvl2.py 492 *)
  | KPGM => Some ["Fnc"; "f"; "g"] (* pgm/pgm.py 196 *)
  | KPgmBPDN => Some ["Fnc"; "DFid"; "Regl1"] (* pgm/bpdn.py 111 *)
  | KPgmConvBPDN => Some ["Fnc"; "DFid"; "Regl1"] (* pgm/cbpdn.py 142 *)
  | KPgmConvCnstrMOD => Some ["DFid"; "Cnstr"] (* pgm/ccmod.py 134 *)
  | KPgmCnstrMOD => Some ["DFid"; "Cnstr"] (* pgm/cmod.py 105 *)
  | KPgmGenericPPP => Some ["FVal"] (* pgm/ppp.py 51 *)
  | _ => None
  end.

Definition own_hdrval_objfun (c : cls) : option (list (string * string)) :=
  match c with
  | KADMM => Some [("Fnc", "ObjFun"); ("f", "FVal"); ("g", "GVal")] (* admm/admm.py 195 *)
  | KADMMTwoBlockCnstrnt => Some [("Fnc", "ObjFun"); ("f", "FVal"); ("g0", "G0Val"); ("g1", "G1Val")] (* admm/admm.py 1076 *)
  | KGenericBPDN => Some [("Fnc", "ObjFun"); ("DFid", "DFid"); ("Reg", "Reg")] (* admm/bpdn.py 147 *)
  | KBPDN => Some [("Fnc", "ObjFun"); ("DFid", "DFid"); ("Regl1", "RegL1")] (* admm/bpdn.py 373 *)
  | KBPDNJoint => Some [("Fnc", "ObjFun"); ("DFid", "DFid"); ("Regl1", "RegL1"); ("Regl2,1", "RegL21")] (* admm/bpdn.py 529 *)
  | KElasticNet => Some [("Fnc", "ObjFun"); ("DFid", "DFid"); ("Regl1", "RegL1"); ("Regl2", "RegL2")] (* admm/bpdn.py 655 *)
  | KBPDNProjL1 => Some [("Fnc", "ObjFun"); ("Cnstr", "Cnstr")] (* admm/bpdn.py 843 *)
  | KMinL1InL2Ball => Some [("Fnc", "ObjFun"); ("Cnstr", "Cnstr")] (* admm/bpdn.py 1031 *)
  | KGenericConvBPDN => Some [("Fnc", "ObjFun"); ("DFid", "DFid"); ("Reg", "Reg")] (* admm/cbpdn.py 171 *)
  | KConvBPDN => Some [("Fnc", "ObjFun"); ("DFid", "DFid"); ("Regl1", "RegL1")] (* admm/cbpdn.py 514 *)
  | KConvBPDNJoint => Some [("Fnc", "ObjFun"); ("DFid", "DFid"); ("Regl1", "RegL1"); ("Regl2,1", "RegL21")] (* admm/cbpdn.py 739 *)
  | KConvElasticNet => Some [("Fnc", "ObjFun"); ("DFid", "DFid"); ("Regl1", "RegL1"); ("Regl2", "RegL2")] (* admm/cbpdn.py 880 *)
  | KConvBPDNGradReg => Some [("Fnc", "ObjFun"); ("DFid", "DFid"); ("Regl1", "RegL1"); ("Regl2grad", "RegGrad")] (* admm/cbpdn.py 1093 *)
  | KConvBPDNProjL1 => Some [("Fnc", "ObjFun"); ("Cnstr", "Cnstr")] (* admm/cbpdn.py 1315 *)
  | KConvTwoBlockCnstrnt => Some [("Fnc", "ObjFun"); ("g0", "G0Val"); ("g1", "G1Val")] (* admm/cbpdn.py 1531 *)
  | KConvMinL1InL2Ball => Some [("Fnc", "ObjFun"); ("Cnstr", "Cnstr")] (* admm/cbpdn.py 1952 *)
  | KConvBPDNMaskDcpl => Some [("Fnc", "ObjFun"); ("DFid", "DFid"); ("Regl1", "RegL1")] (* admm/cbpdn.py 2167 *)
  | KConvL1L1Grd => Some [("Fnc", "ObjFun"); ("DFid", "DFid"); ("Regl1", "RegL1"); ("Regl2grad", "RegGrad")] (* admm/cbpdn.py 2600 *)
  | KConvBPDNInhib => Some [("Fnc", "ObjFun"); ("DFid", "DFid"); ("Regl1", "RegL1"); ("RegLat", "RegLat"); ("RegSelf", "RegSelf")] (* admm/cbpdnin.py 140 *)
  | KConvBPDNScalarTV => Some [("Fnc", "ObjFun"); ("DFid", "DFid"); ("Regl1", "RegL1"); ("RegTV", "RegTV")] (* admm/cbpdntv.py 158 *)
  | KConvBPDNRecTV => Some [("Fnc", "ObjFun"); ("DFid", "DFid"); ("Regl1", "RegL1"); ("RegTV", "RegTV")] (* admm/cbpdntv.py 867 *)
  | KConvCnstrMODBase => Some [("DFid", "DFid"); ("Cnstr", "Cnstr")] (* admm/ccmod.py 184 *)
  | KConvCnstrMODConsensus => Some [("DFid", "DFid"); ("Cnstr", "Cnstr")] (* admm/ccmod.py 662 *)
  | KConvCnstrMODMaskDcplBase => Some [("DFid", "DFid"); ("Cnstr", "Cnstr")] (* admm/ccmodmd.py 206 *)
  | KCnstrMOD => Some [("DFid", "DFid"); ("Cnstr", "Cnstr")] (* admm/cmod.py 143 *)
  | KParConvBPDN => Some [("Fnc", "ObjFun"); ("DFid", "DFid"); ("Regl1", "RegL1")] (* admm/parcbpdn.py 505 *)
  | KConvProdDictBPDNJoint => Some [("Fnc", "ObjFun"); ("DFid", "DFid"); ("Regl1", "RegL1"); ("Regl2,1", "RegL21")] (* admm/pdcsc.py 231 *)
  | KConvProdDictL1L1GrdJoint => Some [("Fnc", "ObjFun"); ("DFid", "DFid"); ("Regl21", "RegL21"); ("Regl2grad", "RegGrad")] (* admm/pdcsc.py 643 *)
  | KGenericPPP => Some [("FVal", "FVal")] (* admm/ppp.py 48 *)
  | KGenericPPPConsensus => Some [] (* admm/ppp.py 203 *)
  | KRobustPCA => Some [("Fnc", "ObjFun"); ("NrmNuc", "NrmNuc"); ("Nrml1", "NrmL1"); ("Cnstr", "Cnstr")] (* admm/rpca.py 110 *)
  | KSplineL1 => Some [("Fnc", "ObjFun"); ("DFid", "DFid"); ("Reg", "Reg")] (* admm/spline.py 126 *)
  | KTVL1Denoise => Some [("Fnc", "ObjFun"); ("DFid", "DFid"); ("RegTV", "RegTV")] (* admm/tvl1.py 148 *)
  | KTVL1Deconv => Some [("Fnc", "ObjFun"); ("DFid", "DFid"); ("RegTV", "RegTV")] (* admm/tvl1.py 523 *)
  | KTVL2Denoise => Some [("Fnc", "ObjFun"); ("DFid", "DFid"); ("RegTV", "RegTV")] (* admm/tvl2.py 148 *)
  | KTVL2Deconv => Some [("Fnc", "ObjFun"); ("DFid", "DFid"); ("RegTV", "RegTV")] (* admm/tvl2.py 493 *)
  | KPGM => Some [("Fnc", "ObjFun"); ("f", "FVal"); ("g", "GVal")] (* pgm/pgm.py 199 *)
  | KPgmBPDN => Some [("Fnc", "ObjFun"); ("DFid", "DFid"); ("Regl1", "RegL1")] (* pgm/bpdn.py 112 *)
  | KPgmConvBPDN => Some [("Fnc", "ObjFun"); ("DFid", "DFid"); ("Regl1", "RegL1")] (* pgm/cbpdn.py 143 *)
  | KPgmConvCnstrMOD => Some [("DFid", "DFid"); ("Cnstr", "Cnstr")] (* pgm/ccmod.py 135 *)
  | KPgmCnstrMOD => Some [("DFid", "DFid"); ("Cnstr", "Cnstr")] (* pgm/cmod.py 106 *)
  | KPgmGenericPPP => Some [("FVal", "FVal")] (* pgm/ppp.py 52 *)
  | _ => None
  end.

(** Attribute lookup along the base classes (all of these classes have a single base); no class has more than 7 bases above
    it. *)
Fixpoint lookup {A} (n : nat) (own : cls -> option A) (c : cls) : option A :=
  match own c with
  | Some v => Some v
  | None => match n with
            | O => None
            | S n' => match parent c with None => None | Some p => lookup n' own p end
            end
  end.

Definition attr {A} (d : A) (own : cls -> option A) (c : cls) : A :=
  match lookup 8 own c with Some v => v | None => d end.

(** IterativeSolver.itstat_fields (common.py 136-142). *)
Definition itstat_fields (c : cls) : list string :=
  ["Iter"] ++ attr [] own_itstat_fields_objfn c ++ attr [] own_itstat_fields_alg c
           ++ attr [] own_itstat_fields_extra c ++ ["Time"].

Fixpoint is_sub (n : nat) (c a : cls) : bool :=
  (if cls_eqb c a then true else
   match n with
   | O => false
   | S n' => match parent c with None => false | Some p => is_sub n' p a end
   end).

(** Values entering a record: the mathematical terms of the problem at the current iterate, its parameters, and the
    quantities of the algorithm. *)
Inductive term :=
| TF | TG | TG0 | TG1                    (* f, g, g_0, g_1 of the abstract problem classes *)
| TDfd                                   (* data fidelity term of the class *)
| TL1 | TL21 | TL2 | TGrad | TLat | TSelf | TTV | TNuc | TSpl    (* regularisation terms *)
| TCns                                   (* constraint violation *)
| Lmbda | Mu | Gamma                     (* parameters *)
| ARsdlR | ARsdlS | AEpri | AEdua | ARho (* ADMM: r, s, epri, edua, self.rho *)
| ARsdl | AFbt | AQbt | AItbt | AL       (* PGM: frcxd, self.F, self.Q, self.iterBTrack, self.L *)
| AXrrs | ACgit | AGsit | AGsrrs         (* linear solver statistics *)
| AK | ATime.                            (* iteration number, elapsed time *)

Definition env := term -> R.

(** obfn_g0 and obfn_g1 of the classes with two blocks; [None] is NotImplementedError. *)
Definition own_obfn_g0 (c : cls) : option (env -> option R) :=
  match c with
  | KADMMTwoBlockCnstrnt => Some (fun e => Some (e TG0))      (* admm/admm.py 1245-1252: supplied by the user *)
  | KConvMinL1InL2Ball => Some (fun e => Some (e TCns))       (* admm/cbpdn.py 2034-2040 *)
  | KConvBPDNMaskDcpl => Some (fun e => Some (e TDfd))        (* admm/cbpdn.py 2267-2272 *)
  | KConvL1L1Grd => Some (fun e => Some (e TDfd))             (* admm/cbpdn.py 2744-2749 *)
  | KConvCnstrMODMaskDcplBase => Some (fun e => Some (e TDfd))(* admm/ccmodmd.py 519-524 *)
  | _ => None
  end.

Definition own_obfn_g1 (c : cls) : option (env -> option R) :=
  match c with
  | KADMMTwoBlockCnstrnt => Some (fun e => Some (e TG1))      (* admm/admm.py 1256-1263: supplied by the user *)
  | KConvMinL1InL2Ball => Some (fun e => Some (e TL1))        (* admm/cbpdn.py 2044-2049 *)
  | KConvBPDNMaskDcpl => Some (fun e => Some (e TL1))         (* admm/cbpdn.py 2276-2281 *)
  | KConvProdDictL1L1GrdJoint => Some (fun e => Some (e TL21))(* admm/pdcsc.py 696-701 *)
  | KConvCnstrMODMaskDcplBase => Some (fun e => Some (e TCns))(* admm/ccmodmd.py 528-533 *)
  | _ => None
  end.

Local Open Scope R_scope.

(** obfn_reg: the weighted sum, then the terms. *)
Definition own_obfn_reg (c : cls) : option (env -> option (list R)) :=
  match c with
  | KGenericBPDN | KGenericConvBPDN => Some (fun _ => None)   (* admm/bpdn.py 245-250, admm/cbpdn.py 348-353: raises *)
  | KBPDN | KConvBPDN | KParConvBPDN | KPgmBPDN | KPgmConvBPDN =>
      (* admm/bpdn.py 458-464, admm/cbpdn.py 624-630, admm/parcbpdn.py 900-905, pgm/bpdn.py 217-223,
         pgm/cbpdn.py 348-354 *)
      Some (fun e => let rl1 := e TL1 in Some [e Lmbda * rl1; rl1])
  | KBPDNJoint | KConvBPDNJoint | KConvProdDictBPDNJoint =>
      (* admm/bpdn.py 578-586, admm/cbpdn.py 798-807, admm/pdcsc.py 278-287 *)
      Some (fun e => let rl1 := e TL1 in let rl21 := e TL21 in Some [e Lmbda * rl1 + e Mu * rl21; rl1; rl21])
  | KElasticNet | KConvElasticNet =>                          (* admm/bpdn.py 729-736, admm/cbpdn.py 979-986 *)
      Some (fun e => let rl1 := e TL1 in let rl2 := e TL2 in Some [e Lmbda * rl1 + e Mu * rl2; rl1; rl2])
  | KConvBPDNGradReg =>                                       (* admm/cbpdn.py 1205-1214 *)
      Some (fun e => let rl1 := e TL1 in let rgr := e TGrad in Some [e Lmbda * rl1 + e Mu * rgr; rl1; rgr])
  | KConvBPDNInhib =>                                         (* admm/cbpdnin.py 341-352 *)
      Some (fun e => let rl := e TL1 in let rm := e TLat in let rg := e TSelf in
                     Some [e Lmbda * rl + e Mu * rm + e Gamma * rg; rl; rm; rg])
  | KConvBPDNScalarTV | KConvBPDNVectorTV | KConvBPDNRecTV => (* admm/cbpdntv.py 439-446, 719-727, 1224-1232 *)
      Some (fun e => let rl1 := e TL1 in let rtv := e TTV in Some [e Lmbda * rl1 + e Mu * rtv; rl1; rtv])
  | _ => None
  end.

(** Method calls on an object of class [d]. *)
Definition call {A} (own : cls -> option (env -> option A)) (d : cls) (e : env) : option A :=
  match lookup 8 own d with Some f => f e | None => None end.

Notation "'let!' x ':=' a 'in' b" := (match a with Some x => b | None => None end) (at level 200, x name, right associativity).

(** eval_objfn as defined in class [c], run on an object of class [d]: (obj, dfd) + reg[1:] for the sparse coding classes
    (reg[0] of an empty tuple would raise). *)
Definition dfd_reg (d : cls) (e : env) : option (list R) :=
  let dfd := e TDfd in
  let! reg := call own_obfn_reg d e in
  match reg with [] => None | r0 :: rest => Some ([dfd + r0; dfd] ++ rest) end.

Definition own_eval_objfn (c : cls) : option (cls -> env -> option (list R)) :=
  match c with
  | KADMM | KADMMEqual | KADMMConsensus | KPGM =>             (* admm/admm.py 521-529, 907-915, 1620-1628, pgm/pgm.py 558-566 *)
      Some (fun _ e => let fval := e TF in let gval := e TG in Some [fval + gval; fval; gval])
  | KADMMTwoBlockCnstrnt =>                                   (* admm/admm.py 1267-1276 *)
      Some (fun d e => let fval := e TF in
                       let! g0val := call own_obfn_g0 d e in let! g1val := call own_obfn_g1 d e in
                       Some [fval + g0val + g1val; fval; g0val; g1val])
  | KGenericBPDN | KGenericConvBPDN | KConvBPDNScalarTV | KConvBPDNRecTV | KPgmBPDN | KPgmConvBPDN =>
      (* admm/bpdn.py 224-232, admm/cbpdn.py 325-333, admm/cbpdntv.py 416-424, 1201-1209, pgm/bpdn.py 205-213,
         pgm/cbpdn.py 322-330 *)
      Some dfd_reg
  | KBPDNProjL1 | KConvBPDNProjL1 =>                          (* admm/bpdn.py 906-914, admm/cbpdn.py 1385-1395 *)
      Some (fun _ e => Some [e TDfd; e TCns])
  | KMinL1InL2Ball => Some (fun _ e => Some [e TL1; e TCns])  (* admm/bpdn.py 1153-1166 *)
  | KConvTwoBlockCnstrnt =>                                   (* admm/cbpdn.py 1782-1790 *)
      Some (fun d e => let! g0v := call own_obfn_g0 d e in let! g1v := call own_obfn_g1 d e in
                       Some [g0v + g1v; g0v; g1v])
  | KConvMinL1InL2Ball =>                                     (* admm/cbpdn.py 2053-2060 *)
      Some (fun d e => let! g0v := call own_obfn_g0 d e in let! g1v := call own_obfn_g1 d e in Some [g1v; g0v])
  | KConvBPDNMaskDcpl =>                                      (* admm/cbpdn.py 2255-2263 *)
      Some (fun d e => let! g0v := call own_obfn_g0 d e in let! g1v := call own_obfn_g1 d e in
                       Some [g0v + e Lmbda * g1v; g0v; g1v])
  | KConvL1L1Grd =>                                           (* admm/cbpdn.py 2730-2740 *)
      Some (fun d e => let! g0v := call own_obfn_g0 d e in let! g1v := call own_obfn_g1 d e in
                       let rgr := e TGrad in
                       Some [g0v + e Lmbda * g1v + e Mu * rgr; g0v; g1v; rgr])
  | KConvCnstrMODBase | KConvCnstrMODConsensus | KCnstrMOD | KPgmConvCnstrMOD | KPgmCnstrMOD =>
      (* admm/ccmod.py 380-387, 861-868, admm/cmod.py 249-256, pgm/ccmod.py 349-356, pgm/cmod.py 196-203 *)
      Some (fun _ e => Some [e TDfd; e TCns])
  | KConvCnstrMODMaskDcplBase =>                              (* admm/ccmodmd.py 508-515 *)
      Some (fun d e => let! dfd := call own_obfn_g0 d e in let! cns := call own_obfn_g1 d e in Some [dfd; cns])
  | KGenericPPP | KPgmGenericPPP => Some (fun _ e => Some [e TF])   (* admm/ppp.py 70-78, pgm/ppp.py 77-85 *)
  | KGenericPPPConsensus => Some (fun _ _ => Some [])         (* admm/ppp.py 207-215 *)
  | KRobustPCA =>                                             (* admm/rpca.py 214-226 *)
      Some (fun _ e => let rnn := e TNuc in let rl1 := e TL1 in let cns := e TCns in
                       Some [rnn + e Lmbda * rl1; rnn; rl1; cns])
  | KSplineL1 =>                                              (* admm/spline.py 234-247 *)
      Some (fun _ e => let dfd := e TDfd in let reg := e TSpl in Some [dfd + e Lmbda * reg; dfd; reg])
  | KTVL1Denoise | KTVL1Deconv | KTVL2Denoise | KTVL2Deconv =>
      (* admm/tvl1.py 290-306, 674-690, admm/tvl2.py 281-296, 635-651 *)
      Some (fun _ e => let dfd := e TDfd in let reg := e TTV in Some [dfd + e Lmbda * reg; dfd; reg])
  | _ => None
  end.

Definition eval_objfn (d : cls) (e : env) : option (list R) :=
  match lookup 8 own_eval_objfn d with Some f => f d e | None => None end.

(** itstat_extra. *)
Definition own_itstat_extra (c : cls) : option (env -> list R) :=
  match c with
  | KADMM | KPGM => Some (fun _ => [])                        (* admm/admm.py 533-536, pgm/pgm.py 570-573 *)
  | KGenericBPDN | KGenericConvBPDN | KConvTwoBlockCnstrnt | KConvBPDNScalarTV | KConvBPDNRecTV | KConvCnstrMODBase
  | KConvCnstrMODConsensus | KConvCnstrMODMaskDcplBase | KSplineL1 | KTVL1Deconv | KTVL2Deconv =>
      (* admm/bpdn.py 254-257, admm/cbpdn.py 357-360, 1794-1797, admm/cbpdntv.py 450-453, 1236-1239, admm/ccmod.py 411-414,
         905-908, admm/ccmodmd.py 537-540, admm/spline.py 251-254, admm/tvl1.py 694-697, admm/tvl2.py 655-658 *)
      Some (fun e => [e AXrrs])
  | KConvCnstrMODCG | KConvCnstrMODMaskDcplCG =>              (* admm/ccmod.py 604-607, admm/ccmodmd.py 757-760 *)
      Some (fun e => [e AXrrs; e ACgit])
  | KTVL1Denoise | KTVL2Denoise =>                            (* admm/tvl1.py 310-313, admm/tvl2.py 300-303 *)
      Some (fun e => [e AGsit; e AGsrrs])
  | _ => None
  end.

(** A record: collections.namedtuple with the fields of the class (common.py 97-101); the class cannot be created with a
    repeated field name, and a record cannot be made from a tuple of another length. *)
Definition record := list (string * R).

Definition mk_record (fields : list string) (vals : list R) : option record :=
  if negb (Nat.eqb (length fields) (length vals)) then None else Some (combine fields vals).

(** getattr(itst, name); [None] is AttributeError. *)
Fixpoint getattr (r : record) (name : string) : option R :=
  match r with
  | [] => None
  | (f, v) :: r' => if String.eqb f name then Some v else getattr r' name
  end.

(** iteration_stats of the ADMM (admm/admm.py 511-517) and PGM (pgm/pgm.py 542-554) classes.  With the Monotone option PGM
    uses the tuple self.objfn, which is the value of eval_objfn at the iterate that was kept. *)
Definition iteration_stats (c : cls) (e : env) : option record :=
  let! objfn := eval_objfn c e in
  let alg := if is_sub 8 c KPGM then [e ARsdl; e AFbt; e AQbt; e AItbt; e AL]
             else [e ARsdlR; e ARsdlS; e AEpri; e AEdua; e ARho] in
  let! extra := match lookup 8 own_itstat_extra c with Some f => Some (f e) | None => None end in
  mk_record (itstat_fields c) ([e AK] ++ objfn ++ alg ++ extra ++ [e ATime]).

(** dict.update followed by lookup: the later entries win. *)
Fixpoint dget (d : list (string * string)) (k : string) : option string :=
  match d with
  | [] => None
  | (k', v) :: d' => match dget d' k with Some v' => Some v' | None => if String.eqb k k' then Some v else None end
  end.

(** hdrtxt and hdrval (admm/admm.py 491-507, pgm/pgm.py 520-538). *)
Definition hdrtxt (c : cls) : list string :=
  ["Itn"] ++ attr [] own_hdrtxt_objfn c
          ++ (if is_sub 8 c KPGM then ["Rsdl"; "F"; "Q"; "It_Bt"; "L"] else ["r"; "s"; "rho"]).

Definition hdrval (c : cls) : list (string * string) :=
  [("Itn", "Iter")] ++ attr [] own_hdrval_objfun c
          ++ (if is_sub 8 c KPGM
              then [("Rsdl", "Rsdl"); ("F", "F_Btrack"); ("Q", "Q_Btrack"); ("It_Bt", "IterBTrack"); ("L", "L")]
              else [("r", "PrimalRsdl"); ("s", "DualRsdl"); ("rho", "Rho")]).

Fixpoint sequence {A} (l : list (option A)) : option (list A) :=
  match l with
  | [] => Some []
  | None :: _ => None
  | Some a :: l' => let! r := sequence l' in Some (a :: r)
  end.

(** Python slice [0:-n]. *)
Definition drop_last {A} (n : nat) (l : list A) : list A := firstn (length l - n) l.

(** display_start and display_status (admm/admm.py 579-617, pgm/pgm.py 586-626): the header, and the values printed under
    it.  [full] is the option AutoRho Enabled for ADMM, and Backtrack not None for PGM. *)
Definition shown_header (c : cls) (full : bool) : list string :=
  if full then hdrtxt c else drop_last (if is_sub 8 c KPGM then 4 else 1) (hdrtxt c).

Definition shown_values (c : cls) (full : bool) (r : record) : option (list R) :=
  let! itdsp := sequence (map (fun col => let! f := dget (hdrval c) col in getattr r f) (hdrtxt c)) in
  Some (if full then itdsp else drop_last (if is_sub 8 c KPGM then 4 else 1) itdsp).

(** ** Dictionary learning: IterStatsConfig (dictlrn/dictlrn.py 29-158) *)

(** Values in these records: a number, the iteration number, or None. *)
Inductive val := VNum (x : R) | VNone.

Record isconfig := {
  isfld : list string;
  isxmap : list (string * string);
  isdmap : list (string * string);
  evlmap : list (string * string);
  ihdrtxt : list string;
  ihdrmap : list (string * string) }.

(** IterStatsConfig.iterstats (dictlrn.py 83-129): [evl] is the dict returned by the method evaluate, or None.  The
    result is [None] when an exception is raised: a missing attribute, a missing key, or subscripting None. *)
Definition istat_value (cfg : isconfig) (j t : R) (isx isd : record) (evl : option record) (fnm : string) : option val :=
  match dget (isxmap cfg) fnm with
  | Some g => let! v := getattr isx g in Some (VNum v)
  | None =>
      match dget (isdmap cfg) fnm with
      | Some g => let! v := getattr isd g in Some (VNum v)
      | None =>
          match dget (evlmap cfg) fnm with
          | Some _ => let! d := evl in let! v := getattr d fnm in Some (VNum v)
          | None => if String.eqb fnm "Iter" then Some (VNum j)
                    else if String.eqb fnm "Time" then Some (VNum t) else Some VNone
          end
      end
  end.

Definition iterstats (cfg : isconfig) (j t : R) (isx isd : record) (evl : option record)
  : option (list (string * val)) :=
  let! vlst := sequence (map (istat_value cfg j t isx isd evl) (isfld cfg)) in
  Some (combine (isfld cfg) vlst).

Fixpoint vgetattr (r : list (string * val)) (name : string) : option val :=
  match r with
  | [] => None
  | (f, v) :: r' => if String.eqb f name then Some v else vgetattr r' name
  end.

(** IterStatsConfig.printiterstats (dictlrn.py 148-158): the values printed; formatting None as a number raises. *)
Definition printed (cfg : isconfig) (itst : list (string * val)) : option (list R) :=
  sequence (map (fun col => let! f := dget (ihdrmap cfg) col in
                            let! v := vgetattr itst f in
                            match v with VNum x => Some x | VNone => None end) (ihdrtxt cfg)).

(** Methods of the convolutional dictionary learning classes (dictlrn/cbpdndl.py 31-39, 125-135, dictlrn/cbpdndlmd.py
    31-39, 129-139). *)
Inductive xmeth := XAdmm | XPgm.
Inductive dmeth := DIsm | DCg | DCns | DPgm.

Definition xclass (mask : bool) (m : xmeth) : cls :=
  match m, mask with
  | XAdmm, false => KConvBPDN | XPgm, false => KPgmConvBPDN
  | XAdmm, true => KConvBPDNMaskDcpl | XPgm, true => KPgmConvBPDNMask
  end.

Definition dclass (mask : bool) (m : dmeth) : cls :=
  match m, mask with
  | DIsm, false => KConvCnstrMODIterSM | DCg, false => KConvCnstrMODCG | DCns, false => KConvCnstrMODConsensus
  | DPgm, false => KPgmConvCnstrMOD
  | DIsm, true => KConvCnstrMODMaskDcplIterSM | DCg, true => KConvCnstrMODMaskDcplCG
  | DCns, true => KConvCnstrMODMaskDcplConsensus | DPgm, true => KPgmConvCnstrMODMask
  end.

(** dictlrn/common.py 19-133. *)
Definition c_evlmap (accdfid : bool) : list (string * string) :=
  if accdfid then [("ObjFun", "ObjFun"); ("DFid", "DFid"); ("RegL1", "RegL1")] else [].

Definition c_isxmap (x : xmeth) (accdfid : bool) : list (string * string) :=
  (match x with
   | XAdmm => [("XPrRsdl", "PrimalRsdl"); ("XDlRsdl", "DualRsdl"); ("XRho", "Rho")]
   | XPgm => [("X_F_Btrack", "F_Btrack"); ("X_Q_Btrack", "Q_Btrack"); ("X_ItBt", "IterBTrack"); ("X_L", "L");
              ("X_Rsdl", "Rsdl")]
   end) ++ (if accdfid then [] else c_evlmap true).

Definition c_isdmap (d : dmeth) : list (string * string) :=
  match d with
  | DPgm => [("Cnstr", "Cnstr"); ("D_F_Btrack", "F_Btrack"); ("D_Q_Btrack", "Q_Btrack"); ("D_ItBt", "IterBTrack");
             ("D_L", "L"); ("D_Rsdl", "Rsdl")]
  | _ => [("Cnstr", "Cnstr"); ("DPrRsdl", "PrimalRsdl"); ("DDlRsdl", "DualRsdl"); ("DRho", "Rho")]
  end.

(** [btx], [btd]: opt['CBPDN', 'Backtrack'] and opt['CCMOD', 'Backtrack'] are not None. *)
Definition c_isfld (x : xmeth) (d : dmeth) (btx btd : bool) : list string :=
  ["Iter"; "ObjFun"; "DFid"; "RegL1"; "Cnstr"]
  ++ (match x with
      | XAdmm => ["XPrRsdl"; "XDlRsdl"; "XRho"]
      | XPgm => if btx then ["X_F_Btrack"; "X_Q_Btrack"; "X_ItBt"; "X_L"; "X_Rsdl"] else ["X_L"; "X_Rsdl"]
      end)
  ++ (match d with
      | DPgm => if btd then ["D_F_Btrack"; "D_Q_Btrack"; "D_ItBt"; "D_L"; "D_Rsdl"] else ["D_L"; "D_Rsdl"]
      | _ => ["DPrRsdl"; "DDlRsdl"; "DRho"]
      end)
  ++ ["Time"].

Definition c_hdrtxt (x : xmeth) (d : dmeth) (btx btd : bool) : list string :=
  ["Itn"; "Fnc"; "DFid"; "l1"; "Cnstr"]
  ++ (match x with
      | XAdmm => ["r_X"; "s_X"; "rho_X"]
      | XPgm => if btx then ["F_X"; "Q_X"; "It_X"; "L_X"] else ["L_X"]
      end)
  ++ (match d with
      | DPgm => if btd then ["F_D"; "Q_D"; "It_D"; "L_D"] else ["L_D"]
      | _ => ["r_D"; "s_D"; "rho_D"]
      end).

Definition c_hdrmap (x : xmeth) (d : dmeth) (btx btd : bool) : list (string * string) :=
  [("Itn", "Iter"); ("Fnc", "ObjFun"); ("DFid", "DFid"); ("l1", "RegL1"); ("Cnstr", "Cnstr")]
  ++ (match x with
      | XAdmm => [("r_X", "XPrRsdl"); ("s_X", "XDlRsdl"); ("rho_X", "XRho")]
      | XPgm => if btx then [("F_X", "X_F_Btrack"); ("Q_X", "X_Q_Btrack"); ("It_X", "X_ItBt"); ("L_X", "X_L")]
                else [("L_X", "X_L")]
      end)
  ++ (match d with
      | DPgm => if btd then [("F_D", "D_F_Btrack"); ("Q_D", "D_Q_Btrack"); ("It_D", "D_ItBt"); ("L_D", "D_L")]
                else [("L_D", "D_L")]
      | _ => [("r_D", "DPrRsdl"); ("s_D", "DDlRsdl"); ("rho_D", "DRho")]
      end).

(** ConvBPDNDictLearn / ConvBPDNMaskDictLearn (dictlrn/cbpdndl.py 465-471, dictlrn/cbpdndlmd.py 489-495). *)
Definition cbpdndl_config (x : xmeth) (d : dmeth) (btx btd acc : bool) : isconfig :=
  {| isfld := c_isfld x d btx btd; isxmap := c_isxmap x acc; isdmap := c_isdmap d; evlmap := c_evlmap acc;
     ihdrtxt := c_hdrtxt x d btx btd; ihdrmap := c_hdrmap x d btx btd |}.

(** BPDNDictLearn (dictlrn/bpdndl.py 166-188). *)
Definition bpdndl_config (acc : bool) : isconfig :=
  {| isfld := ["Iter"; "ObjFun"; "DFid"; "RegL1"; "Cnstr"; "XPrRsdl"; "XDlRsdl"; "XRho"; "DPrRsdl"; "DDlRsdl"; "DRho";
               "Time"];
     isxmap := (if acc then [] else c_evlmap true)
               ++ [("XPrRsdl", "PrimalRsdl"); ("XDlRsdl", "DualRsdl"); ("XRho", "Rho")];
     isdmap := [("Cnstr", "Cnstr"); ("DPrRsdl", "PrimalRsdl"); ("DDlRsdl", "DualRsdl"); ("DRho", "Rho")];
     evlmap := c_evlmap acc;
     ihdrtxt := ["Itn"; "Fnc"; "DFid"; "l1"; "Cnstr"; "r_X"; "s_X"; "rho_X"; "r_D"; "s_D"; "rho_D"];
     ihdrmap := [("Itn", "Iter"); ("Fnc", "ObjFun"); ("DFid", "DFid"); ("l1", "RegL1"); ("Cnstr", "Cnstr");
                 ("r_X", "XPrRsdl"); ("s_X", "XDlRsdl"); ("rho_X", "XRho"); ("r_D", "DPrRsdl"); ("s_D", "DDlRsdl");
                 ("rho_D", "DRho")] |}.

(** WeightedBPDNDictLearn (dictlrn/wbpdndl.py 174-192). *)
Definition wbpdndl_config (acc : bool) : isconfig :=
  {| isfld := ["Iter"; "ObjFun"; "DFid"; "RegL1"; "Cnstr"; "XRsdl"; "XL"; "DRsdl"; "DL"; "Time"];
     isxmap := (if acc then [] else c_evlmap true) ++ [("XRsdl", "Rsdl"); ("XL", "L")];
     isdmap := [("Cnstr", "Cnstr"); ("DRsdl", "Rsdl"); ("DL", "L")];
     evlmap := c_evlmap acc;
     ihdrtxt := ["Itn"; "Fnc"; "DFid"; "l1"; "Cnstr"; "X_Rsdl"; "X_L"; "D_Rsdl"; "D_L"];
     ihdrmap := [("Itn", "Iter"); ("Fnc", "ObjFun"); ("DFid", "DFid"); ("l1", "RegL1"); ("Cnstr", "Cnstr");
                 ("X_Rsdl", "XRsdl"); ("X_L", "XL"); ("D_Rsdl", "DRsdl"); ("D_L", "DL")] |}.

(** The default configuration of DictLearn (dictlrn/dictlrn.py 260-276). *)
Definition dictlrn_config : isconfig :=
  {| isfld := ["Iter"; "ObjFunX"; "XPrRsdl"; "XDlRsdl"; "XRho"; "ObjFunD"; "DPrRsdl"; "DDlRsdl"; "DRho"; "Time"];
     isxmap := [("ObjFunX", "ObjFun"); ("XPrRsdl", "PrimalRsdl"); ("XDlRsdl", "DualRsdl"); ("XRho", "Rho")];
     isdmap := [("ObjFunD", "DFid"); ("DPrRsdl", "PrimalRsdl"); ("DDlRsdl", "DualRsdl"); ("DRho", "Rho")];
     evlmap := [];
     ihdrtxt := ["Itn"; "FncX"; "r_X"; "s_X"; "rho_X"; "FncD"; "r_D"; "s_D"; "rho_D"];
     ihdrmap := [("Itn", "Iter"); ("FncX", "ObjFunX"); ("r_X", "XPrRsdl"); ("s_X", "XDlRsdl"); ("rho_X", "XRho");
                 ("FncD", "ObjFunD"); ("r_D", "DPrRsdl"); ("s_D", "DDlRsdl"); ("rho_D", "DRho")] |}.

(** The record of a sub-problem solver used by DictLearn.solve (dictlrn.py 345-350): the last record of the solver, or
    zeros if it has none (option FastSolve). *)
Definition last_record (c : cls) (itstat : list record) : option record :=
  match rev itstat with
  | r :: _ => Some r
  | [] => mk_record (itstat_fields c) (repeat 0 (length (itstat_fields c)))
  end.

(** The method evaluate (dictlrn/bpdndl.py 195-206, cbpdndl.py 502-524, cbpdndlmd.py 525-540, wbpdndl.py 199-212): a dict
    with three entries when the option AccurateDFid is set at the time of the call, None otherwise. *)
Definition evaluate (accnow : bool) (dfd rl1 lmbda : R) : option record :=
  if accnow then Some [("DFid", dfd); ("RegL1", rl1); ("ObjFun", dfd + lmbda * rl1)] else None.

(** One record of DictLearn.solve (dictlrn.py 337-352) for sub-problem solvers of classes [cx], [cd]. *)
Definition dl_record (cfg : isconfig) (cx cd : cls) (j t : R) (xs ds : list record) (evl : option record)
  : option (list (string * val)) :=
  let! isx := last_record cx xs in
  let! isd := last_record cd ds in
  iterstats cfg j t isx isd evl.

(** ** Online dictionary learning (dictlrn/onlinecdl.py 113-119, 354-402, 440-450) *)

Definition online_fields : list string :=
  ["Iter"] ++ ["ObjFun"; "DFid"; "RegL1"] ++ ["PrimalRsdl"; "DualRsdl"; "Rho"; "Cnstr"; "DeltaD"; "Eta"] ++ [] ++ ["Time"].

(** [xst] is the last record of the sparse coding solver, None with the CUDA solver or with FastSolve. *)
Definition online_stats (j : R) (xst : option record) (cnstr dltd eta tk : R) : option record :=
  let! v := match xst with
            | None => Some (repeat 0 3 ++ repeat 0 2 ++ [0])
            | Some r => sequence (map (getattr r) ["ObjFun"; "DFid"; "RegL1"; "PrimalRsdl"; "DualRsdl"; "Rho"])
            end in
  mk_record online_fields ([j] ++ v ++ [cnstr; dltd; eta] ++ [] ++ [tk]).

Definition online_hdrtxt : list string := ["Itn"; "X r"; "X s"; "X rho"; "D cnstr"; "D dlt"; "D eta"].
Definition online_hdrval : list (string * string) :=
  [("Itn", "Iter"); ("X r", "PrimalRsdl"); ("X s", "DualRsdl"); ("X rho", "Rho"); ("D cnstr", "Cnstr");
   ("D dlt", "DeltaD"); ("D eta", "Eta")].

Definition online_shown (r : record) : option (list R) :=
  sequence (map (fun col => let! f := dget online_hdrval col in getattr r f) online_hdrtxt).

(** ** Parallel consensus dictionary learning (dictlrn/prlcnscdl.py 423-425, 541, 570-575, 978-980, 1107, 1136-1141) *)

Definition prl_fields : list string := ["Iter"; "ObjFun"; "DFid"; "RegL1"; "Time"].
Definition prl_hdrtxt : list string := ["Itn"; "Fnc"; "DFid"; "Regl1"].
Definition prl_record (j dfd rl1 lmbda tk : R) : option record :=
  mk_record prl_fields ([j] ++ [dfd + lmbda * rl1; dfd; rl1] ++ [tk]).
(** print(fmtstr % itst[:-1]) *)
Definition prl_shown (r : record) : list R := drop_last 1 (map snd r).
