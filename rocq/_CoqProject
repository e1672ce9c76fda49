-Q theories Verif
theories/CdictModel.v
theories/CdictSpec.v
theories/CdictProofs.v
theories/CdictProps.v
theories/TimerModel.v
theories/TimerSpec.v
theories/TimerProofs.v
theories/TimerProps.v
theories/NetModel.v
theories/NetProofs.v
theories/NetProps.v
theories/GridModel.v
theories/GridSpec.v
theories/GridProofs.v
theories/GridProps.v
theories/OptShareModel.v
theories/OptShareProofs.v
theories/OptShareProps.v
theories/InitModel.v
theories/InitProofs.v
theories/InitProps.v
theories/SolveModel.v
theories/SolveSpec.v
theories/SolveProofs.v
theories/SolveTimers.v
theories/SolveProps.v
theories/RhoModel.v
theories/RhoProofs.v
theories/RhoProps.v
theories/RVec.v
theories/ProxModel.v
theories/ProxSpec.v
theories/ProxProofs.v
theories/ProxProps.v
theories/L1ProjModel.v
theories/L1ProjProofs.v
theories/L1ProjProps.v
theories/LinSolveModel.v
theories/LinSolveSpec.v
theories/LinSolveProofs.v
theories/LinSolveProps.v
theories/NdIndex.v
theories/ArrayModel.v
theories/ArraySpec.v
theories/ArrayProofs.v
theories/ArrayProps.v
theories/NdSum.v
theories/SignalModel.v
theories/SignalProofs.v
theories/SignalProps.v
theories/Cplx.v
theories/FftModel.v
theories/FftProofs.v
theories/FftProps.v
theories/CnvrepModel.v
theories/CnvrepProps.v
theories/PcnModel.v
theories/PcnSpec.v
theories/PcnProofs.v
theories/PcnProps.v
theories/AdmmModel.v
theories/AdmmSpec.v
theories/AdmmProofs.v
theories/AdmmConv.v
theories/AdmmProps.v
theories/NucModel.v
theories/NucSpec.v
theories/NucProofs.v
theories/NucProps.v
theories/StepsModel.v
theories/StepsSpec.v
theories/StepsProofs.v
theories/StepsProofs2.v
theories/StepsProps.v
theories/PgmModel.v
theories/PgmSpec.v
theories/PgmProofs.v
theories/PgmRate.v
theories/PgmProps.v
theories/PgmConvModel.v
theories/PgmConvSpec.v
theories/PgmConvProofs.v
theories/PgmConvProps.v
theories/FlatModel.v
theories/FlatSpec.v
theories/FlatProofs.v
theories/FlatProps.v
theories/CproxModel.v
theories/CproxProps.v
theories/InterpModel.v
theories/InterpSpec.v
theories/InterpProofs.v
theories/InterpProps.v
theories/MetricModel.v
theories/MetricProps.v
theories/TileModel.v
theories/TileProps.v
theories/StatusModel.v
theories/StatusProps.v
theories/BndryModel.v
theories/BndryProps.v
theories/FiltModel.v
theories/FiltProofs.v
theories/FiltProps.v
theories/StatsModel.v
theories/StatsSpec.v
theories/StatsProps.v
theories/StatsDlProps.v
theories/OptMutModel.v
theories/OptMutProps.v
theories/CacheModel.v
theories/CacheProps.v
theories/InterModel.v
theories/InterProofs.v
theories/ParModel.v
theories/ParProofs.v
theories/ParSpec.v
theories/ParSem.v
theories/ParIter.v
theories/ParOpt.v
theories/ParLoop.v
theories/ParObjModel.v
theories/ParRefute.v
theories/ParProps.v
theories/AssignModel.v
theories/AssignProofs.v
theories/PrlCnsModel.v
theories/PrlCnsProofs.v
theories/PrlCnsProps.v
theories/DlModel.v
theories/DlProps.v
theories/OnlineModel.v
theories/OnlineSpec.v
theories/OnlineProofs.v
theories/OnlineProps.v
theories/FftInv.v
theories/CscModel.v
theories/CscSpec.v
theories/CscProofs.v
theories/CscProps.v
theories/CscIterModel.v
theories/CscIterProofs.v
theories/CscIterProps.v
theories/CscTwoModel.v
theories/CscTwoProofs.v
theories/CscTwoProps.v
theories/Compact.v
theories/AdmmLimit.v
theories/LimitProofs.v
theories/Lagrange.v
theories/LimitTwo.v
theories/LimitMinl1.v
theories/LimitProps.v
theories/DualProofs.v
theories/SplitConv.v
theories/TvdModel.v
theories/TvdSpec.v
theories/TvdFourier.v
theories/TvdProofs.v
theories/TvdSteps.v
theories/TvdObj.v
theories/TvdProps.v
theories/CtvModel.v
theories/CtvSpec.v
theories/CtvFreq.v
theories/CtvObj.v
theories/CtvProps.v
theories/StepSzProps.v
theories/AmsModel.v
theories/AmsProofs.v
theories/AmsProps.v
theories/GrdModel.v
theories/GrdProps.v
theories/CcmModel.v
theories/CcmSpec.v
theories/CcmProofs.v
theories/CcmFit.v
theories/CcmProps.v
theories/RtvModel.v
theories/RtvSpec.v
theories/RtvProofs.v
theories/RtvObj.v
theories/RtvProps.v
theories/MduModel.v
theories/MduSpec.v
theories/MduProofs.v
theories/MduProps.v
theories/PgnModel.v
theories/PgnSpec.v
theories/PgnProofs.v
theories/PgnProps.v
theories/PdcModel.v
theories/PdcSpec.v
theories/PdcProofs.v
theories/PdcProps.v
theories/PdgModel.v
theories/PdgSpec.v
theories/PdgProofs.v
theories/PdgProps.v
theories/PppModel.v
theories/PppSpec.v
theories/PppProofs.v
theories/PppProps.v
theories/SplModel.v
theories/SplSpec.v
theories/SplProofs.v
theories/SplProps.v
theories/RpcModel.v
theories/RpcSpec.v
theories/RpcProofs.v
theories/RpcProps.v
theories/JacProofs.v
theories/TdnModel.v
theories/TdnSpec.v
theories/TdnProofs.v
theories/TdnProps.v
theories/InhModel.v
theories/InhSpec.v
theories/InhProofs.v
theories/InhProps.v
theories/CmdModel.v
theories/CmdSpec.v
theories/CmdProofs.v
theories/CmdProps.v
theories/KpsModel.v
theories/KpsSpec.v
theories/KpsProofs.v
theories/KpsProps.v
theories/AliModel.v
theories/AliSpec.v
theories/AliProofs.v
theories/AliProps.v
theories/RateModel.v
theories/RateSpec.v
theories/RateProofs.v
theories/RateProps.v
theories/ParLimSpec.v
theories/ParLimProofs.v
theories/ParLimProps.v
theories/RecModel.v
theories/RecSpec.v
theories/RecProofs.v
theories/RecProps.v
theories/CgModel.v
theories/CgSpec.v
theories/CgProofs.v
theories/CgProps.v
theories/PiniModel.v
theories/PiniSpec.v
theories/PiniProofs.v
theories/PiniProps.v
theories/SynModel.v
theories/SynSpec.v
theories/SynProps.v
theories/PerModel.v
theories/PerSpec.v
theories/PerProofs.v
theories/PerProps.v
theories/VadModel.v
theories/VadSpec.v
theories/VadProps.v
theories/InnModel.v
theories/InnSpec.v
theories/InnProps.v
theories/AhlModel.v
theories/AhlSpec.v
theories/AhlProps.v
theories/DmsModel.v
theories/DmsSpec.v
theories/DmsProps.v
theories/P16Model.v
theories/P16Props.v
