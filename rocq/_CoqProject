-Q theories Verif
theories/QComplex.v
theories/QState.v
theories/OpsModel.v
theories/GateSpec.v
theories/GateFacts.v
theories/ModifierModel.v
theories/ModifierOps.v
theories/ModifierProofs.v
theories/ModifierBody.v
theories/ModifierMain.v
theories/ModifierProps.v
theories/QSysSpec.v
theories/QSysModel.v
theories/QSysProofs.v
theories/QSysProgs.v
theories/QSysMain.v
theories/QSysProps.v
theories/PQueueSpec.v
theories/PQueueModel.v
theories/PQueueProofs.v
theories/SearchSpec.v
theories/SearchModel.v
theories/SearchProofs.v
theories/SearchOptimal.v
theories/SearchMain.v
theories/SearchProps.v
theories/CostSpec.v
theories/CostModel.v
theories/CostProofs.v
theories/StrategySpec.v
theories/StrategyModel.v
theories/StrategyProofs.v
theories/EccModel.v
theories/EccProofs.v
theories/StrategyMain.v
theories/StrategyProps.v
theories/ChunksSpec.v
theories/ChunksModel.v
theories/ChunksProofs.v
theories/ChunksExtract.v
theories/ChunksGroups.v
theories/ChunksMain.v
theories/ChunksProps.v
theories/CommModel.v
theories/CommSpec.v
theories/CommAlg.v
theories/CommProofs.v
theories/CommSlices.v
theories/CommPass.v
theories/CommMain.v
theories/CommProps.v
theories/BadgerSpec.v
theories/BadgerModel.v
theories/BadgerProofs.v
theories/BadgerTerm.v
theories/BadgerMain.v
theories/BadgerProps.v
theories/BorrowSpec.v
theories/BorrowModel.v
theories/BorrowGraph.v
theories/BorrowSol.v
theories/BorrowElide.v
theories/BorrowScan.v
theories/BorrowPass.v
theories/BorrowMain.v
theories/BorrowProps.v
theories/TopoSpec.v
theories/TopoModel.v
theories/TopoProofs.v
theories/HashSpec.v
theories/HashModel.v
theories/HashProofs.v
theories/HashThm.v
theories/HashMain.v
theories/HashProps.v
theories/CmdSpec.v
theories/CmdModel.v
theories/CmdOrder.v
theories/CmdUnits.v
theories/CmdMain.v
theories/CmdProps.v
theories/EncSpec.v
theories/EncModel.v
theories/EncFacts.v
theories/EncInv.v
theories/EncStep.v
theories/EncProofs.v
theories/EncCases.v
theories/EncMain.v
theories/EncProps.v
theories/PermModel.v
theories/PermSpec.v
theories/PermProofs.v
theories/PermMain.v
theories/PermProps.v
theories/ScopeModel.v
theories/ScopeSpec.v
theories/ScopeProofs.v
theories/ScopeCases.v
theories/ReachProofs.v
theories/IntervalModel.v
theories/IntervalSpec.v
theories/IntervalProofs.v
theories/ScopeMain.v
theories/ScopeProps.v
theories/ParamModel.v
theories/ParamSpec.v
theories/ParamProofs.v
theories/ParamPeg.v
theories/ParamTotal.v
theories/ParamLoad.v
theories/ParamFine.v
theories/ParamNumbers.v
theories/ParamMain.v
theories/ParamProps.v
theories/ResolveModel.v
theories/ResolveSpec.v
theories/ResolveWire.v
theories/ResolvePorts.v
theories/ResolveProofs.v
theories/ResolveMain.v
theories/ResolveProps.v
theories/UnpackModel.v
theories/UnpackSpec.v
theories/UnpackProofs.v
theories/UnpackRev.v
theories/UnpackMain.v
theories/UnpackProps.v
theories/LazyModel.v
theories/LazySpec.v
theories/LazyProofs.v
theories/LazyMain.v
theories/LazyProps.v
theories/DecSpec.v
theories/DecModel.v
theories/DecProofs.v
theories/DecStep.v
theories/DecFull.v
theories/DecClSpec.v
theories/DecLinear.v
theories/DecTyped.v
theories/DecTotal.v
theories/DecTables.v
theories/DecMain.v
theories/DecProps.v
theories/PatSpec.v
theories/PatProofs.v
theories/PatModel.v
theories/PatRewrite.v
theories/PatMatch.v
theories/PatInterp.v
theories/PatCheck.v
theories/PatExamples.v
theories/PatMain.v
theories/PatProps.v
theories/TupModel.v
theories/TupSpec.v
theories/TupProofs.v
theories/TupSim.v
theories/TupLoop.v
theories/TupMain.v
theories/TupProps.v
theories/EwModel.v
theories/EwSpec.v
theories/EwProofs.v
theories/EwSim.v
theories/EwReduce.v
theories/EwRewriter.v
theories/EwMain.v
theories/EwProps.v
theories/OpqModel.v
theories/OpqSpec.v
theories/OpqProofs.v
theories/OpqProofs2.v
theories/OpqMain.v
theories/OpqProps.v
theories/DfgModel.v
theories/DfgSpec.v
theories/DfgProofs.v
theories/DfgProofs2.v
theories/DfgProofs3.v
theories/DfgProofs4.v
theories/DfgProofs5.v
theories/DfgProofs6.v
theories/DfgProofs7.v
theories/DfgSem.v
theories/DfgProofs8.v
theories/DfgMain.v
theories/DfgProps.v
theories/GlobModel.v
theories/GlobSpec.v
theories/GlobProofs.v
theories/LlvmModel.v
theories/LlvmSpec.v
theories/LlvmProofs.v
theories/LlvmSafe.v
theories/LlvmGlue.v
theories/GpuModel.v
theories/GpuSpec.v
theories/GpuProofs.v
theories/LlvmMain.v
theories/LlvmProps.v
theories/ExprModel.v
theories/ExprSpec.v
theories/ExprProofs.v
theories/ExprProofs2.v
theories/ExprProofs3.v
theories/ExprCases.v
theories/ExprMain.v
theories/ExprProps.v
theories/StatModel.v
theories/StatSpec.v
theories/StatProofs.v
theories/StatProofs2.v
theories/StatMain.v
theories/StatProps.v
theories/CleanModel.v
theories/CleanSpec.v
theories/CleanProofs.v
theories/CleanProofs2.v
theories/CleanProofs3.v
theories/CleanMain.v
theories/CleanProps.v
theories/QtzModel.v
theories/QtzSpec.v
theories/QtzProofs.v
theories/QtzProofs2.v
theories/QtzMain.v
theories/QtzProps.v
theories/ArrModel.v
theories/ArrSpec.v
theories/ArrProofs.v
theories/ArrMain.v
theories/ArrProps.v
theories/CfgModel.v
theories/CfgSpec.v
theories/CfgProofs.v
theories/CfgProofs2.v
theories/CfgProofs3.v
theories/CfgMain.v
theories/CfgProps.v
theories/MovModel.v
theories/MovSpec.v
theories/MovProofs.v
theories/MovProofs2.v
theories/MovProofs3.v
theories/MovMain.v
theories/MovProps.v
theories/AresModel.v
theories/AresSpec.v
theories/AresProofs.v
theories/AresMain.v
theories/AresProps.v
theories/PipeModel.v
theories/PipeSpec.v
theories/PipeProofs.v
theories/PipeMain.v
theories/PipeProps.v
theories/CompModel.v
theories/CompSpec.v
theories/CompProofs.v
theories/CompMain.v
theories/CompProps.v
theories/TraceModel.v
theories/TraceSpec.v
theories/TraceProofs.v
theories/TraceMain.v
theories/TraceProps.v
theories/XdfgModel.v
theories/XdfgSpec.v
theories/XdfgProofs.v
theories/XdfgMain.v
theories/XdfgProps.v
theories/DeclModel.v
theories/DeclSpec.v
theories/DeclMain.v
theories/DeclProps.v
theories/NormModel.v
theories/NormSpec.v
theories/NormMain.v
theories/NormProps.v
