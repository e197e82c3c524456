-Q theories Verif
theories/Base.v
theories/BaseProofs.v
theories/WriteAll.v
theories/Types.v
theories/Repr.v
theories/WfTypes.v
theories/WfTypesProofs.v
theories/ReprSpec.v
theories/ReprProofs.v
theories/ReprPtr.v
theories/ReprTy.v
theories/ReprTy2.v
theories/ReprTy3.v
theories/Enums.v
theories/EnumsProofs.v
theories/LayoutProofs.v
theories/ReprMore.v
theories/ExRepr.v
theories/PropsRepr.v
theories/Mem.v
theories/BasicMem.v
theories/IntPtrCast.v
theories/MemSpec.v
theories/BasicMemProofs.v
theories/TreeBorrows.v
theories/TreeLike.v
theories/ExMem.v
theories/PropsMem.v
theories/TreeSpec.v
theories/TreeProofs.v
theories/TreeSteps.v
theories/TreeAlias.v
theories/TreeGuard.v
theories/TreeRefine.v
theories/TreeMore.v
theories/TreeFrames.v
theories/TreeMask.v
theories/ExTree.v
theories/Syntax.v
theories/IntOps.v
theories/ConcMem.v
theories/WfProg.v
theories/Machine.v
theories/Step.v
theories/OpsSpec.v
theories/OpsProofs.v
theories/AccessProofs.v
theories/ExMach.v
theories/PropsOps.v
theories/Wp.v
theories/EvalRel.v
theories/MachCtl.v
theories/CtlStep.v
theories/StopProofs.v
theories/MachSpec.v
theories/SchedProofs.v
theories/EndProofs.v
theories/UnwindProofs.v
theories/OutSpec.v
theories/OutProofs.v
theories/SyncProofs.v
theories/RaceSpec.v
theories/RaceProofs.v
theories/ExSched.v
theories/AbiSpec.v
theories/AbiProofs.v
theories/PropsMach.v
theories/OwnProofs.v
theories/OwnInv.v
theories/OwnSpec.v
theories/OwnNew.v
theories/StepAt.v
theories/OwnReach.v
theories/PropsOwn.v
theories/Chunks.v
theories/ChunksSpec.v
theories/ChunksProofs.v
theories/PropsChunks.v
theories/ValueSpec.v
theories/ValueProofs.v
theories/PropsValue.v
theories/ProvVal.v
theories/SafeMem.v
theories/SafeSpec.v
theories/SafeMach.v
theories/SafeTy.v
theories/SafeVal.v
theories/SafeEval.v
theories/StepSpec.v
theories/SafeFrame.v
theories/SafeStmt.v
theories/SafeCall.v
theories/SafeIntr.v
theories/SafeTerm.v
theories/SafeStep.v
theories/SafeStart.v
theories/ProgressSpec.v
theories/SafeProg.v
theories/StrictCheck.v
theories/ExSafe.v
theories/PropsSafe.v
theories/DataSpec.v
theories/DataProofs.v
theories/FlowProofs.v
theories/ExprSpec.v
theories/ExprProofs.v
theories/MeanProofs.v
theories/ExData.v
theories/PropsData.v
theories/ActProofs.v
theories/ExprDefined.v
theories/PropsExpr.v
theories/SimSpec.v
theories/SimRepr.v
theories/SimStep.v
theories/SimMach.v
theories/SimInst.v
theories/SimRun.v
theories/ExSim.v
theories/PropsSim.v
theories/Build.v
theories/BuildSpec.v
theories/BuildProofs.v
theories/BuildTotal.v
theories/PlanSpec.v
theories/PlanProofs.v
theories/BuildWfSpec.v
theories/BuildWf.v
theories/BuildExpr.v
theories/ExBuild.v
theories/PropsBuild.v
theories/LiveSpec.v
theories/LiveProofs.v
theories/PropsLive.v
theories/UbSpec.v
theories/UbTyped.v
theories/UbProofs.v
theories/UbTerm.v
theories/UbIntr.v
theories/UbStep.v
theories/PropsUb.v
theories/Mir.v
theories/Mini.v
theories/MirSpec.v
theories/MiniSpec.v
theories/MiniWf.v
theories/MiniExpr.v
theories/MiniRv.v
theories/MiniTerm.v
theories/MiniBody.v
theories/MiniProg.v
theories/MiniNames.v
theories/ExMini.v
theories/ExMiniBad.v
theories/PropsMini.v
theories/MirMeans.v
theories/MirMeanProofs.v
theories/MirRvMeans.v
theories/MirCode.v
theories/MirCodeProofs.v
theories/MirTermProofs.v
theories/MirBodyProofs.v
theories/PropsMir.v
theories/MirRunSpec.v
theories/MirRunProofs.v
theories/PropsRun.v
theories/MirTy.v
theories/MirTySpec.v
theories/MirTyProofs.v
theories/MirTyEnum.v
theories/MirTyWf.v
theories/PropsTy.v
theories/Run.v
theories/RunSpec.v
theories/IllProofs.v
theories/RunProofs.v
theories/PropsCli.v
theories/CheckSpec.v
theories/CheckProofs.v
theories/PropsCheck.v
theories/Pretty.v
theories/PrettySpec.v
theories/PrettyRead.v
theories/PrettyTexts.v
theories/PrettyExprs.v
theories/PrettyBack.v
theories/PrettyStmts.v
theories/PrettyTable.v
theories/PrettyLoop.v
theories/PrettyGives.v
theories/PrettyWf.v
theories/PrettyOrder.v
theories/PrettyAlike.v
theories/PrettyProg.v
theories/PropsPretty.v
theories/XSim.v
theories/DropSpec.v
theories/TreeDrop.v
theories/TreeSwap.v
theories/PropsTB.v
theories/ReadExpr.v
theories/PropsDrop.v
theories/TwiceSpec.v
theories/ReadTwice.v
theories/PropsTwice.v
theories/SessionSpec.v
theories/SessionProofs.v
theories/PropsSession.v
theories/Minimize.v
theories/MinimizeSpec.v
theories/MinimizeProofs.v
theories/PropsMinimize.v
theories/AliasSpec.v
theories/AliasProofs.v
theories/PropsAlias.v
theories/HistSpec.v
theories/HistProofs.v
theories/FrameHist.v
theories/HistTree.v
theories/HistEntry.v
theories/PropsHist.v
theories/KeepSpec.v
theories/HistLive.v
theories/PropsKeep.v
