-Q theories Verif
theories/Base.v
theories/Model.v
theories/BaseFacts.v
theories/Graph.v
theories/Record.v
theories/Spec.v
theories/RecordFacts.v
theories/Replay.v
theories/ReplayStep.v
theories/ReplayExec.v
theories/History.v
theories/Session.v
theories/Sweep.v
theories/SpecGraph.v
theories/Marks.v
theories/FreshAdj.v
theories/Dual.v
theories/TlmSweep.v
theories/DualAll.v
theories/Linear.v
theories/RealInst.v
theories/Calculus.v
theories/Gradient.v
theories/SpecHess.v
theories/HessFacts.v
theories/HessSweep.v
theories/HessExact.v
theories/Surgery.v
theories/Optimize.v
theories/OptimizeRun.v
theories/TapeFacts.v
theories/TapeMore.v
theories/TapeCopy.v
theories/Coll.v
theories/SpecColl.v
theories/CollFacts.v
theories/Proc.v
theories/ProcFacts.v
theories/RFull.v
theories/RFullFacts.v
theories/Instances.v
theories/Iso.v
theories/SpecTape.v
theories/TapeRecord.v
theories/IsoRecord.v
theories/SpecPlain.v
theories/Observe.v
theories/Over.v
theories/OverFacts.v
theories/Opt.v
theories/SpecOpt.v
theories/OptFacts.v
theories/Solvers.v
theories/SpecSolvers.v
theories/SolverFacts.v
theories/Taylor.v
theories/SpecTaylor.v
theories/TaylorFacts.v
theories/Ckpt.v
theories/SpecCkpt.v
theories/CkptProtocol.v
theories/CkptRecord.v
theories/CkptStep.v
theories/CkptInv.v
theories/CkptTape.v
theories/CkptEval.v
theories/CkptCall.v
theories/CkptAdj.v
theories/CkptGrad.v
theories/CkptGlob.v
theories/CkptStored.v
theories/Props_Replay.v
theories/Props_Derivative.v
theories/Props_Linear.v
theories/Props_Calculus.v
theories/Props_Hessian.v
theories/Props_Tape.v
theories/Props_Collections.v
theories/Props_Interface.v
theories/Props_Recording.v
theories/Props_Optimization.v
theories/Props_Taylor.v
theories/Props_Checkpoint.v
theories/CkptGradR.v
theories/Props_CkptGradient.v
theories/Stepper.v
theories/SpecStepper.v
theories/StepperFacts.v
theories/Props_Stepper.v
theories/Place.v
theories/SpecPlace.v
theories/PlaceFacts.v
theories/Props_Place.v
theories/SpecClear.v
theories/ClearTape.v
theories/ClearFresh.v
theories/Props_Clear.v
theories/Minimise.v
theories/SpecMinimise.v
theories/MinimiseFacts.v
theories/Reach.v
theories/Tao.v
theories/SpecTao.v
theories/TaoFacts.v
theories/Ipopt.v
theories/SpecIpopt.v
theories/IpoptFacts.v
theories/Props_Minimise.v
theories/Props_Tao.v
theories/Props_Ipopt.v
theories/PyExp.v
theories/SpecPy.v
theories/PyFacts.v
theories/PyProg.v
theories/PyGradR.v
theories/Props_PyExp.v
theories/Arrays.v
theories/SpecArr.v
theories/ArrFacts.v
theories/ArrIndex.v
theories/ArrFlat.v
theories/SpecArrR.v
theories/ArrGradR.v
theories/ArrTape.v
theories/ArrProgR.v
theories/Props_Arrays.v
theories/TapeValues.v
theories/Export.v
theories/SpecExport.v
theories/ExportFacts.v
theories/ExportRun.v
theories/Props_Graph.v
theories/Alias.v
theories/SpecAlias.v
theories/AliasFacts.v
theories/Props_Alias.v
theories/AliasGrad.v
theories/SpecAliasGrad.v
theories/AliasGradFacts.v
theories/AliasGradRun.v
theories/AliasGradR.v
theories/Props_AliasGrad.v
theories/Rol.v
theories/SpecRol.v
theories/RolFacts.v
theories/HessDer.v
theories/HessRuns.v
theories/Props_Rol.v
theories/Moola.v
theories/SpecMoola.v
theories/MoolaFacts.v
theories/Props_Moola.v
theories/RolCon.v
theories/SpecRolCon.v
theories/RolConFacts.v
theories/Props_RolCon.v
theories/PyFlow.v
theories/SpecFlow.v
theories/FlowFacts.v
theories/FlowGradR.v
theories/Props_Flow.v
theories/Floating.v
theories/SpecFloating.v
theories/FloatFacts.v
theories/FloatHist.v
theories/Props_Floating.v
