-Q theories Verif
theories/CBase.v
theories/Result.v
theories/Bits.v
theories/Spec.v
theories/GateModel.v
theories/ComputerModel.v
theories/LoopProofs.v
theories/ApplyProofs.v
theories/SafeProofs.v
theories/GateProofs.v
theories/LibProofs.v
theories/CleanProofs.v
theories/SimProofs.v
theories/PropSim.v
theories/InteractProofs.v
theories/CircuitModel.v
theories/SimplifyProofs.v
theories/SimplifyLoop.v
theories/CircuitProofs.v
theories/CompareProofs.v
theories/PropCircuit.v
theories/PauliProofs.v
theories/OperatorModel.v
theories/SparseModel.v
theories/MeasureModel.v
theories/OpSpec.v
theories/OperatorProofs.v
theories/OrderProofs.v
theories/PoolProofs.v
theories/PropOperator.v
theories/SparseProofs.v
theories/SparseApply.v
theories/SparseNorm.v
theories/PauliIdx.v
theories/MeasureProofs.v
theories/PauliExp.v
theories/MeasSpec.v
theories/MeasReadout.v
theories/PropMeasure.v
theories/SparseState.v
theories/PropSparse.v
theories/SQSpec.v
theories/SQModel.v
theories/SQPhase.v
theories/SQProofs.v
theories/JWProofs.v
theories/PauliIndep.v
theories/PropSQ.v
theories/SQPoolModel.v
theories/SQPoolSpec.v
theories/SQPoolProofs.v
theories/SQPoolOps.v
theories/FermiProofs.v
theories/PropPool.v
theories/PyModel.v
theories/GateEval.v
theories/ThreeQubit.v
theories/ExpSpec.v
theories/ExpProofs.v
theories/ExpCircuit.v
theories/QftSpec.v
theories/QftProofs.v
theories/PyApply.v
theories/StateProofs.v
theories/TrotterProofs.v
theories/PropPy.v
theories/Textbook.v
theories/TextbookProofs.v
theories/TransModel.v
theories/TransSpec.v
theories/TransProofs.v
theories/TransOps.v
theories/PropTrans.v
theories/PropAccess.v
theories/PointModel.v
theories/PointSpec.v
theories/PropPoint.v
theories/EigModel.v
theories/EigProofs.v
theories/PropEig.v
theories/DiisModel.v
theories/PropDiis.v
theories/SelectModel.v
theories/SelectSpec.v
theories/SelectProofs.v
theories/PropAdapt.v
theories/SpqeProofs.v
theories/SpqeLoop.v
theories/PropSpqe.v
theories/TaperModel.v
theories/TaperAlg.v
theories/TaperKernel.v
theories/TaperGS.v
theories/TaperAbel.v
theories/TaperPauli.v
theories/TaperSpec.v
theories/TaperSym.v
theories/TaperFind.v
theories/PropTaper.v
theories/TaperUnit.v
theories/TaperConj.v
theories/TaperSector.v
theories/TaperOp.v
theories/PropTaper2.v
theories/LatexModel.v
theories/LatexSpec.v
theories/LatexProofs.v
theories/PropLatex.v
theories/GsdModel.v
theories/GsdProofs.v
theories/PropGsd.v
theories/SaModel.v
theories/SaSpec.v
theories/SaFermi.v
theories/SaProofs.v
theories/SaOps.v
theories/PropSa.v
theories/CompactModel.v
theories/CompactRot.v
theories/CompactAct.v
theories/CompactFermi.v
theories/CompactProofs.v
theories/CompactGsd.v
theories/PropCompact.v
theories/TwoLevel.v
theories/PauliPhase.v
theories/AnsatzModel.v
theories/AnsatzSpec.v
theories/AnsatzOrder.v
theories/AnsatzGen.v
theories/AnsatzJW.v
theories/AnsatzProofs.v
theories/AnsatzSa.v
theories/PropAnsatz.v
theories/GradModel.v
theories/GradSpec.v
theories/CompactApply.v
theories/GradCalc.v
theories/GradProofs.v
theories/GradAnsatz.v
theories/GradExample.v
theories/PropGrad.v
theories/ResModel.v
theories/ResProofs.v
theories/PropRes.v
theories/SpinModel.v
theories/SpinSpec.v
theories/SpinProofs.v
theories/SpinOps.v
theories/RealOps.v
theories/SymmProofs.v
theories/SymmSums.v
theories/PropSpin.v
theories/QkModel.v
theories/QkProofs.v
theories/QkEig.v
theories/PropQk.v
theories/HadProofs.v
theories/PropHad.v
theories/NtModel.v
theories/ExpExists.v
theories/NtProofs.v
theories/PropNt.v
theories/QpeModel.v
theories/QpeProofs.v
theories/FejerProofs.v
theories/QpeDist.v
theories/PropQpe.v
theories/PropQpeState.v
theories/PropQpeRun.v
theories/QiteModel.v
theories/QiteNorm.v
theories/QiteLin.v
theories/QiteProofs.v
theories/QitePool.v
theories/PropQite.v
theories/PropQiteRun.v
theories/PropQiteMain.v
theories/PropQlanczos.v
theories/IoModel.v
theories/PropIo.v
theories/MomentModel.v
theories/MomentProofs.v
theories/MomentSpace.v
theories/PropMoment.v
theories/PropSpqeRes.v
theories/MrModel.v
theories/MrProofs.v
theories/MrRefs.v
theories/MrSa.v
theories/PropMrRefs.v
theories/PropMrMat.v
theories/PropMrSa.v
theories/MolModel.v
theories/MolSpec.v
theories/MolProofs.v
theories/MolFrozen.v
theories/MolCore.v
theories/MolEnergy.v
theories/MolHF.v
theories/FermiIndep.v
theories/FermiHerm.v
theories/MolHerm.v
theories/MolDet.v
theories/MolExt.v
theories/MolSo.v
theories/MolRef.v
theories/PropMol.v
theories/PropCanon.v
theories/PenModel.v
theories/PenSpec.v
theories/PenProofs.v
theories/PropPen.v
theories/RunModel.v
theories/RunProofs.v
theories/PropRun.v
theories/PropPqe.v
theories/SectorProofs.v
theories/PropPqeEigen.v
theories/SectorPools.v
theories/SectorMol.v
theories/PropSector.v
theories/PropMrSrqk.v
theories/AdaptRunModel.v
theories/PropAdaptRun.v
theories/SpqeRunModel.v
theories/PropSpqeRun.v
theories/PropRunNames.v
theories/PropIrrep.v
theories/CommModel.v
theories/CommProofs.v
theories/PropComm.v
theories/PropFci.v
theories/PropSpqeFci.v
theories/PropFciMol.v
theories/PropFciRun.v
theories/StrModel.v
theories/PropStr.v
theories/PropAdaptTie.v
theories/PrintModel.v
theories/PropPrint.v
theories/PropSparseMap.v
