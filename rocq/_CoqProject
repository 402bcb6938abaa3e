-Q theories Verif
theories/Base.v
theories/Num.v
theories/NumX.v
theories/NumE.v
theories/NumI.v
theories/Model/Spla.v
theories/Spec/Matrix.v
theories/Spec/Conic.v
theories/Spec/Jordan.v
theories/Spec/Shape.v
theories/Spec/Certificate.v
theories/Proofs/SplaP.v
theories/Proofs/LoopLib.v
theories/Proofs/ConeP.v
theories/Proofs/ScalP.v
theories/Proofs/Scal2P.v
theories/Proofs/RotP.v
theories/Proofs/ConeR.v
theories/Proofs/NtR.v
theories/Proofs/LineP.v
theories/Proofs/LineR.v
theories/Proofs/KernR.v
theories/Model/Splamm.v
theories/Model/Types.v
theories/Model/Consts.v
theories/Model/Expcone.v
theories/Model/Cone.v
theories/Model/Ldl.v
theories/Model/Kkt.v
theories/Model/Equil.v
theories/Model/Ecos.v
theories/Model/Preproc.v
theories/Model/BbTypes.v
theories/Model/Bb.v
theories/Spec/Scaling.v
theories/Spec/User.v
theories/Proofs/CountSort.v
theories/Proofs/SplammP.v
theories/Properties/Sparse.v
theories/Proofs/ExitP.v
theories/Proofs/XEvalP.v
theories/Proofs/CertP.v
theories/Proofs/PhiP.v
theories/Proofs/LoopP.v
theories/NumH.v
theories/Properties/Certificate.v
theories/Examples/RunH.v
theories/Examples/RunF.v
theories/Properties/Exit.v
theories/Proofs/UpdP.v
theories/Properties/Solve.v
theories/Properties/Update.v
theories/Properties/Cone.v
theories/Proofs/EquilP.v
theories/Proofs/EquilX.v
theories/Properties/Equil.v
theories/Spec/Fill.v
theories/Spec/KktSpec.v
theories/Spec/SetupSpec.v
theories/Spec/UpdateSpec.v
theories/Spec/Best.v
theories/Spec/KktMatrix.v
theories/Spec/Refine.v
theories/Proofs/LdlSym.v
theories/Proofs/LdlNum.v
theories/Proofs/LdlR.v
theories/Proofs/KktAsm.v
theories/Proofs/KktMat.v
theories/Proofs/KktR.v
theories/Proofs/KktUpd.v
theories/Proofs/Layout.v
theories/Proofs/Work.v
theories/Proofs/SetupP.v
theories/Proofs/WorkR.v
theories/Proofs/KktAct.v
theories/Proofs/WorkUpd.v
theories/Proofs/Stretch.v
theories/Proofs/SafeLib.v
theories/Proofs/SafeK.v
theories/Proofs/KktErr.v
theories/Proofs/KktErrR.v
theories/Properties/Ldl.v
theories/Properties/Kkt.v
theories/Proofs/SafeE.v
theories/Proofs/SafeW.v
theories/Proofs/SafeV.v
theories/Proofs/SafeU.v
theories/Proofs/Mono.v
theories/Proofs/Mono2.v
theories/Proofs/Mono3.v
theories/Proofs/Mono4.v
theories/Proofs/Mono5.v
theories/Spec/ReproSpec.v
theories/Proofs/ReproPat.v
theories/Proofs/ReproP.v
theories/Properties/Repro.v
theories/Spec/Start.v
theories/Proofs/StartP.v
theories/Properties/Start.v
theories/Properties/Refine.v
theories/Spec/Exp.v
theories/Proofs/ExpP.v
theories/Properties/Exp.v
theories/Spec/ExpSearch.v
theories/Spec/Inside.v
theories/Proofs/ExpSearchP.v
theories/Proofs/ExpSearchX.v
theories/Proofs/ExpGuard.v
theories/Proofs/IterP.v
theories/Properties/ExpSearch.v
theories/Spec/Integer.v
theories/Spec/Tree.v
theories/Proofs/Wlp.v
theories/Proofs/BbNum.v
theories/Proofs/BbP.v
theories/Properties/Round.v
theories/Properties/Branch.v
theories/Spec/MixedInteger.v
theories/Proofs/BbOpt.v
theories/Properties/Search.v
theories/Properties/SearchEx.v
theories/Spec/Solver.v
theories/Proofs/BbSafe.v
theories/Proofs/BbKeep.v
theories/Properties/Passes.v
theories/Properties/PassesEx.v
theories/Spec/Relaxed.v
theories/Proofs/BbSetup.v
theories/Properties/Relaxed.v
theories/Model/Ctrlc.v
theories/Properties/Interrupt.v
theories/Model/Heap.v
theories/Spec/HeapSpec.v
theories/Proofs/HeapP.v
theories/Proofs/HeapBb.v
theories/Properties/Memory.v
theories/Spec/Direction.v
theories/Proofs/DirP.v
theories/Proofs/DirT.v
theories/Proofs/DirI.v
theories/Proofs/DirR.v
theories/Proofs/DirS.v
theories/Proofs/DirG.v
theories/Properties/Direction.v
theories/Model/Amd.v
theories/Spec/Ordering.v
theories/Proofs/AmdB.v
theories/Proofs/AmdV.v
theories/Proofs/AmdR.v
theories/Proofs/AmdL.v
theories/Proofs/AmdT.v
theories/Proofs/AmdO.v
theories/Proofs/AmdF.v
theories/Properties/Amd.v
theories/Model/Amd2.v
theories/Proofs/QgA.v
theories/Proofs/QgM.v
theories/Proofs/QgL.v
theories/Proofs/QgC.v
theories/Proofs/QgS.v
theories/Proofs/QgF.v
theories/Proofs/QgD.v
theories/Proofs/QgR.v
theories/Proofs/QgG.v
theories/Proofs/QgT.v
theories/Proofs/QgU.v
theories/Proofs/QgB.v
theories/Proofs/QgN.v
theories/Proofs/QgI.v
theories/Properties/Duplicates.v
theories/Properties/Pivots.v
theories/Spec/Barrier.v
theories/Proofs/IvlQ.v
theories/Proofs/WrightP.v
theories/Proofs/BarrierP.v
theories/Properties/Barrier.v
theories/Spec/Rounding.v
theories/Proofs/RoundA.v
theories/Proofs/RoundP.v
theories/Proofs/RoundC.v
theories/Proofs/RoundD.v
theories/Proofs/RoundI.v
theories/Proofs/RoundB.v
theories/Properties/Rounding.v
theories/Examples/RunB.v
theories/Properties/RoundingInf.v
theories/Examples/RunBInf.v
theories/Spec/Nearby.v
theories/Proofs/RoundE.v
theories/Proofs/RoundF.v
theories/Properties/RoundingData.v
theories/Examples/RunBData.v
theories/Properties/RoundingUser.v
theories/Examples/RunBUser.v
theories/Properties/RoundingCost.v
theories/Examples/RunBCost.v
theories/Properties/PassesB.v
theories/Properties/PassesBT.v
theories/Properties/RoundingSession.v
theories/Examples/RunBSession.v
theories/Examples/RunBPasses.v
