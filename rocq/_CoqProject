-Q theories Verif
theories/Mem.v
theories/SL.v
theories/Hist.v
theories/HistProofs.v
theories/ModelVector.v
theories/SpecVector.v
theories/SLTac.v
theories/VectorProofs.v
theories/Objs.v
theories/VectorHist.v
theories/VectorMem.v
theories/VectorProps.v
theories/PropVector.v
theories/ModelString.v
theories/SpecString.v
theories/MemRun.v
theories/StringFacts.v
theories/StringProofs.v
theories/StringMem.v
theories/StringHist.v
theories/StringProps.v
theories/PropString.v
theories/Client.v
theories/ClientProofs.v
theories/ModelList.v
theories/SpecList.v
theories/ListProofs.v
theories/ListHist.v
theories/HistGen.v
theories/ListMem.v
theories/ListProps.v
theories/PropList.v
theories/ModelForward.v
theories/SpecForward.v
theories/ForwardProofs.v
theories/ForwardHist.v
theories/ForwardMem.v
theories/ForwardProps.v
theories/PropForward.v
theories/ModelSwap.v
theories/ModelTree.v
theories/SpecTree.v
theories/TreeFacts.v
theories/TreeProofs.v
theories/TreeHist.v
theories/TreeMem.v
theories/TreeProps.v
theories/PropTree.v
theories/SpecSwap.v
theories/SwapProofs.v
theories/PropSwap.v
theories/ModelDeque.v
theories/SpecDeque.v
theories/DequeProofs.v
theories/DequeHist.v
theories/DequeMem.v
theories/DequeIter.v
theories/DequeProps.v
theories/PropDeque.v
theories/ModelUptr.v
theories/SpecUptr.v
theories/UptrProofs.v
theories/UptrProps.v
theories/PropUptr.v
theories/ModelShared.v
theories/SpecShared.v
theories/SharedProofs.v
theories/HistMore.v
theories/ModelRace.v
theories/SharedProps.v
theories/PropShared.v
theories/ModelFunction.v
theories/SpecFunction.v
theories/FunctionProofs.v
theories/PropFunction.v
theories/ModelCctype.v
theories/CctypeProofs.v
theories/PropCctype.v
theories/ModelStream.v
theories/SpecStream.v
theories/StreamProofs.v
theories/StreamProps.v
theories/PropStream.v
theories/ModelComplex.v
theories/SpecComplex.v
theories/ComplexProofs.v
theories/ComplexExact.v
theories/PropComplex.v
theories/ComplexAbs.v
theories/PropComplexAbs.v
theories/ModelOstream.v
theories/SpecOstream.v
theories/OstreamProofs.v
theories/PropOstream.v
theories/ModelCmath.v
theories/SpecCmath.v
theories/CmathBounds.v
theories/CmathReal.v
theories/CmathLog.v
theories/CmathSin.v
theories/CmathExp.v
theories/CmathAtan.v
theories/PropCmathReal.v
theories/DoubleArith.v
theories/DoubleRound.v
theories/DoubleSqrt.v
theories/PropCmathDouble.v
theories/DoubleNear.v
theories/DoubleLog.v
theories/PropDoubleLog.v
theories/DoubleExp.v
theories/PropDoubleExp.v
theories/StringExact.v
theories/DequeExact.v
theories/VectorExact.v
theories/OstreamExact.v
theories/ModelComplexFun.v
theories/SpecComplexFun.v
theories/ComplexFun.v
theories/PropComplexFun.v
theories/DoubleAtan.v
theories/PropDoubleAtan.v
theories/DoubleSin.v
theories/DoubleSinh.v
theories/ModelCmathCost.v
theories/DoubleCost.v
theories/PropDoubleSin.v
theories/PropDoubleSinh.v
theories/DoublePow.v
theories/PropDoublePow.v
theories/ModelComplexDouble.v
theories/DoubleComplex.v
theories/SpecComplexDouble.v
theories/ComplexDouble.v
theories/PropComplexDouble.v
theories/SpecGrowth.v
theories/GrowthProofs.v
theories/PropGrowth.v
theories/DoubleComplexArith.v
theories/ComplexArithDouble.v
theories/PropComplexArith.v
theories/HistThrow.v
theories/HistThrowProofs.v
theories/ClientThrow.v
theories/DequeThrow.v
theories/NoCopy.v
theories/TreeThrow.v
theories/SpecVectorThrow.v
theories/VectorThrow.v
theories/PropVectorThrow.v
theories/SpecVectorInit.v
theories/VectorInit.v
theories/PropVectorInit.v
theories/SpecDequeGrowth.v
theories/DequeGrowth.v
theories/PropDequeGrowth.v
theories/SpecDequeBuild.v
theories/DequeBuild.v
theories/DequeAlloc.v
theories/PropDequeBuild.v
theories/TreeBuild.v
theories/PropTreeBuild.v
theories/ListBuild.v
theories/ForwardBuild.v
theories/PropListBuild.v
theories/AllocCount.v
theories/ListAlloc.v
theories/TreeAlloc.v
theories/PropBuildAlloc.v
theories/ListCost.v
theories/TreeCost.v
theories/PropBuildCost.v
theories/TreeInsertCost.v
theories/ListInsertCost.v
theories/PropInsertCost.v
