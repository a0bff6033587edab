-Q theories Verif
theories/Base.v
theories/Alg.v
theories/SRMatrix.v
theories/Async.v
theories/AsyncTheory.v
theories/AsyncSystem.v
theories/Nd.v
theories/AsyncSweeps.v
theories/Kernels.v
theories/KernelFacts.v
theories/TriSpec.v
theories/TriFacts.v
theories/IluApply.v
theories/IluApplyFacts.v
theories/IluApplyProofs.v
theories/Chains.v
theories/IluApplyMain.v
theories/IluApplyStall.v
theories/Inst.v
theories/PropIluApply.v
theories/Sgs.v
theories/SgsFacts.v
theories/SgsProofs.v
theories/SgsForms.v
theories/SgsMain.v
theories/Memory.v
theories/PropSgs.v
theories/Helpers.v
theories/IluPattern.v
theories/IluPatternFacts.v
theories/PropPattern.v
theories/AsyncFlat.v
theories/IluFactor.v
theories/IluFactorFacts.v
theories/IluFactorProofs.v
theories/IluFactorInit.v
theories/IluFactorMain.v
theories/PropIluFactor.v
theories/PropIluInit.v
theories/PropIluSolve.v
theories/Own.v
theories/Reorder.v
theories/ReorderFacts.v
theories/ReorderMain.v
theories/PropReorder.v
theories/ReorderedIlu.v
theories/PropReorderedIlu.v
theories/Matvec.v
theories/MatvecFacts.v
theories/MatvecMain.v
theories/PropMatvec.v
theories/ColMat.v
theories/ColMatFacts.v
theories/ColMatMain.v
theories/ColMatRing.v
theories/PropColMat.v
theories/PrefixSum.v
theories/PropPrefixSum.v
theories/Levels.v
theories/PropLevels.v
theories/Coo.v
theories/CooSpec.v
theories/CooFacts.v
theories/CooBsr.v
theories/PropCoo.v
theories/CooRead.v
theories/PropCooRead.v
theories/ArrayView.v
theories/ViewSpec.v
theories/PropViews.v
theories/PropRaw.v
theories/TriView.v
theories/PropTriView.v
theories/BlockMat.v
theories/AssemblySpec.v
theories/AssemblyFacts.v
theories/PropAssembly.v
theories/PropBlockMat.v
theories/RawCtor.v
theories/PropConstruct.v
theories/Reduction.v
theories/MatProps.v
theories/PropMatProps.v
theories/Factory.v
theories/PropFactory.v
theories/Petsc.v
theories/PropPetscSetup.v
theories/PropPetscList.v
theories/Sai.v
theories/SaiSpec.v
theories/SaiFacts.v
theories/PropSai.v
theories/PropSaiValues.v
theories/PropSaiResidual.v
theories/PropSaiCases.v
theories/IluFactorStall.v
theories/PropIluStall.v
theories/PetscIo.v
theories/PetscIoFacts.v
theories/PropPetscIo.v
theories/PropPetscVec.v
theories/Objects.v
theories/ObjFacts.v
theories/ObjHistory.v
theories/GsSweep.v
theories/ObjAlg.v
theories/ObjTotal.v
theories/PropObjects.v
theories/PropObjectsEx.v
theories/PropSession.v
theories/PropSessionEx.v
theories/MMText.v
theories/PropMMText.v
theories/Mc64.v
theories/PropMc64.v
theories/AsyncSets.v
theories/Norms.v
theories/RelaxNear.v
theories/Contract.v
theories/AsyncJacobi.v
theories/PropConverge.v
theories/PropConvergeEx.v
theories/Life.v
theories/LifeFacts.v
theories/PropLife.v
theories/DominantLu.v
theories/PropDominantIlu.v
theories/ScaledLu.v
theories/PropScaleIlu.v
theories/SymSpec.v
theories/SymFacts.v
theories/PropLinear.v
theories/PropLinearEx.v
theories/MatObj.v
theories/MatObjSpec.v
theories/PropMatObj.v
theories/PropEnergy.v
theories/PropEnergyEx.v
theories/PropDominantSym.v
theories/FileMat.v
theories/PropFileMat.v
theories/PropIsEqual.v
theories/PropTimes.v
theories/PropVecDim.v
theories/Diag.v
theories/PropDiag.v
theories/PropMMShort.v
theories/PropInfoList.v
theories/TriHeap.v
theories/PropTriHeap.v
theories/IluIndex.v
theories/PropIluIndex.v
theories/PropSessionMore.v
theories/PropSessionMoreEx.v
theories/Rounding.v
theories/RoundFacts.v
theories/RoundSolve.v
theories/RoundMatvec.v
theories/RoundInst.v
theories/RoundBounds.v
theories/PropRounding.v
theories/RoundFactor.v
theories/PropRoundFactor.v
theories/AsyncShrink.v
theories/RoundRelax.v
theories/PropRoundRelax.v
theories/Reduce.v
theories/ReduceFacts.v
theories/RoundDot.v
theories/PropReduce.v
theories/ReduceFactor.v
theories/ReduceFactorFacts.v
theories/RoundReduce.v
theories/PropReduceFactor.v
theories/Convert.v
theories/PropConvert.v
theories/PetscError.v
theories/PropPetscError.v
theories/IntRange.v
theories/TripleSpec.v
theories/IntRangeFacts.v
theories/PropIntRange.v
theories/SolveSpec.v
theories/Solvers.v
theories/SolversFacts.v
theories/PropSolvers.v
theories/GcrFacts.v
theories/PropGcr.v
theories/BicgSpec.v
theories/BicgFacts.v
theories/PropBicg.v
theories/NanFacts.v
theories/PropNan.v
theories/Poisson.v
theories/PoissonSpec.v
theories/PoissonFacts.v
theories/PropPoisson.v
theories/PropPoissonSolve.v
theories/IluNoscale.v
theories/PropNoscale.v
theories/PropKrylov.v
theories/PropKrylovNan.v
theories/PoissonSetup.v
theories/PropPoissonSetup.v
theories/ObjShape.v
theories/TestSolve.v
theories/PropTestSolve.v
theories/PropBlockOrder.v
theories/TestReordered.v
theories/PropTestReordered.v
theories/PropTestBlocks.v
theories/PropTestBlocksExact.v
