-Q theories Verif

theories/Base.v
theories/ModelJaxext.v
theories/ModelGrove.v
theories/ModelStep.v
theories/LemBase.v
theories/SpecTree.v
theories/ProofTree.v
theories/Examples.v
theories/PropTree.v
theories/SpecSampling.v
theories/ProofSampling.v
theories/Laws.v
theories/ProofCategorical.v
theories/PropSampling.v
theories/SpecRange.v
theories/ProofRange.v
theories/PropRange.v
theories/ProofAggregate.v
theories/ProofRoute.v
theories/ProofMoves.v
theories/ProofStep.v
theories/SpecForest.v
theories/SpecRun.v
theories/ProofRun.v
theories/ProofForest.v
theories/ExampleRun.v
theories/PropForest.v
theories/ProofLeaf.v
theories/SpecPosterior.v
theories/ProofNormal.v
theories/ProofDraw.v
theories/SpecExact.v
theories/ProofExact.v
theories/PropExact.v
theories/ProofGauss.v
theories/ExampleReal.v
theories/SpecProposal.v
theories/ProofProposal.v
theories/ProofMarginal.v
theories/SpecMH.v
theories/ProofTransition.v
theories/ProofRatio.v
theories/ProofMH.v
theories/PropMH.v
theories/ModelLoop.v
theories/SpecLoop.v
theories/ProofLoop.v
theories/PropLoop.v
theories/PropLog.v
theories/SpecKeys.v
theories/PropKeys.v
theories/SpecSame.v
theories/PropBatch.v
theories/PropMinZero.v
theories/SpecOrder.v
theories/PropOrder.v
theories/PropTypes.v
theories/PropDepth.v
theories/ModelPrep.v
theories/SpecPrep.v
theories/ProofUnique.v
theories/ProofPrep.v
theories/PropPrep.v
theories/ModelBART.v
theories/SpecBART.v
theories/ProofBART.v
theories/PropBART.v
theories/SpecPrior.v
theories/ProofGamma.v
theories/PropPrior.v
theories/ModelAutobatch.v
theories/SpecAutobatch.v
theories/ProofAutobatch.v
theories/PropAutobatch.v
theories/ModelBatchSize.v
theories/PropBatchSize.v
theories/ModelDebug.v
theories/SpecDebug.v
theories/ProofDebug.v
theories/PropDebug.v
theories/ModelHeap.v
theories/SpecHeap.v
theories/ProofHeap.v
theories/PropHeap.v
theories/Laws32.v
theories/PropFloat32.v
theories/PropCumsum.v
theories/PropFloatPrep.v
theories/SpecChance.v
theories/ProofChance.v
theories/ProofProb.v
theories/ProofShape.v
theories/ProofBalance.v
theories/SpecBalance.v
theories/SpecKernel.v
theories/ProofDetailed.v
theories/PropBalance.v
theories/ProofKernel.v
theories/PropKernel.v
theories/PropJoint.v
theories/SpecBayes.v
theories/SpecInvariant.v
theories/PropBayes.v
theories/PropInvariant.v
theories/SpecErgodic.v
theories/ProofErgodic.v
theories/PropErgodic.v
theories/PropOverflow.v
theories/ModelInterface.v
theories/SpecInterface.v
theories/PropInterface.v
theories/PropDiagnostics.v
theories/PropFit.v
theories/ModelBatched.v
theories/PropBatched.v
theories/PropLinspace.v
theories/SpecDrift.v
theories/PropDrift.v
theories/SpecCallback.v
theories/ModelCallback.v
theories/PropCallback.v
theories/ModelScale.v
theories/PropScale.v
theories/PropWholeStep.v
theories/ModelDtype.v
theories/PropDtype.v
theories/ModelInitkw.v
theories/SpecInitkw.v
theories/PropInitkw.v
theories/PropReplaced.v
