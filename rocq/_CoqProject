-Q theories Verif
theories/Py.v
theories/ModelTree.v
theories/SpecTree.v
theories/ProofBase.v
theories/ProofTopo.v
theories/ProofGraph.v
theories/ProofSubs.v
theories/ModelEval.v
theories/ModelDiff.v
theories/ModelSym.v
theories/ModelCas.v
theories/Samples.v
theories/SpecEval.v
theories/ProofTree.v
theories/PropsTree.v
theories/ProofEval.v
theories/PropsEval.v
theories/SpecDiff.v
theories/ProofDiff.v
theories/SpecCas.v
theories/ProofCasDiff.v
theories/PropsDiff.v
theories/SpecReal.v
theories/ProofReal.v
theories/PropsReal.v
theories/SpecSym.v
theories/PropsSym.v
theories/SpecPrint.v
theories/ProofCas.v
theories/ProofBin.v
theories/ProofPrint.v
theories/PropsCas.v
theories/ModelMatrix.v
theories/ModelSympy.v
theories/SpecMatrix.v
theories/ProofMatrix.v
theories/SpecSympy.v
theories/ProofSympy.v
theories/PropsMatrix.v
theories/PropsSympy.v
theories/ModelLLVM.v
theories/SpecLLVM.v
theories/SpecLambdify.v
theories/ProofLex.v
theories/ProofFloat.v
theories/ProofLLVM.v
theories/ProofLLVMMatrix.v
theories/ProofF64.v
theories/PropsLLVM.v
theories/ModelIntern.v
theories/SpecIntern.v
theories/ProofIntern.v
theories/ProofInternLive.v
theories/PropsIntern.v
theories/ModelRepr.v
theories/SpecRepr.v
theories/ProofRepr.v
theories/PropsRepr.v
theories/SpecCost.v
theories/ProofCost.v
theories/ProofSwell.v
theories/PropsCost.v
theories/SpecAlg.v
theories/ProofAlg.v
theories/PropsAlg.v
theories/SpecRules.v
theories/ProofRules.v
theories/PropsRules.v
theories/ProofSums.v
theories/PropsSums.v
theories/ProofJets.v
theories/PropsMixed.v
theories/ModelApi.v
theories/SpecApi.v
theories/ProofApi.v
theories/PropsApi.v
theories/Replay.v
theories/SpecPyText.v
theories/ProofPyText.v
theories/ProofPyEval.v
theories/PropsPyText.v
theories/ModelObjects.v
theories/SpecObjects.v
theories/ProofObjects.v
theories/ProofObjTree.v
theories/PropsObjects.v
theories/ModelObjEval.v
theories/SpecObjEval.v
theories/ProofObjEval.v
theories/PropsObjEval.v
theories/ModelObjExpr.v
theories/SpecObjExpr.v
theories/ProofObjExpr.v
theories/PropsObjExpr.v
theories/SpecCodeSize.v
theories/ProofCodeSize.v
theories/PropsCodeSize.v
theories/SpecExact.v
theories/ProofExact.v
theories/PropsExact.v
theories/ModelClasses.v
theories/SpecClasses.v
theories/PropsClasses.v
theories/SpecMatrixAlgebra.v
theories/PropsMatrixAlgebra.v
theories/ModelWork.v
theories/SpecWork.v
theories/PropsWork.v
theories/SpecLatex.v
theories/PropsLatex.v
theories/ModelDepth.v
theories/SpecDepth.v
theories/PropsDepth.v
theories/SpecError.v
theories/ProofError.v
theories/PropsError.v
theories/ModelEffects.v
theories/SpecEffects.v
theories/ProofEffects.v
theories/PropsEffects.v
theories/ModelCopy.v
theories/SpecCopy.v
theories/PropsCopy.v
theories/ModelObjRules.v
theories/SpecObjRules.v
theories/ProofObjRules.v
theories/PropsObjRules.v
theories/SpecSubstDiff.v
theories/ProofSubstDiff.v
theories/PropsSubstDiff.v
theories/ModelShared.v
theories/SpecShared.v
theories/ProofShared.v
theories/PropsShared.v
theories/SpecInterrupt.v
theories/PropsInterrupt.v
theories/SpecLatexForm.v
theories/PropsLatexForm.v
theories/SpecOutcome.v
theories/ProofOutcome.v
theories/PropsOutcome.v
theories/ModelDigits.v
theories/SpecDigits.v
theories/ProofDigits.v
theories/PropsDigits.v
theories/ModelLists.v
theories/SpecLists.v
theories/ProofLists.v
theories/PropsLists.v
theories/ModelJit.v
theories/SpecJit.v
theories/ProofJit.v
theories/PropsJit.v
theories/SpecBound.v
theories/ProofBound.v
theories/PropsBound.v
theories/SpecSympyValue.v
theories/PropsSympyValue.v
theories/SpecTreeText.v
theories/PropsTreeText.v
theories/SpecGrowth.v
theories/PropsGrowth.v
theories/ProofPoly.v
theories/ProofDag.v
theories/PropsPoly.v
theories/ModelDiffWork.v
theories/PropsDiffWork.v
theories/PropsWide.v
theories/ProofChain.v
theories/PropsChain.v
theories/PropsDerivCode.v
theories/PropsTaylor.v
theories/ProofCurve.v
theories/PropsCurve.v
theories/PropsCompose.v
theories/ModelDeepcopy.v
theories/PropsDeepcopy.v
theories/PropsClosed.v
theories/ModelBuiltins.v
theories/PropsBuiltins.v
theories/PropsCodeErrors.v
theories/SpecFormula.v
theories/PropsFormula.v
theories/SpecOverflow.v
theories/ProofOverflow.v
theories/PropsOverflow.v
theories/PropsJacobian.v
theories/PropsOptimize.v
theories/SpecObjPrompt.v
theories/PropsObjPrompt.v
theories/ModelObjMatrix.v
theories/SpecObjMatrix.v
theories/ProofObjMatrix.v
theories/PropsObjMatrix.v
theories/ModelObjLLVM.v
theories/SpecObjLLVM.v
theories/ProofObjLLVM.v
theories/PropsObjLLVM.v
theories/ProofGoodMatrix.v
theories/ModelObjSympy.v
theories/SpecObjSympy.v
theories/ProofObjSympy.v
theories/PropsObjSympy.v
theories/SpecObjConsole.v
theories/PropsObjConsole.v
theories/SpecTextSize.v
theories/PropsTextSize.v
theories/PropsSymbols.v
theories/SpecPowers.v
theories/PropsPowers.v
theories/SpecLeibniz.v
theories/PropsLeibniz.v
theories/SpecPolynomial.v
theories/PropsPolynomial.v
theories/SpecWaves.v
theories/PropsWaves.v
theories/PropsPolyTaylor.v
theories/SpecMatrixDiff.v
theories/PropsMatrixDiff.v
theories/PropsDiffBy.v
theories/PropsEuler.v
