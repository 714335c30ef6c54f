-Q theories Verif
theories/Base.v
theories/Numbers.v
theories/ModelBFPy.v
theories/ModelBFCpp.v
theories/SpecBasis.v
theories/ProofBase.v
theories/ProofTab.v
theories/ProofBFPy.v
theories/ProofBFCpp.v
theories/ProofH.v
theories/ProofPoly.v
theories/ProofBasis.v
theories/ProofIndep.v
theories/PropBasis.v
theories/ModelELM.v
theories/SpecELM.v
theories/ProofELM.v
theories/ModelWeights.v
theories/SpecWeights.v
theories/ProofWeights.v
theories/PropELM.v
theories/ModelUtfc.v
theories/SpecUtfc.v
theories/ProofUtfc.v
theories/ModelRegistry.v
theories/ProofRegistry.v
theories/PropUtfc.v
theories/SpecColl.v
theories/ProofColl.v
theories/PropColl.v
theories/RealStruct.v
theories/ProofRecover.v
theories/SpecRecover.v
theories/PropRecover.v
theories/ModelND.v
theories/SpecND.v
theories/ProofND.v
theories/ProofND2.v
theories/PropND.v
theories/ModelNELM.v
theories/SpecNELM.v
theories/ProofNELM.v
theories/ProofNELM2.v
theories/PropNELM.v
theories/ModelMtfc.v
theories/SpecMtfc.v
theories/ProofMtfc.v
theories/ProofMtfc2.v
theories/ProofMtfc3.v
theories/PropMtfc.v
theories/ModelDict.v
theories/SpecDict.v
theories/ProofDict.v
theories/ProofDict2.v
theories/ProofDict3.v
theories/ProofDict4.v
theories/PropDict.v
theories/ModelPe.v
theories/SpecPe.v
theories/ProofPe.v
theories/PropPe.v
theories/ModelPinv.v
theories/SpecPinv.v
theories/ProofPinv.v
theories/ModelSolve.v
theories/SpecSolve.v
theories/ProofSolve.v
theories/PropSolve.v
theories/ModelAffine.v
theories/SpecAffine.v
theories/ProofAffine.v
theories/PropAffine.v
theories/ModelSolveDict.v
theories/SpecSolveDict.v
theories/ProofSolveDict.v
theories/PropSolveDict.v
theories/ModelAffineDict.v
theories/SpecAffineDict.v
theories/ProofAffineDict.v
theories/PropAffineDict.v
theories/ModelGraph.v
theories/SpecGraph.v
theories/ProofGraph.v
theories/PropGraph.v
theories/ModelQr.v
theories/ProofQr.v
theories/PropQr.v
theories/ModelEgrad.v
theories/SpecEgrad.v
theories/ProofEgrad.v
theories/PropEgrad.v
theories/ModelCe.v
theories/SpecCe.v
theories/ProofCe.v
theories/PropCe.v
theories/ModelPrinter.v
theories/SpecPrinter.v
theories/ProofPrinter.v
theories/PropPrinter.v
theories/ModelLatex.v
theories/SpecLatex.v
theories/ProofLatex.v
theories/PropLatex.v
theories/ModelMplot.v
theories/SpecMplot.v
theories/ProofMplot.v
theories/PropMplot.v
theories/ModelSave.v
theories/SpecSave.v
theories/ProofSave.v
theories/ProofFrames.v
theories/PropSave.v
theories/ModelPlotly.v
theories/SpecPlotly.v
theories/ProofPlotly.v
theories/PropPlotly.v
theories/ModelCrop.v
theories/SpecCrop.v
theories/ProofCrop.v
theories/PropCrop.v
theories/ModelColor.v
theories/SpecColor.v
theories/ProofColor.v
theories/PropColor.v
theories/ModelGradient.v
theories/SpecGradient.v
theories/PropGradient.v
theories/ModelHtml.v
theories/SpecHtml.v
theories/ProofHtml.v
theories/PropHtml.v
theories/ModelLayout.v
theories/SpecLayout.v
theories/ProofLayout.v
theories/PropLayout.v
theories/ModelMemory.v
theories/SpecMemory.v
theories/ProofMemory.v
theories/PropMemory.v
theories/Numbers64.v
theories/ProofBits.v
theories/SpecBits.v
theories/ProofBits64.v
theories/PropBits.v
theories/SpecPoints64.v
theories/ProofPoints64.v
theories/PropPoints64.v
theories/ModelTiming.v
theories/SpecTiming.v
theories/ProofTiming.v
theories/PropTiming.v
theories/ModelAttrs.v
theories/SpecAttrs.v
theories/ProofAttrs.v
theories/PropAttrs.v
theories/ModelNAttrs.v
theories/SpecNAttrs.v
theories/ProofNAttrs.v
theories/PropNAttrs.v
theories/SpecNBits.v
theories/ProofNBits.v
theories/ProofNBits64.v
theories/PropNBits.v
theories/SpecErr.v
theories/ProofErr.v
theories/ProofNErr.v
theories/PropErr.v
theories/ModelConsole.v
theories/SpecConsole.v
theories/PropConsole.v
theories/SpecNColl.v
theories/ProofNColl.v
theories/PropNColl.v
theories/ProofNRecover.v
theories/SpecNRecover.v
theories/PropNRecover.v
theories/SpecELM64.v
theories/ProofELM64.v
theories/ProofELM64b.v
theories/PropELM64.v
theories/ModelOde.v
theories/SpecOde.v
theories/ProofOde.v
theories/PropOde.v
theories/SpecDictB.v
theories/ModelDictUp.v
theories/ProofDictB.v
theories/PropDictB.v
theories/PropSolveBody.v
theories/PropVmap.v
theories/PropEgradDict.v
theories/PropHtmlRead.v
theories/ModelPde.v
theories/SpecPde.v
theories/ProofPde.v
theories/ProofPde2.v
theories/ProofPde3.v
theories/ProofPde4.v
theories/PropPde.v
theories/PropPdeCoef.v
theories/ModelCplx.v
theories/SpecCplx.v
theories/ProofCplx.v
theories/ProofCplx2.v
theories/ProofCplx3.v
theories/PropCplx.v
theories/ModelEgradDt.v
theories/SpecEgradDt.v
theories/PropEgradDt.v
theories/SpecNewton.v
theories/ProofNewton.v
theories/ProofNewton2.v
theories/ProofNewton3.v
theories/ProofNewton4.v
theories/PropNewton.v
theories/SpecIdle.v
theories/ProofNewton5.v
theories/PropIdle.v
theories/ModelOdeNl.v
theories/SpecOdeNl.v
theories/ProofOdeNl.v
theories/ProofOdeNl2.v
theories/PropOdeNl.v
theories/PropColumns.v
theories/ModelPdeNl.v
theories/SpecPdeNl.v
theories/ProofPdeNl.v
theories/ProofPdeNl2.v
theories/PropPdeNl.v
theories/ModelOdeAny.v
theories/SpecOdeAny.v
theories/ProofOdeAny.v
theories/PropOdeAny.v
theories/ModelSolve64.v
theories/SpecSolve64.v
theories/ProofSolve64.v
theories/PropSolve64.v
theories/ModelCut.v
theories/SpecCut.v
theories/ProofCut.v
theories/PropCut.v
theories/ModelOrder.v
theories/SpecOrder.v
theories/ProofOrder.v
theories/PropOrder.v
theories/ModelInt.v
theories/SpecInt.v
theories/ProofInt.v
theories/PropInt.v
theories/ModelNEAttrs.v
theories/SpecNEAttrs.v
theories/ProofNEAttrs.v
theories/PropNEAttrs.v
theories/ModelOdeSys.v
theories/SpecOdeSys.v
theories/ProofOdeSys.v
theories/PropOdeSys.v
theories/ModelNllsDict.v
theories/SpecNllsDict.v
theories/ProofSolveSim.v
theories/ProofNllsDict.v
theories/PropNllsDict.v
theories/PropOdeSysNlls.v
theories/PropNllsNewton.v
theories/ModelOdeSysNl.v
theories/SpecOdeSysNl.v
theories/ProofOdeSysNl.v
theories/PropOdeSysNl.v
theories/SpecErrD.v
theories/ProofErrD.v
theories/ProofNErrD.v
theories/PropErrD.v
theories/ModelOdeSysG.v
theories/SpecOdeSysG.v
theories/ProofOdeSysG.v
theories/PropOdeSysG.v
theories/ModelPlotlyCol.v
theories/SpecPlotlyCol.v
theories/PropPlotlyCol.v
theories/ModelNOrder.v
theories/SpecNOrder.v
theories/ProofNOrder.v
theories/PropNOrder.v
theories/ModelScreen.v
theories/SpecScreen.v
theories/PropScreen.v
theories/ModelPdeG.v
theories/SpecPdeG.v
theories/ProofPdeG.v
theories/PropPdeG.v
theories/ModelPdeSys.v
theories/SpecPdeSys.v
theories/ProofPdeSys.v
theories/PropPdeSys.v
theories/SpecPdeLin.v
theories/PropPdeLin.v
theories/PropPdeLinNlls.v
theories/SpecCeN.v
theories/PropCeN.v
theories/PropPdeCount.v
theories/SpecPdeOrder.v
theories/ProofPdeOrder.v
theories/PropPdeOrder.v
