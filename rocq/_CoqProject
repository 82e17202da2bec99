-Q theories Verif
theories/Base.v
theories/ExWorld.v
theories/ModelABC.v
theories/ModelAlias.v
theories/ModelArgs.v
theories/ModelAtelier.v
theories/ModelBN.v
theories/ModelCache.v
theories/ModelCont.v
theories/ModelConverter.v
theories/ModelDescr.v
theories/ModelDraw.v
theories/ModelEmpirical.v
theories/ModelEmul.v
theories/ModelExport.v
theories/ModelExpr.v
theories/ModelFitBase.v
theories/ModelFloat.v
theories/ModelGA.v
theories/ModelGhost.v
theories/ModelGraph.v
theories/ModelHME.v
theories/ModelHazard.v
theories/ModelLegacy.v
theories/ModelLife.v
theories/ModelLoci.v
theories/ModelMean.v
theories/ModelMonitor.v
theories/ModelNodeSet.v
theories/ModelNum.v
theories/ModelPredict.v
theories/ModelProb.v
theories/ModelPut.v
theories/ModelRecipe.v
theories/ModelReg.v
theories/ModelResample.v
theories/ModelSMC.v
theories/ModelSample.v
theories/ModelScript.v
theories/ModelSearch.v
theories/ModelSeries.v
theories/ModelSim.v
theories/ModelSir.v
theories/ModelSpread.v
theories/ModelSurv.v
theories/ModelTable.v
theories/ModelTargets.v
theories/ModelToys.v
theories/ModelTrace.v
theories/ProofBN.v
theories/ProofBNCopy.v
theories/ProofBNHist.v
theories/ProofBNMerge.v
theories/ProofBNViews.v
theories/ProofBase.v
theories/ProofChrom.v
theories/ProofExpr.v
theories/ProofFloat.v
theories/ProofGraph.v
theories/ProofLife.v
theories/ProofNodeSet.v
theories/ProofNodeSetInj.v
theories/ProofNodeSetMain.v
theories/ProofNodeSetOne.v
theories/ProofSMC.v
theories/ProofSample.v
theories/ProofScript.v
theories/ProofSim.v
theories/ProofSimActors.v
theories/ProofSimGen.v
theories/ProofSimImp.v
theories/ProofSimResp.v
theories/ProofTable.v
theories/PropsABC.v
theories/PropsArgs.v
theories/PropsAtelier.v
theories/PropsBN.v
theories/PropsBNOps.v
theories/PropsCache.v
theories/PropsChrom.v
theories/PropsCont.v
theories/PropsConverter.v
theories/PropsCores.v
theories/PropsDescr.v
theories/PropsDraw.v
theories/PropsEmpirical.v
theories/PropsEmul.v
theories/PropsEnd.v
theories/PropsExport.v
theories/PropsExpr.v
theories/PropsFitBase.v
theories/PropsFixed.v
theories/PropsGA.v
theories/PropsGhost.v
theories/PropsGraph.v
theories/PropsHME.v
theories/PropsHazard.v
theories/PropsImp.v
theories/PropsLegacy.v
theories/PropsLife.v
theories/PropsMean.v
theories/PropsMonitor.v
theories/PropsNodeSet.v
theories/PropsOrder.v
theories/PropsPlain.v
theories/PropsPost.v
theories/PropsPredict.v
theories/PropsProb.v
theories/PropsPut.v
theories/PropsRecipe.v
theories/PropsReg.v
theories/PropsResample.v
theories/PropsRest.v
theories/PropsRound.v
theories/PropsSMC.v
theories/PropsSMCMut.v
theories/PropsSample.v
theories/PropsScript.v
theories/PropsSearch.v
theories/PropsSeries.v
theories/PropsSim.v
theories/PropsSir.v
theories/PropsSound.v
theories/PropsSpread.v
theories/PropsStop.v
theories/PropsSupply.v
theories/PropsSurv.v
theories/PropsTable.v
theories/PropsTargets.v
theories/PropsToys.v
theories/PropsTrace.v
theories/Spec.v
theories/SpecBN.v
theories/SpecChrom.v
theories/SpecExpr.v
theories/SpecNodeSet.v
theories/SpecSample.v
theories/SpecSim.v
theories/World.v
