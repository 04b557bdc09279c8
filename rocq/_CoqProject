-Q theories Verif
theories/XR.v
theories/Special.v
theories/ModelDist.v
theories/LemInt.v
theories/LemLim.v
theories/LemGamma.v
theories/SpecDist.v
theories/XTac.v
theories/LemDist.v
theories/LemNorm.v
theories/LemNorm2.v
theories/LemDisc.v
theories/LemDisc2.v
theories/SpecCdf.v
theories/LemCdf.v
theories/ModelArr.v
theories/SpecCheck.v
theories/LemCheck.v
theories/ModelVec.v
theories/LemRef.v
theories/LemSupp.v
theories/LemCheckArr.v
theories/LemDiscFin.v
theories/PropDist.v
theories/PropNorm.v
theories/PropMass.v
theories/LemCdf3.v
theories/PropCdf.v
theories/PropCheck.v
theories/ModelTrans.v
theories/SpecTrans.v
theories/LemTrans.v
theories/LemTrans2.v
theories/PropTrans.v
theories/LemCirc.v
theories/PropCirc.v
theories/ModelCens.v
theories/SpecCens.v
theories/LemCens.v
theories/LemCens2.v
theories/PropCens.v
theories/ModelIdx.v
theories/SpecIdx.v
theories/LemIdx.v
theories/LemIdx2.v
theories/PropIdx.v
theories/ModelMix.v
theories/SpecMix.v
theories/LemMix.v
theories/PropMix.v
theories/ModelSub.v
theories/SpecSub.v
theories/LemSub.v
theories/PropSub.v
theories/ModelTen.v
theories/SpecTen.v
theories/LemTen.v
theories/LemTen2.v
theories/RMx.v
theories/LemTen3.v
theories/LemTen4.v
theories/PropTen.v
theories/ModelJoint.v
theories/SpecJoint.v
theories/LemJoint.v
theories/PropJoint.v
theories/ModelGraph.v
theories/SpecGraph.v
theories/LemGraph.v
theories/LemGraph2.v
theories/LemGraph3.v
theories/PropGraph.v
theories/ModelWalk.v
theories/SpecWalk.v
theories/LemWalk.v
theories/PropWalk.v
theories/ModelRepl.v
theories/SpecRepl.v
theories/LemRepl.v
theories/PropRepl.v
theories/ModelReg.v
theories/SpecReg.v
theories/LemReg.v
theories/PropReg.v
theories/ModelConv.v
theories/SpecConv.v
theories/LemConv.v
theories/PropConv.v
theories/ModelScan.v
theories/SpecScan.v
theories/LemScan.v
theories/PropScan.v
theories/ModelChain.v
theories/SpecChain.v
theories/LemChain.v
theories/PropChain.v
theories/ModelDirac.v
theories/SpecDirac.v
theories/LemDirac.v
theories/PropDirac.v
theories/ModelPrint.v
theories/SpecPrint.v
theories/LemPrint.v
theories/PropPrint.v
theories/SpecVec.v
theories/LemVec.v
theories/PropVec.v
theories/ModelMvn.v
theories/SpecMvn.v
theories/LemMvn.v
theories/LemMvn2.v
theories/LemMvn3.v
theories/PropMvn.v
theories/ModelSimplex.v
theories/SpecSimplex.v
theories/LemSimplex.v
theories/LemSimplex2.v
theories/LemSimplex3.v
theories/PropSimplex.v
theories/SpecMint.v
theories/LemMint.v
theories/PropMint.v
theories/ModelNest.v
theories/SpecNest.v
theories/LemNest.v
theories/LemNest2.v
theories/ModelElem.v
theories/SpecElem.v
theories/LemElem.v
theories/PropElem.v
theories/ModelSys.v
theories/SpecSys.v
theories/LemDet.v
theories/LemSys.v
theories/LemSys2.v
theories/LemSys3.v
theories/PropSys.v
theories/ModelGuard.v
theories/ModelOrder.v
theories/SpecOrder.v
theories/LemOrder.v
theories/SpecGuard.v
theories/LemGuard.v
theories/LemGuard2.v
theories/PropGuard.v
theories/ModelStack.v
theories/SpecStack.v
theories/LemStack.v
theories/LemStack2.v
theories/PropStack.v
theories/LemSysGiven.v
theories/PropSysGiven.v
theories/ModelScanVal.v
theories/SpecScanVal.v
theories/LemScanVal.v
theories/PropScanVal.v
theories/ModelScanDet.v
theories/SpecScanDet.v
theories/LemScanDet.v
theories/PropScanDet.v
theories/ModelSwitch.v
theories/LemSwitch.v
theories/PropSwitch.v
theories/ModelBatch.v
theories/SpecBatch.v
theories/LemBatch.v
theories/LemBatch2.v
theories/PropBatch.v
theories/ModelVTrans.v
theories/SpecVTrans.v
theories/LemVTrans.v
theories/LemVTrans2.v
theories/LemVTrans3.v
theories/PropVTrans.v
theories/ModelPrint2.v
theories/SpecPrint2.v
theories/LemPrint2.v
theories/LemPrint3.v
theories/LemPrint4.v
theories/PropPrint2.v
theories/ModelUtil.v
theories/SpecUtil.v
theories/LemUtil.v
theories/PropUtil.v
theories/ModelTop.v
theories/SpecTop.v
theories/LemTop.v
theories/PropTop.v
theories/ModelLaw.v
theories/SpecLaw.v
theories/LemLaw.v
theories/PropLaw.v
theories/LemNest3.v
theories/LemSubst.v
theories/PropNestLaw.v
theories/ModelScanBody.v
theories/SpecScanBody.v
theories/LemScanBody.v
theories/PropScanBody.v
theories/ModelScanOpts.v
theories/SpecScanOpts.v
theories/LemScanOpts.v
theories/ModelScanLift.v
theories/SpecScanLift.v
theories/LemScanLift.v
theories/ModelScanOrder.v
theories/LemScanOrder.v
theories/PropScanOpts.v
theories/PropOrder.v
theories/ModelMvnB.v
theories/LemMvnB.v
theories/PropMvnB.v
theories/ModelChainB.v
theories/SpecChainB.v
theories/LemChainB.v
theories/PropChainB.v
theories/ModelDefJac.v
theories/SpecDefJac.v
theories/LemDefJac.v
theories/PropDefJac.v
theories/ModelUniv.v
theories/SpecUniv.v
theories/LemUniv.v
theories/LemUniv2.v
theories/PropUniv.v
theories/ModelVersion.v
theories/SpecVersion.v
theories/LemVersion.v
theories/LemVersion2.v
theories/LemVersion3.v
theories/PropVersion.v
theories/ModelKeywords.v
theories/SpecKeywords.v
theories/LemKeywords.v
theories/PropKeywords.v
theories/ModelLawArr.v
theories/SpecLawArr.v
theories/LemLawArr.v
theories/LemLawArr2.v
theories/PropLawArr.v
theories/ModelSimplexB.v
theories/LemSimplexB.v
theories/PropSimplexB.v
theories/ModelScanLaw.v
theories/SpecScanLaw.v
theories/LemScanLaw.v
theories/PropScanLaw.v
theories/ModelNames.v
theories/LemNames.v
theories/PropNames.v
theories/SpecTransInf.v
theories/LemTransInf.v
theories/PropTransInf.v
theories/SpecTransLim.v
theories/LemTransLim.v
theories/PropTransLim.v
theories/SpecEdge.v
theories/LemEdge.v
theories/PropEdge.v
theories/ModelMixSys.v
theories/SpecMixSys.v
theories/LemMixSys.v
theories/LemSound.v
theories/LemSound2.v
theories/LemSound3.v
theories/PropNest.v
theories/LemMixSys2.v
theories/LemMixSys3.v
theories/PropMixSys.v
theories/SpecAvg.v
theories/LemAvg.v
theories/LemAvg2.v
theories/PropAvg.v
theories/ModelUndo.v
theories/SpecUndo.v
theories/LemUndo1.v
theories/LemUndo2.v
theories/LemUndo3.v
theories/LemUndo4.v
theories/LemUndo5.v
theories/LemUndo6.v
theories/PropUndo.v
theories/ModelEls.v
theories/SpecEls.v
theories/LemEls.v
theories/LemEls2.v
theories/LemEls3.v
theories/PropEls.v
theories/SpecSound.v
theories/LemSound4.v
theories/LemSound5.v
theories/PropSound.v
theories/ModelSysT.v
theories/SpecSysT.v
theories/LemSysT.v
theories/LemSysT2.v
theories/PropSysT.v
theories/SpecTurns.v
theories/LemTurns.v
theories/LemTurnsA.v
theories/PropTurns.v
theories/ModelElsT.v
theories/SpecElsT.v
theories/LemElsT.v
theories/LemElsT2.v
theories/LemElsT3.v
theories/PropElsT.v
theories/ModelCensSys.v
theories/SpecCensSys.v
theories/LemCensSys.v
theories/LemCensSys2.v
theories/LemCensSys3.v
theories/LemCensChain.v
theories/LemCensSys4.v
theories/LemCensSys5.v
theories/PropCensSys.v
theories/ModelElsV.v
theories/SpecElsV.v
theories/LemElsV.v
theories/LemElsV2.v
theories/LemElsV3.v
theories/PropElsV.v
theories/SpecElsTypes.v
theories/LemElsTypes.v
theories/PropElsTypes.v
theories/ModelMixCens.v
theories/SpecMixExp.v
theories/LemMixExp.v
theories/LemMixExp2.v
theories/LemMixExp3.v
theories/LemMixExp4.v
theories/LemMixExp5.v
theories/PropMixExp.v
theories/ModelMixTree.v
theories/SpecMixTree.v
theories/LemMixTree.v
theories/PropMixTree.v
theories/SpecTake.v
theories/LemTake.v
theories/PropTake.v
theories/ModelElsOrder.v
theories/LemElsOrder.v
theories/PropElsOrder.v
theories/ModelElsMiss.v
theories/SpecElsMiss.v
theories/LemElsMiss.v
theories/PropElsMiss.v
theories/PropElsMissLaw.v
theories/ModelGitRun.v
theories/SpecGitRun.v
theories/LemGitRun.v
theories/PropGitRun.v
theories/ModelPrintNum.v
theories/SpecPrintNum.v
theories/LemPrintNum.v
theories/PropPrintNum.v
