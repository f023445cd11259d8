-Q theories Verif
theories/Assumptions0.v
theories/Assumptions1.v
theories/Assumptions2.v
theories/Assumptions3.v
theories/LibFlx.v
theories/LibLinAlg.v
theories/LibSum.v
theories/ModelAssemble.v
theories/ModelBc.v
theories/ModelBem.v
theories/ModelBlock.v
theories/ModelCache.v
theories/ModelColl.v
theories/ModelConc.v
theories/ModelConform.v
theories/ModelCurv.v
theories/ModelDriver.v
theories/ModelErr.v
theories/ModelExp.v
theories/ModelFiles.v
theories/ModelFloat.v
theories/ModelFloatExp.v
theories/ModelFloatExp2.v
theories/ModelFloatFmm.v
theories/ModelFloatSolve.v
theories/ModelFmm.v
theories/ModelFmmExp.v
theories/ModelGeom.v
theories/ModelHistory.v
theories/ModelHyp.v
theories/ModelHypGrad.v
theories/ModelKernel.v
theories/ModelLegApi.v
theories/ModelLegTable.v
theories/ModelLegendre.v
theories/ModelMain.v
theories/ModelOctree.v
theories/ModelOrder.v
theories/ModelOwn.v
theories/ModelParams.v
theories/ModelProj.v
theories/ModelRegen.v
theories/ModelResid.v
theories/ModelRules.v
theories/ModelRun.v
theories/ModelRunFmm.v
theories/ModelSing.v
theories/ModelSolve.v
theories/ModelStore.v
theories/ModelTrueCon.v
theories/ModelTwoFe.v
theories/ModelValue.v
theories/ModelWork.v
theories/ProofsAcc1.v
theories/ProofsAcc10.v
theories/ProofsAcc2.v
theories/ProofsAcc3.v
theories/ProofsAcc4.v
theories/ProofsAcc5.v
theories/ProofsAcc6.v
theories/ProofsAcc7.v
theories/ProofsAcc8.v
theories/ProofsAcc9.v
theories/ProofsBc.v
theories/ProofsBem.v
theories/ProofsBit.v
theories/ProofsCnt.v
theories/ProofsColl.v
theories/ProofsConc.v
theories/ProofsConc2.v
theories/ProofsExp.v
theories/ProofsExp2.v
theories/ProofsExp3.v
theories/ProofsExp4.v
theories/ProofsExp5.v
theories/ProofsFloat.v
theories/ProofsFloatExp.v
theories/ProofsFloatLeg.v
theories/ProofsFloatTrans.v
theories/ProofsFloatTrans2.v
theories/ProofsFmm.v
theories/ProofsFmmAcc.v
theories/ProofsFmmCover.v
theories/ProofsFmmDirect.v
theories/ProofsFmmFar.v
theories/ProofsFmmGeo.v
theories/ProofsFmmRel.v
theories/ProofsHarm.v
theories/ProofsHarm2.v
theories/ProofsHarm3.v
theories/ProofsHyp.v
theories/ProofsHyp2.v
theories/ProofsHyp3.v
theories/ProofsLegAcc.v
theories/ProofsLegCheck.v
theories/ProofsLegendre.v
theories/ProofsOctFacts.v
theories/ProofsOctGeom.v
theories/ProofsOctLevels.v
theories/ProofsOctLists.v
theories/ProofsOctMore.v
theories/ProofsOctTree.v
theories/ProofsOrder.v
theories/ProofsOwn.v
theories/ProofsProj.v
theories/ProofsRenumOct.v
theories/ProofsRnd.v
theories/ProofsRndDirect.v
theories/ProofsScale.v
theories/ProofsSing.v
theories/ProofsSing2.v
theories/ProofsSing3.v
theories/ProofsSing4.v
theories/ProofsSing5.v
theories/ProofsSmall.v
theories/ProofsSolve.v
theories/ProofsStore.v
theories/ProofsValue.v
theories/ProofsWork.v
theories/ProofsWork2.v
theories/ProofsWork3.v
theories/ProofsWork4.v
theories/ProofsWorkload.v
theories/PropAcc.v
theories/PropAssemble.v
theories/PropBc.v
theories/PropBem.v
theories/PropBit.v
theories/PropBlock.v
theories/PropCache.v
theories/PropClose.v
theories/PropCoincide.v
theories/PropColl.v
theories/PropCollOwn.v
theories/PropConform.v
theories/PropConform2.v
theories/PropCost.v
theories/PropCurv.v
theories/PropDriver.v
theories/PropErr.v
theories/PropExp.v
theories/PropFiles.v
theories/PropFilesEx.v
theories/PropFloat.v
theories/PropFloatDip.v
theories/PropFloatExp.v
theories/PropFloatExp2.v
theories/PropFloatExp3.v
theories/PropFloatExp4.v
theories/PropFloatExp5.v
theories/PropFloatFmm.v
theories/PropFloatFmm2.v
theories/PropFloatSolve.v
theories/PropFloatSolveEx.v
theories/PropFloatSum.v
theories/PropFloatTrans.v
theories/PropFmm.v
theories/PropFmmAcc.v
theories/PropFmmInexact.v
theories/PropFmmRenum.v
theories/PropGeom.v
theories/PropHistory.v
theories/PropHyp.v
theories/PropHypGrad.v
theories/PropInexact.v
theories/PropKernel.v
theories/PropLegAcc.v
theories/PropLegAcc2.v
theories/PropLegendre.v
theories/PropMain.v
theories/PropNeumann.v
theories/PropOctree.v
theories/PropOwn.v
theories/PropParams.v
theories/PropProj.v
theories/PropRegen.v
theories/PropRenumMesh.v
theories/PropRenumber.v
theories/PropRndDirect.v
theories/PropRun.v
theories/PropRunClose.v
theories/PropRunCloseEx.v
theories/PropRunFmm.v
theories/PropRunFmmEx.v
theories/PropRunHistory.v
theories/PropRunInexact.v
theories/PropRunInexactEx.v
theories/PropSing.v
theories/PropSolve.v
theories/PropSolveFmm.v
theories/PropStore.v
theories/PropTrueCon.v
theories/PropTwoFe.v
theories/PropUnits.v
theories/PropUnitsFmm.v
theories/PropUnitsProj.v
theories/PropValue.v
theories/PropWork.v
theories/SpecAcc.v
theories/SpecAssemble.v
theories/SpecBit.v
theories/SpecColl.v
theories/SpecConc.v
theories/SpecExp.v
theories/SpecFloat.v
theories/SpecFloatDip.v
theories/SpecFloatExp.v
theories/SpecFloatFmm.v
theories/SpecFloatSolve.v
theories/SpecFloatTrans.v
theories/SpecFmm.v
theories/SpecFmmAcc.v
theories/SpecFmmRenum.v
theories/SpecHistory.v
theories/SpecHyp.v
theories/SpecLegAcc.v
theories/SpecLegendre.v
theories/SpecMain.v
theories/SpecOctree.v
theories/SpecOwn.v
theories/SpecParams.v
theories/SpecProj.v
theories/SpecRenumber.v
theories/SpecRndDirect.v
theories/SpecSing.v
theories/SpecSolve.v
theories/SpecTwoFe.v
theories/SpecUnits.v
theories/SpecValue.v
theories/SpecWorkload.v
