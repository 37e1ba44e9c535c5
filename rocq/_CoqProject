-Q theories Verif
theories/Base.v
theories/ModelVolt.v
theories/SpecVolt.v
theories/ProofVolt.v
theories/PropsVolt.v
theories/ModelUtils.v
theories/SpecTensor.v
theories/ProofTensor.v
theories/PropsTensor.v
theories/ModelExpr.v
theories/ModelField.v
theories/SpecField.v
theories/ProofField.v
theories/ProofPixel.v
theories/ProofDeriv.v
theories/ProofSys.v
theories/ProofPseudo.v
theories/PropsField.v
theories/ProofEdgeG.v
theories/ProofEdgeP.v
theories/ProofEdgeT.v
theories/ProofEdgeT5.v
theories/ProofEdgeS.v
theories/ProofEdgeR.v
theories/ProofEdge.v
theories/ModelGeom.v
theories/SpecPoly.v
theories/ProofPoly.v
theories/ProofEdgeSym.v
theories/ProofPoly2.v
theories/ProofPoly3.v
theories/PropsPoly.v
theories/ModelGrid.v
theories/SpecGrid.v
theories/ProofGrid.v
theories/PropsGrid.v
theories/ModelCons.v
theories/SpecCons.v
theories/ProofCons.v
theories/PropsCons.v
theories/ProofGroup.v
theories/PropsGroup.v
theories/ModelSearch.v
theories/SpecSearch.v
theories/ProofSearch.v
theories/PropsSearch.v
theories/ModelDyn.v
theories/SpecDyn.v
theories/ProofDyn.v
theories/PropsDyn.v
theories/ProofGen.v
theories/PropsGen.v
theories/ModelTrans.v
theories/SpecTrans.v
theories/ProofTrans.v
theories/ProofEuler.v
theories/ProofRigid.v
theories/ProofShape.v
theories/ProofQuat.v
theories/ProofBall.v
theories/ProofAbout.v
theories/PropsTrans.v
theories/ModelMathieu.v
theories/SpecMathieu.v
theories/ProofMathieu.v
theories/PropsMathieu.v
theories/ModelLayout.v
theories/SpecLayout.v
theories/ProofLayout.v
theories/ProofLayout2.v
theories/PropsLayout.v
theories/ModelTools.v
theories/SpecTools.v
theories/ProofTools.v
theories/ProofAdjust.v
theories/ProofMove.v
theories/ProofXic.v
theories/PropsTools.v
theories/ModelHarm.v
theories/SpecHarm.v
theories/ProofHarm.v
theories/ProofFft.v
theories/ProofSynth.v
theories/PropsHarm.v
theories/ModelSph.v
theories/SpecSph.v
theories/ProofSph.v
theories/ProofOrtho.v
theories/PropsSph.v
theories/SpecBound.v
theories/ProofBound.v
theories/PropsBound.v
theories/ModelIons.v
theories/SpecIons.v
theories/ProofIons.v
theories/ProofIons2.v
theories/PropsIons.v
theories/ModelClassic.v
theories/SpecClassic.v
theories/ProofClassic.v
theories/ProofClassic2.v
theories/ProofClassic3.v
theories/PropsClassic.v
theories/ModelDecomp.v
theories/ModelRegister.v
theories/SpecDecomp.v
theories/ProofDecomp.v
theories/ProofDecomp2.v
theories/ProofDecomp3.v
theories/ProofRegister.v
theories/ProofRegister2.v
theories/ProofRegister3.v
theories/ProofRegister4.v
theories/ProofDecomp4.v
theories/ProofRegister5.v
theories/PropsDecomp.v
theories/SpecMirror.v
theories/ProofMirror.v
theories/PropsMirror.v
theories/ModelFrom.v
theories/SpecFrom.v
theories/ProofFrom.v
theories/ProofFrom2.v
theories/ProofFrom3.v
theories/ProofFrom4.v
theories/ProofFrom5.v
theories/ProofFrom6.v
theories/PropsFrom.v
theories/ModelCExt.v
theories/SpecCExt.v
theories/ProofCExt.v
theories/ProofCQuat.v
theories/ProofCArc.v
theories/ProofCCheck.v
theories/PropsCExt.v
theories/ModelCInv.v
theories/SpecCInv.v
theories/ProofCInv.v
theories/ProofCInv2.v
theories/ProofCInv3.v
theories/PropsCInv.v
theories/ModelCEig.v
theories/SpecCEig.v
theories/ProofCEig.v
theories/ProofCEig2.v
theories/ProofCEig3.v
theories/ProofCEig4.v
theories/ProofCEig5.v
theories/ProofCEig6.v
theories/ProofCEig7.v
theories/PropsCEig.v
theories/ModelNorm.v
theories/SpecNorm.v
theories/ProofNorm.v
theories/ProofNorm2.v
theories/PropsNorm.v
theories/ModelMisc.v
theories/SpecMisc.v
theories/ProofMisc.v
theories/PropsMisc.v
theories/SpecMax.v
theories/ProofMax.v
theories/ProofMax2.v
theories/ProofMax3.v
theories/ProofMax4.v
theories/ProofMax5.v
theories/ProofMax6.v
theories/PropsMax.v
theories/ModelLoad.v
theories/SpecLoad.v
theories/ProofLoad.v
theories/PropsLoad.v
theories/ModelPlot.v
theories/SpecPlot.v
theories/ProofPlot.v
theories/ProofPlot2.v
theories/PropsPlot.v
theories/ModelHelpers.v
theories/SpecHelpers.v
theories/ProofHelpers.v
theories/PropsHelpers.v
theories/ModelSmooth.v
theories/SpecSmooth.v
theories/ProofSmooth.v
theories/ProofSmooth2.v
theories/PropsSmooth.v
theories/ModelThreads.v
theories/SpecThreads.v
theories/ProofThreads.v
theories/PropsThreads.v
theories/SpecCentre.v
theories/SpecTile.v
theories/ProofCentre.v
theories/PropsCentre.v
theories/ModelRefs.v
theories/SpecRefs.v
theories/ProofRefs.v
theories/ProofRefs2.v
theories/PropsRefs.v
theories/SpecBall.v
theories/ProofBall2.v
theories/PropsBall.v
theories/ModelFloat.v
theories/ModelFloatExpr.v
theories/ModelFloatField.v
theories/SpecFloat.v
theories/ProofFloat.v
theories/ProofFloat2.v
theories/ProofFloat3.v
theories/ProofFloat4.v
theories/ProofFloat5.v
theories/PropsFloat.v
theories/ModelFloquet.v
theories/SpecFloquet.v
theories/ProofFloquet.v
theories/ProofFloquet2.v
theories/ProofFloquet3.v
theories/ProofFloquet4.v
theories/ProofFloquet5.v
theories/PropsFloquet.v
theories/ProofRandom.v
theories/PropsRandom.v
theories/SpecEarnshaw.v
theories/ProofEarnshaw.v
theories/PropsEarnshaw.v
theories/ModelDraw.v
theories/SpecDraw.v
theories/ProofDraw.v
theories/PropsDraw.v
theories/ModelAngle.v
theories/SpecAngle.v
theories/ProofAngle.v
theories/PropsAngle.v
theories/ModelSumC.v
theories/SpecSumC.v
theories/ProofSumC.v
theories/PropsSumC.v
theories/SpecDet.v
theories/ProofDet.v
theories/ModelRegN.v
theories/SpecRegN.v
theories/ProofRegN.v
theories/ProofRegN2.v
theories/ProofRegN3.v
theories/ProofRegN4.v
theories/PropsRegN.v
theories/ModelCross.v
theories/SpecCross.v
theories/ProofCross.v
theories/PropsCross.v
theories/ModelOrient.v
theories/ProofOrient.v
theories/PropsOrient.v
theories/SpecFloat2.v
theories/ProofFloat6.v
theories/ProofFloat7.v
theories/PropsFloat2.v
theories/SpecCover.v
theories/ProofCover.v
theories/PropsCover.v
theories/ProofCover2.v
theories/ProofCover3.v
theories/ProofCover4.v
theories/PropsCover2.v
theories/SpecDirichlet.v
theories/ProofDirichlet.v
theories/ProofDirichlet2.v
theories/PropsDirichlet.v
theories/SpecTurn.v
theories/ProofTurn.v
theories/ProofTurn2.v
theories/ProofTurn3.v
theories/PropsTurn.v
theories/SpecMinimum.v
theories/ProofMin.v
theories/ProofMin2.v
theories/ProofMin3.v
theories/ProofMin4.v
theories/PropsMinimum.v
theories/SpecFloat3.v
theories/ProofFloat8.v
theories/ProofFloat9.v
theories/ProofFloat10.v
theories/PropsFloat3.v
theories/ProofCover5.v
theories/ProofCover6.v
theories/PropsCover3.v
theories/ModelFloatPseudo.v
theories/SpecFloat4.v
theories/ProofFloat11.v
theories/PropsFloat4.v
theories/SpecFloat5.v
theories/ProofFloat12.v
theories/ProofFloat13.v
theories/ProofFloat14.v
theories/ProofFloat15.v
theories/PropsFloat5.v
theories/SpecCompare.v
theories/ProofCompare.v
theories/SpecFar.v
theories/ProofFar.v
theories/ProofFar2.v
theories/PropsCompare.v
theories/SpecBarrier.v
theories/ProofBarrier.v
theories/PropsBarrier.v
theories/ProofCompare2.v
theories/ProofStrong.v
theories/PropsCompare2.v
theories/ProofAbove.v
theories/PropsAbove.v
theories/ProofAbove2.v
theories/PropsAbove2.v
theories/PropsGds.v
theories/PropsOverlap.v
theories/PropsGroup2.v
