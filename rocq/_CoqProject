-Q theories Verif

theories/GoStr.v
theories/ModelParser.v
theories/ModelPattern.v
theories/ModelPath.v
theories/ModelPretty.v
theories/ModelResult.v
theories/ModelQuery.v
theories/ModelValidate.v
theories/ModelBuilder.v
theories/ModelQueryOpts.v
theories/ModelApi.v
theories/ModelConc.v
theories/SpecText.v
theories/SpecGlob.v
theories/SpecPath.v
theories/SpecApi.v
theories/ProofBase.v
theories/ProofEscape.v
theories/ProofPattern.v
theories/ProofPath.v
theories/ProofScan.v
theories/ProofFuel.v
theories/ProofFuel2.v
theories/ProofSyntax.v
theories/ProofConc.v
theories/ProofApi.v
theories/ProofApi2.v
theories/ProofApi3.v
theories/ProofOpts.v
theories/PropText.v
theories/PropPath.v
theories/PropTotal.v
theories/PropSyntax.v
theories/PropConc.v
theories/PropApi.v
theories/SpecFilter.v
theories/ProofFilter.v
theories/ProofMono.v
theories/ProofFilter2.v
theories/PropFilter.v
theories/SpecTree.v
theories/ProofTree.v
theories/ProofTree2.v
theories/SpecQuery.v
theories/ProofTree3.v
theories/ProofTree4.v
theories/ProofTree5.v
theories/ProofTree6.v
theories/ProofTree7.v
theories/ProofTree8.v
theories/PropTree.v
theories/SpecEdit.v
theories/ProofEdit.v
theories/ProofEdit2.v
theories/ProofEdit3.v
theories/ProofEdit4.v
theories/ProofEdit5.v
theories/ProofEdit6.v
theories/ProofEdit7.v
theories/SpecValid.v
theories/ProofValid.v
theories/ProofValid2.v
theories/ProofValid3.v
theories/PropValid.v
theories/PropEdit.v
theories/SpecHistory.v
theories/ProofEdit8.v
theories/ProofEdit11.v
theories/ProofEdit9.v
theories/ProofEdit10.v
theories/PropHistory.v
theories/SpecMod.v
theories/ProofMod.v
theories/ProofMod2.v
theories/ProofMod3.v
theories/PropMod.v
theories/SpecContent.v
theories/SpecRaw.v
theories/ProofRaw.v
theories/ProofRaw2.v
theories/ProofRaw3.v
theories/ProofEdit12.v
theories/PropRaw.v
theories/SpecLang.v
theories/ProofLang.v
theories/ProofLang2.v
theories/ProofLang3.v
theories/ProofLang4.v
theories/ProofLang5.v
theories/PropLang.v
theories/SpecBound.v
theories/ProofBound.v
theories/ProofBound2.v
theories/PropBound.v
theories/SpecCase.v
theories/ProofCase.v
theories/ProofCase2.v
theories/ProofCase3.v
theories/ProofCase4.v
theories/PropCase.v
theories/SpecWhole.v
theories/ProofWhole.v
theories/ProofWhole2.v
theories/ProofWhole3.v
theories/PropWhole.v
theories/SpecNotation.v
theories/ProofNotation.v
theories/ProofNotation2.v
theories/PropNotation.v
theories/SpecOptions.v
theories/ProofOpt.v
theories/ProofOpt2.v
theories/ProofOpt3.v
theories/ProofOpt4.v
theories/ProofOpt5.v
theories/PropOptions.v
theories/SpecFluent.v
theories/ProofFluent.v
theories/ProofFluent2.v
theories/PropFluent.v
theories/SpecFault.v
theories/ProofFault.v
theories/ProofFault2.v
theories/ProofFault3.v
theories/ProofFault4.v
theories/PropFault.v
theories/SpecGrammar.v
theories/ProofGrammar.v
theories/ProofGrammar2.v
theories/PropGrammar.v
theories/SpecError.v
theories/ProofError.v
theories/PropError.v
theories/SpecScan.v
theories/ProofSight.v
theories/ProofSight2.v
theories/ProofSight3.v
theories/PropScan.v
theories/SpecAnswer.v
theories/ProofAnswer.v
theories/ProofAnswer2.v
theories/ProofAnswer3.v
theories/ProofAnswer4.v
theories/ProofAnswer5.v
theories/PropAnswer.v
theories/SpecOutcome.v
theories/ProofOutcome.v
theories/ProofOutcome2.v
theories/ProofOutcome3.v
theories/PropOutcome.v
theories/SpecPretty.v
theories/ProofPretty.v
theories/PropPretty.v
theories/ModelMessage.v
theories/SpecMessage.v
theories/ProofMessage.v
theories/PropMessage.v
theories/SpecLaid.v
theories/ProofLaid.v
theories/ProofLaid2.v
theories/ProofLaid3.v
theories/ProofLaid4.v
theories/ProofLaid5.v
theories/ProofLaid6.v
theories/PropLaid.v
theories/ModelErrText.v
theories/SpecComplaint.v
theories/ProofComplaint.v
theories/ProofComplaint2.v
theories/ProofComplaint3.v
theories/PropComplaint.v
theories/SpecFrame.v
theories/ProofFrame.v
theories/ProofFrame2.v
theories/ProofFrame3.v
theories/ProofFrame4.v
theories/PropFrame.v
theories/SpecNumber.v
theories/ProofNumber.v
theories/ProofNumber2.v
theories/ProofNumber3.v
theories/ProofNumber4.v
theories/PropNumber.v
theories/ProofNumber5.v
theories/ModelRace.v
theories/SpecRace.v
theories/ProofRace.v
theories/ProofRace2.v
theories/ProofRace3.v
theories/ProofName.v
theories/ProofName2.v
theories/ProofName3.v
theories/PropRace.v
theories/SpecPlain.v
theories/ProofPlain.v
theories/ProofPlain2.v
theories/ProofPlain3.v
theories/PropPlain.v
theories/ProofPlain4.v
theories/SpecShape.v
theories/ProofShape.v
theories/ProofShape2.v
theories/PropShape.v
theories/SpecInert.v
theories/ProofInert.v
theories/PropInert.v
theories/SpecModest.v
theories/ProofModest.v
theories/PropModest.v
theories/ModelWork.v
theories/SpecWork.v
theories/ProofWork.v
theories/ProofWork2.v
theories/PropWork.v
theories/ProofFrag.v
theories/PropFrag.v
theories/PropDocs.v
theories/PropSize.v
theories/ModelLoad.v
theories/SpecLoad.v
theories/ProofLoad.v
theories/PropLoad.v
theories/ModelToil.v
theories/ProofToil.v
theories/PropToil.v
theories/ModelLoadOpts.v
theories/ProofLoadOpts.v
theories/PropLoadOpts.v
theories/SpecHidden.v
theories/ProofHidden.v
theories/ProofHidden2.v
theories/ProofHidden3.v
theories/PropHidden.v
theories/ProofHidden4.v
theories/ProofHidden5.v
theories/PropHidden2.v
theories/SpecList.v
theories/ProofList.v
theories/PropList.v
theories/SpecTable.v
theories/ProofTable.v
theories/ProofTable2.v
theories/PropTable.v
theories/SpecSession.v
theories/ProofSession.v
theories/ProofSession2.v
theories/ProofSession3.v
theories/ProofSession4.v
theories/PropSession.v
theories/SpecTail.v
theories/ProofTail.v
theories/PropTail.v
theories/ProofCopy.v
theories/PropCopy.v
theories/ProofCut.v
theories/PropCut.v
theories/SpecStore.v
theories/ProofStore.v
theories/PropStore.v
theories/SpecPart.v
theories/ProofPart.v
theories/PropPart.v
theories/ModelBatch.v
theories/SpecBatch.v
theories/ProofBatch.v
theories/PropBatch.v
theories/SpecBudget.v
theories/ProofBudget.v
theories/PropBudget.v
theories/PropFaults.v
theories/SpecScript.v
theories/ProofScript.v
theories/PropScript.v
theories/SpecLoop.v
theories/ProofLoop.v
theories/PropLoop.v
theories/SpecQueue.v
theories/ProofQueue.v
theories/PropQueue.v
theories/SpecUnicode.v
theories/ProofUnicode.v
theories/PropUnicode.v
theories/SpecOrder.v
theories/ProofOrder.v
theories/PropOrder.v
theories/SpecUndo.v
theories/ProofUndo.v
theories/PropUndo.v
theories/SpecLanes.v
theories/ProofLanes.v
theories/PropLanes.v
theories/SpecLedger.v
theories/ProofLedger.v
theories/PropLedger.v
theories/ModelCheck.v
theories/ProofCheck.v
theories/PropCheck.v
theories/SpecFill.v
theories/ProofFill.v
theories/PropFill.v
theories/SpecLayer.v
theories/ProofLayer.v
theories/PropLayer.v
theories/SpecWhich.v
theories/ProofWhich.v
theories/PropWhich.v
theories/SpecSync.v
theories/ProofSync.v
theories/PropSync.v
theories/SpecAgent.v
theories/ProofAgent.v
theories/PropAgent.v
theories/SpecActor.v
theories/ProofActor.v
theories/PropActor.v
theories/SpecInquiry.v
theories/ProofInquiry.v
theories/PropInquiry.v
theories/SpecWeave.v
theories/ProofWeave.v
theories/PropWeave.v
theories/SpecPause.v
theories/PropPause.v
theories/SpecCount.v
theories/ProofCount.v
theories/PropCount.v
theories/SpecCrowd.v
theories/ProofCrowd.v
theories/PropCrowd.v
theories/SpecPurge.v
theories/ProofPurge.v
theories/PropPurge.v
