-Q theories Verif
theories/Base.v
theories/ModelSpan.v
theories/ModelComb.v
theories/ModelAst.v
theories/ModelTable.v
theories/ModelLink.v
theories/ModelInline.v
theories/ModelBlock.v
theories/ModelOracle.v
theories/SpecDoc.v
theories/ProofBase.v
theories/ProofBytes.v
theories/ProofContract.v
theories/ProofPrim.v
theories/ProofInline.v
theories/ProofLink.v
theories/ProofText.v
theories/SpecBlock.v
theories/ProofBlock.v
theories/ProofFence.v
theories/ProofDefs.v
theories/ProofTable.v
theories/ProofList.v
theories/ProofPage.v
theories/SpecTree.v
theories/ProofTree.v
theories/ProofEnv.v
theories/ProofClaims.v
theories/ProofClaims2.v
theories/SampleDoc.v
theories/SpecSpan.v
theories/ProofSpan.v
theories/PropertiesPage.v
theories/PropertiesSpan.v
theories/ModelElem.v
theories/SpecElem.v
theories/ProofElem.v
theories/ProofElem2.v
theories/PropertiesElem.v
theories/ModelPath.v
theories/SpecPath.v
theories/ProofPath.v
theories/ProofPath2.v
theories/PropertiesPath.v
theories/ModelHtml.v
theories/SpecHtml.v
theories/ProofHtml.v
theories/ProofHtmlId.v
theories/ProofHtml2.v
theories/ProofHtml3.v
theories/ProofHtml4.v
theories/ProofHtml5.v
theories/PropertiesHtml.v
theories/ModelVimwiki.v
theories/SpecVw.v
theories/ProofWhite.v
theories/ProofVw.v
theories/ProofVw2.v
theories/ProofVw3.v
theories/PropertiesVimwiki.v
theories/ModelCli.v
theories/SpecCli.v
theories/ProofCli.v
theories/ProofCli2.v
theories/ProofCli3.v
theories/ProofCli4.v
theories/ProofCli5.v
theories/PropertiesCli.v
theories/ModelEq.v
theories/SpecEq.v
theories/ProofEq.v
theories/ProofEq2.v
theories/ProofEq3.v
theories/ProofEq4.v
theories/PropertiesEq.v
theories/ProofRound.v
theories/ProofRound2.v
theories/ProofRound3.v
theories/ProofRound4.v
theories/SpecRound.v
theories/ProofRound5.v
theories/ProofRound6.v
theories/ProofRound7.v
theories/ProofRound8.v
theories/ProofRound9.v
theories/ProofRound13.v
theories/ProofRound15.v
theories/ProofRound16.v
theories/ProofRound14.v
theories/ProofRound10.v
theories/ProofSame.v
theories/ProofYield.v
theories/ProofSameHtml.v
theories/ProofFine.v
theories/ProofRound11.v
theories/ProofRound12.v
theories/PropertiesRound.v
theories/PropertiesSame.v
theories/ModelJson.v
theories/ModelInspect.v
theories/SpecJson.v
theories/ProofJson.v
theories/ProofJson2.v
theories/ProofJson3.v
theories/ProofJson4.v
theories/PropertiesJson.v
theories/ModelMacro.v
theories/SpecMacro.v
theories/ProofMacro.v
theories/ProofMacro2.v
theories/ProofMacro3.v
theories/ProofMacro4.v
theories/PropertiesMacro.v
theories/ModelTree.v
theories/SpecWalk.v
theories/ProofWalk.v
theories/ProofWalk2.v
theories/PropertiesWalk.v
theories/ModelEntry.v
theories/SpecEntry.v
theories/ProofEntry.v
theories/PropertiesEntry.v
theories/ModelWasm.v
theories/SpecWasm.v
theories/ProofWasm.v
theories/ProofWasm2.v
theories/ProofWasm3.v
theories/PropertiesWasm.v
theories/ModelExit.v
theories/SpecExit.v
theories/ProofExit.v
theories/PropertiesExit.v
theories/ModelTests.v
theories/ModelTestsHtml.v
theories/SpecLines.v
theories/ProofLines1.v
theories/ProofLines2.v
theories/ProofLines3.v
theories/ProofLines4.v
theories/PropertiesLines.v
theories/SpecMove.v
theories/ProofMove2.v
theories/ProofMove3.v
theories/ProofMove4.v
theories/ProofMove5.v
theories/ProofMove6.v
theories/PropertiesMove.v
theories/SpecEnd.v
theories/ProofEnd2.v
theories/ProofEnd3.v
theories/ProofEnd4.v
theories/ProofEnd5.v
theories/ProofEnd6.v
theories/PropertiesEnd.v
theories/ModelTime.v
theories/SpecTime.v
theories/ProofTime.v
theories/PropertiesTime.v
theories/ModelErr.v
theories/SpecErr.v
theories/ProofErr.v
theories/PropertiesErr.v
theories/ModelProps.v
theories/SpecProps.v
theories/ProofProps.v
theories/PropertiesProps.v
