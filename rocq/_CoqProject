-Q theories Verif
theories/Base.v
theories/ModelAst.v
theories/ModelParser.v
theories/ModelPegRules.v
theories/ModelPeg2code.v
theories/ModelPeg.v
theories/ModelGcode.v
theories/ModelMain.v
theories/ModelCost.v
theories/SpecPeg.v
theories/SpecPos.v
theories/SpecApi.v
theories/SpecCombinators.v
theories/SpecAst.v
theories/Examples.v
theories/ProofParser.v
theories/ProofEngine.v
theories/ProofSim.v
theories/ProofApi.v
theories/SpecReport.v
theories/ProofReport.v
theories/ProofCombinators.v
theories/ProofAst.v
theories/PropertiesParser.v
theories/PropertiesAst.v
theories/PropertiesReport.v
theories/SpecWf.v
theories/ProofWf.v
theories/WfCheck.v
theories/WfComplete.v
theories/PropertiesWf.v
theories/PegTools.v
theories/SpecSyntax.v
theories/ProofConsume.v
theories/PegNames.v
theories/PegLeaf.v
theories/ProofPegInv.v
theories/ProofPegBuild.v
theories/ProofPegMono.v
theories/SpecPegApi.v
theories/ProofPegPrint.v
theories/ProofPegMeaning.v
theories/ProofPegEnd.v
theories/ProofPegDefect.v
theories/ProofPegPath.v
theories/ProofPegApi.v
theories/PropertiesPeg.v
theories/SpecRust.v
theories/ProofGcode.v
theories/ProofGcodeExact.v
theories/ProofBootstrap.v
theories/PropertiesGcode.v
theories/SpecPanic.v
theories/ProofPanic.v
theories/PropertiesPanic.v
theories/ProofPipeline.v
theories/PropertiesPipeline.v
theories/SpecRename.v
theories/ProofRename.v
theories/SpecRefactor.v
theories/ProofRefactor.v
theories/PropertiesRefactor.v
theories/ProofEndToEnd.v
theories/PropertiesEndToEnd.v
theories/SpecText.v
theories/ProofText.v
theories/PropertiesText.v
theories/ModelDebug.v
theories/ProofDebug.v
theories/ModelPretty.v
theories/ProofPretty.v
theories/PropertiesDebug.v
theories/SpecCost.v
theories/ProofCost.v
theories/ProofCost2.v
theories/ProofTreeSize.v
theories/ProofRun.v
theories/ProofRunCost.v
theories/ProofReadCost.v
theories/ProofReadLow.v
theories/PropertiesCost.v
theories/SpecLang.v
theories/ProofLang.v
theories/ProofIdioms.v
theories/PropertiesIdioms.v
theories/SpecDocs.v
theories/ProofDocs.v
theories/ProofCalc.v
theories/PropertiesDocs.v
theories/ProofRunDet.v
theories/ProofCalcCost.v
theories/ProofCalcLean.v
theories/PropertiesDocCost.v
theories/SpecHang.v
theories/ProofHang.v
theories/PropertiesHang.v
theories/ModelClass.v
theories/ProofClass.v
theories/PropertiesClass.v
theories/SpecLook.v
theories/ProofLook.v
theories/PropertiesLook.v
theories/SpecBnf.v
theories/ProofBnf.v
theories/PropertiesBnf.v
theories/ProofLinear.v
theories/PropertiesLinear.v
theories/ProofViable.v
theories/PropertiesViable.v
theories/SpecStuck.v
theories/ProofStuck.v
theories/PropertiesStuck.v
theories/ConformancePeg.v
theories/Conformance.v
theories/SpecTable.v
theories/ProofTable.v
theories/PropertiesTable.v
theories/SpecWords.v
theories/ProofWords.v
theories/PropertiesWords.v
theories/SpecBlanks.v
theories/ProofBlanks.v
theories/PropertiesBlanks.v
theories/SpecNested.v
theories/ProofNested.v
theories/PropertiesNested.v
theories/SpecOps.v
theories/ProofOps.v
theories/PropertiesOps.v
theories/SpecPower.v
theories/ProofPower.v
theories/PropertiesPower.v
theories/SpecPieces.v
theories/ProofPieces.v
theories/PropertiesPieces.v
theories/SpecQuoted.v
theories/ProofQuoted.v
theories/PropertiesQuoted.v
theories/SpecPlace.v
theories/ProofPlace.v
theories/PropertiesPlace.v
theories/SpecSwap.v
theories/ProofSwap.v
theories/ProofTill.v
theories/ProofLongest.v
theories/SpecLocal.v
theories/ProofLocal.v
theories/ProofBlame.v
theories/PropertiesLocal.v
theories/SpecJson.v
theories/ProofJson.v
theories/PropertiesJson.v
theories/SpecClauses.v
theories/ProofClauses.v
theories/PropertiesClauses.v
theories/SpecTiles.v
theories/ProofTiles.v
theories/PropertiesTiles.v
theories/SpecTrail.v
theories/ProofTrail.v
theories/PropertiesTrail.v
theories/SpecLeft.v
theories/ProofLeft.v
theories/PropertiesLeft.v
theories/SpecRegex.v
theories/ProofRegex.v
theories/PropertiesRegex.v
theories/SpecGuard.v
theories/ProofGuard.v
theories/PropertiesGuard.v
theories/SpecSpeed.v
theories/ProofSpeed.v
theories/PropertiesSpeed.v
theories/SpecGrow.v
theories/ProofGrow.v
theories/PropertiesGrow.v
theories/SpecMirror.v
theories/ProofMirror.v
theories/PropertiesMirror.v
theories/ModelWalk.v
theories/ProofWalk.v
theories/ProofWalkLow.v
theories/PropertiesWalk.v
theories/SpecOrder.v
theories/ProofOrder.v
theories/PropertiesOrder.v
theories/SpecTools.v
theories/ModelTools.v
theories/ProofTools.v
theories/ProofToolsApi.v
theories/PropertiesTools.v
theories/SpecCopy.v
theories/ModelCopy.v
theories/ProofCopy.v
theories/ProofCopyApi.v
theories/PropertiesCopy.v
theories/SpecStack.v
theories/ProofStack.v
theories/PropertiesStack.v
theories/SpecShape.v
theories/ProofShape.v
theories/PropertiesShape.v
theories/SpecLoops.v
theories/ProofLoops.v
theories/PropertiesLoops.v
theories/SpecRegular.v
theories/ProofFinite.v
theories/ProofRegular.v
theories/PropertiesRegular.v
theories/ProofDecide.v
theories/PropertiesDecide.v
theories/SpecLines.v
theories/ProofLines.v
theories/PropertiesLines.v
theories/SpecLexer.v
theories/ProofLexer.v
theories/PropertiesLexer.v
theories/SpecHard.v
theories/ProofHard.v
theories/PropertiesHard.v
theories/SpecSearch.v
theories/ProofSearch.v
theories/PropertiesSearch.v
theories/SpecComments.v
theories/ProofComments.v
theories/ProofComments2.v
theories/PropertiesComments.v
theories/SpecBlocks.v
theories/ProofBlocks.v
theories/PropertiesBlocks.v
theories/SpecRecover.v
theories/ProofRecover.v
theories/PropertiesRecover.v
theories/SpecCase.v
theories/ProofCase.v
theories/PropertiesCase.v
theories/SpecEdit.v
theories/ProofEdit.v
theories/PropertiesEdit.v
theories/SpecCodes.v
theories/ProofCodes.v
theories/PropertiesCodes.v
theories/SpecViews.v
theories/ProofViews.v
theories/PropertiesViews.v
theories/SpecFault.v
theories/ProofFault.v
theories/PropertiesFault.v
theories/SpecHistory.v
theories/ProofHistory.v
theories/PropertiesHistory.v
theories/SpecElse.v
theories/ProofElse.v
theories/ProofElse2.v
theories/PropertiesElse.v
theories/SpecCsv.v
theories/ProofCsv.v
theories/ProofCsvCost.v
theories/ProofCsvError.v
theories/PropertiesCsv.v
theories/SpecVisit.v
theories/ProofVisit.v
theories/PropertiesVisit.v
theories/SpecEval.v
theories/ProofEval.v
theories/PropertiesEval.v
theories/SpecDecode.v
theories/ProofDecode.v
theories/PropertiesDecode.v
theories/SpecRange.v
theories/ProofRange.v
theories/PropertiesRange.v
theories/SpecOnce.v
theories/ProofOnce.v
theories/PropertiesOnce.v
theories/SpecTrie.v
theories/ProofTrie.v
theories/PropertiesTrie.v
theories/ProofPump.v
theories/ProofPump2.v
theories/ProofPump3.v
theories/PropertiesPump.v
theories/SpecFields.v
theories/ProofFields.v
theories/ProofFields2.v
theories/PropertiesFields.v
theories/SpecLayout.v
theories/ProofLayout.v
theories/PropertiesLayout.v
theories/SpecRecords.v
theories/ProofRecords.v
theories/PropertiesRecords.v
