-Q theories Verif
theories/Base.v
theories/Num.v
theories/ModelPitch.v
theories/ModelDuration.v
theories/ModelInstruments.v
theories/ModelTypes.v
theories/ModelLisp.v
theories/ModelScore.v
theories/SpecPitch.v
theories/ProofPitch.v
theories/PropertiesPitch.v
theories/ProofNum.v
theories/SpecDuration.v
theories/ProofDuration.v
theories/PropertiesDuration.v
theories/SpecScore.v
theories/ProofHeap.v
theories/ProofStep.v
theories/ProofInv.v
theories/ProofEvents.v
theories/PropertiesEvents.v
theories/ProofVoices.v
theories/SpecVars.v
theories/ProofVars.v
theories/ProofSafe.v
theories/PropertiesVars.v
theories/SpecParts.v
theories/ProofTracks.v
theories/PropertiesParts.v
theories/SpecSolo.v
theories/ProofSolo.v
theories/ProofSoloOk.v
theories/SpecTiming.v
theories/ProofTiming.v
theories/PropertiesTiming.v
theories/SpecRepeat.v
theories/ProofRepeat.v
theories/PropertiesRepeat.v
theories/SpecCram.v
theories/ProofCram.v
theories/PropertiesCram.v
theories/SpecGlobals.v
theories/ProofGlobals.v
theories/PropertiesGlobals.v
theories/SpecVoices.v
theories/ProofGroups.v
theories/PropertiesVoices.v
theories/SpecDeclare.v
theories/ProofDeclare.v
theories/PropertiesDeclare.v
theories/ModelOsc.v
theories/SpecOsc.v
theories/ProofOsc.v
theories/ProofTempo.v
theories/PropertiesOsc.v
theories/ProofOrder.v
theories/ModelRepl.v
theories/SpecRepl.v
theories/ProofRepl.v
theories/PropertiesRepl.v
theories/ModelPlayer.v
theories/SpecPlayer.v
theories/ProofPlayer.v
theories/ProofPackets.v
theories/ProofTicks.v
theories/PropertiesPlayer.v
theories/SpecLisp.v
theories/ProofLisp.v
theories/PropertiesLisp.v
theories/ModelPool.v
theories/SpecPool.v
theories/ProofPool.v
theories/PropertiesPool.v
theories/ModelScan.v
theories/SpecScan.v
theories/ProofScan.v
theories/PropertiesScan.v
theories/ModelParser.v
theories/SpecParser.v
theories/ProofParser.v
theories/ProofParseText.v
theories/PropertiesParser.v
theories/ModelAst.v
theories/SpecAst.v
theories/ProofAst.v
theories/ProofAstTree.v
theories/PropertiesAst.v
theories/ModelFormat.v
theories/SpecFormat.v
theories/ProofFormat.v
theories/ProofFormatTok.v
theories/ProofFormatLisp.v
theories/ProofFormatNote.v
theories/ProofFormatEvent.v
theories/ProofFormatMain.v
theories/ProofFormatTop.v
theories/PropertiesFormat.v
theories/ModelImporter.v
theories/SpecImporter.v
theories/ProofImporter.v
theories/ProofImporter2.v
theories/ProofImporter3.v
theories/ProofImporter4.v
theories/ProofImporter5.v
theories/ProofImporter6.v
theories/ProofImporter7.v
theories/PropertiesImporter.v
theories/ModelGen.v
theories/SpecGen.v
theories/ProofGen.v
theories/ProofGen2.v
theories/ProofGen3.v
theories/ProofGen4.v
theories/PropertiesGen.v
theories/ModelMusicXml.v
theories/SpecMusicXml.v
theories/ProofXmlDur.v
theories/ProofXmlDur2.v
theories/PropertiesMusicXml.v
theories/SpecXmlScore.v
theories/ProofXmlPlay.v
theories/ProofXmlChan.v
theories/ProofXmlExec.v
theories/ProofXmlParts.v
theories/ProofXmlRead.v
theories/ProofXmlVoice.v
theories/ProofXmlPart.v
theories/ProofXmlWalk.v
theories/ProofXmlMeasure.v
theories/ProofXmlWhole.v
theories/ProofXmlDoc.v
theories/PropertiesXmlScore.v
theories/ModelReplClient.v
theories/SpecReplClient.v
theories/ProofReplClient.v
theories/PropertiesReplClient.v
theories/ModelUtf8.v
theories/SpecLines.v
theories/ProofUtf8.v
theories/ProofLines.v
theories/ProofLinesRepl.v
theories/PropertiesLines.v
theories/ModelApply.v
theories/SpecApply.v
theories/ProofApply.v
theories/ProofApplyRun.v
theories/ProofApplyEnd.v
theories/ProofApplyAll.v
theories/ProofApplyLive.v
theories/ProofApplyExact.v
theories/ProofApplyEx.v
theories/PropertiesApply.v
theories/SpecTime.v
theories/ProofTime.v
theories/PropertiesTime.v
theories/ProofLevels.v
theories/ProofWritten.v
theories/SpecMidi.v
theories/ProofMidi.v
theories/PropertiesMidi.v
theories/ModelUpdate.v
theories/SpecUpdate.v
theories/ProofUpdate.v
theories/PropertiesUpdate.v
theories/ModelManage.v
theories/SpecManage.v
theories/ProofManage.v
theories/PropertiesManage.v
theories/SpecIeee.v
theories/ProofIeee.v
theories/ProofTicks64.v
theories/ProofMidi64.v
theories/PropertiesIeee.v
theories/ModelCommand.v
theories/SpecCommand.v
theories/ProofCommand.v
theories/PropertiesCommand.v
theories/ModelTelemetry.v
theories/SpecTelemetry.v
theories/ProofTelemetry.v
theories/PropertiesTelemetry.v
theories/ModelFormatCommand.v
theories/SpecFormatCommand.v
theories/ProofFormatCommand.v
theories/PropertiesFormatCommand.v
theories/SpecSections.v
theories/ProofSections.v
theories/PropertiesSections.v
theories/SpecWritten.v
theories/ProofWritten1.v
theories/ProofWritten2.v
theories/ProofWritten3.v
theories/ProofWritten4.v
theories/ProofWritten5.v
theories/ProofWritten6.v
theories/ProofWritten7.v
theories/ProofWritten8.v
theories/PropertiesWritten.v
theories/ModelImportCommand.v
theories/SpecImportCommand.v
theories/ProofImportCommand.v
theories/PropertiesImportCommand.v
theories/ModelShowTree.v
theories/SpecShowTree.v
theories/ProofShowTree.v
theories/PropertiesShowTree.v
theories/ModelBox.v
theories/SpecBox.v
theories/ProofBox.v
theories/PropertiesBox.v
theories/ModelPrompt.v
theories/SpecPrompt.v
theories/ProofPrompt.v
theories/PropertiesPrompt.v
theories/ModelDoctor.v
theories/SpecDoctor.v
theories/ProofDoctor.v
theories/PropertiesDoctor.v
theories/ModelPlayerVersion.v
theories/SpecPlayerVersion.v
theories/ProofPlayerVersion.v
theories/PropertiesPlayerVersion.v
