-Q theories Verif
theories/Base.v
theories/ByaccActionProof.v
theories/ByaccActionsProof.v
theories/ByaccClosureProof.v
theories/ByaccCompleteProof.v
theories/ByaccDeclProof.v
theories/ByaccDigraphProof.v
theories/ByaccFilePackProof.v
theories/ByaccFileProof.v
theories/ByaccFileTextModel.v
theories/ByaccGotoProof.v
theories/ByaccLalrModel.v
theories/ByaccLemonFileProof.v
theories/ByaccLemonItemsProof.v
theories/ByaccLemonModel.v
theories/ByaccLemonTextModel.v
theories/ByaccLemonTextProof.v
theories/ByaccLookProof.v
theories/ByaccLookSem.v
theories/ByaccLr0Model.v
theories/ByaccLr0Proof.v
theories/ByaccMono.v
theories/ByaccNameTextModel.v
theories/ByaccNameTextProof.v
theories/ByaccNullProof.v
theories/ByaccOutputModel.v
theories/ByaccPackFileProof.v
theories/ByaccPackModel.v
theories/ByaccPackProof.v
theories/ByaccPackTableProof.v
theories/ByaccParModel.v
theories/ByaccParProof.v
theories/ByaccParserModel.v
theories/ByaccParserProof.v
theories/ByaccPrecProof.v
theories/ByaccReadProof.v
theories/ByaccReaderModel.v
theories/ByaccReaderProof.v
theories/ByaccRejectProof.v
theories/ByaccRowsProof.v
theories/ByaccRulesModel.v
theories/ByaccScanModel.v
theories/ByaccScanProof.v
theories/ByaccStatesProof.v
theories/ByaccSymtabModel.v
theories/ByaccTableProof.v
theories/ByaccTableRangeProof.v
theories/ByaccTableTextModel.v
theories/ByaccTableTextProof.v
theories/ByaccTablesProof.v
theories/ByaccTerminatesProof.v
theories/ByaccTransposeProof.v
theories/ByaccWarshallModel.v
theories/ByaccWarshallProof.v
theories/CLib.v
theories/CTextProof.v
theories/LemonActionModel.v
theories/LemonActionProof.v
theories/LemonActtabModel.v
theories/LemonActtabProof.v
theories/LemonClosureProof.v
theories/LemonCodeModel.v
theories/LemonCodeProof.v
theories/LemonCompleteProof.v
theories/LemonCompressModel.v
theories/LemonCompressProof.v
theories/LemonEmitModel.v
theories/LemonFileTextModel.v
theories/LemonFirstModel.v
theories/LemonFirstProof.v
theories/LemonFollowModel.v
theories/LemonFollowProof.v
theories/LemonFuelProof.v
theories/LemonGenProof.v
theories/LemonIndexProof.v
theories/LemonLookupProof.v
theories/LemonMachineProof.v
theories/LemonNameTextModel.v
theories/LemonNameTextProof.v
theories/LemonNoPrecProof.v
theories/LemonParModel.v
theories/LemonParProof.v
theories/LemonPipelineModel.v
theories/LemonPreModel.v
theories/LemonPreProof.v
theories/LemonPrintfModel.v
theories/LemonReadBack.v
theories/LemonReadModel.v
theories/LemonReadProof.v
theories/LemonReadResync.v
theories/LemonReadSafe.v
theories/LemonReportModel.v
theories/LemonReportProof.v
theories/LemonReprintModel.v
theories/LemonReprintProof.v
theories/LemonScanProof.v
theories/LemonSetModel.v
theories/LemonSetProof.v
theories/LemonSortModel.v
theories/LemonSortProof.v
theories/LemonSoundProof.v
theories/LemonStatesModel.v
theories/LemonStatesProof.v
theories/LemonTabProof.v
theories/LemonTableModel.v
theories/LemonTableProof.v
theories/LemonTableRangeProof.v
theories/LemonTableTextModel.v
theories/LemonTableTextProof.v
theories/LemonYaccModel.v
theories/Prop_Agree.v
theories/Prop_ByaccClosure.v
theories/Prop_ByaccComplete.v
theories/Prop_ByaccConflicts.v
theories/Prop_ByaccDigraph.v
theories/Prop_ByaccEndToEnd.v
theories/Prop_ByaccFile.v
theories/Prop_ByaccFileText.v
theories/Prop_ByaccLemon.v
theories/Prop_ByaccLemonText.v
theories/Prop_ByaccLiteral.v
theories/Prop_ByaccLookahead.v
theories/Prop_ByaccLr0.v
theories/Prop_ByaccMidrule.v
theories/Prop_ByaccNameText.v
theories/Prop_ByaccNullable.v
theories/Prop_ByaccPacking.v
theories/Prop_ByaccParser.v
theories/Prop_ByaccReader.v
theories/Prop_ByaccRecovery.v
theories/Prop_ByaccReject.v
theories/Prop_ByaccStart.v
theories/Prop_ByaccSymtab.v
theories/Prop_ByaccTableText.v
theories/Prop_ByaccTerminates.v
theories/Prop_ByaccUnused.v
theories/Prop_ByaccWarshall.v
theories/Prop_LemonAction.v
theories/Prop_LemonActtab.v
theories/Prop_LemonCode.v
theories/Prop_LemonComplete.v
theories/Prop_LemonDefault.v
theories/Prop_LemonDestructors.v
theories/Prop_LemonDriver.v
theories/Prop_LemonEndToEnd.v
theories/Prop_LemonFileText.v
theories/Prop_LemonFirst.v
theories/Prop_LemonFollow.v
theories/Prop_LemonIndex.v
theories/Prop_LemonLines.v
theories/Prop_LemonNameText.v
theories/Prop_LemonPre.v
theories/Prop_LemonPreBool.v
theories/Prop_LemonPrintf.v
theories/Prop_LemonRead.v
theories/Prop_LemonRecovery.v
theories/Prop_LemonReprint.v
theories/Prop_LemonScan.v
theories/Prop_LemonSort.v
theories/Prop_LemonSound.v
theories/Prop_LemonStates.v
theories/Prop_LemonSwitch.v
theories/Prop_LemonSymbols.v
theories/Prop_LemonTable.v
theories/Prop_LemonTableText.v
theories/Prop_LemonTables.v
theories/Prop_LemonTerminates.v
theories/Prop_LemonUnion.v
theories/Prop_LemonUseless.v
theories/Prop_LemonYacc.v
theories/ReprintFileProof.v
theories/ReprintTextProof.v
theories/SpecAgree.v
theories/SpecByacc.v
theories/SpecByaccConflicts.v
theories/SpecByaccFile.v
theories/SpecByaccRules.v
theories/SpecCText.v
theories/SpecCode.v
theories/SpecConflict.v
theories/SpecFile.v
theories/SpecGrammar.v
theories/SpecGrammarFacts.v
theories/SpecItems.v
theories/SpecLR0.v
theories/SpecLRFacts.v
theories/SpecReach.v
theories/SpecReduceChain.v
theories/SpecReprint.v
