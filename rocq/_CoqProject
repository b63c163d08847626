-Q theories Verif
theories/Base.v
theories/TreeModel.v
theories/TreeSpec.v
theories/TreeProof.v
theories/StreamModel.v
theories/StreamSpec.v
theories/StreamProof.v
theories/PropTree.v
theories/BinSearchModel.v
theories/BinSearchSpec.v
theories/BinSearchProof.v
theories/RandomModel.v
theories/IntegralModel.v
theories/IntegralSpec.v
theories/IntegralProof.v
theories/BoolModel.v
theories/BoolProof.v
theories/PropInt.v
theories/ListModel.v
theories/ListSpec.v
theories/ListProof.v
theories/ListShapeProof.v
theories/ListBulkProof.v
theories/ListMainProof.v
theories/PropList.v
theories/StringModel.v
theories/TupleModel.v
theories/TupleSpec.v
theories/TupleProof.v
theories/StringSpec.v
theories/StringProof.v
theories/PropTuple.v
theories/ContainerModel.v
theories/ContainerSpec.v
theories/ContainerProof.v
theories/PropContainer.v
theories/GenModel.v
theories/GenSpec.v
theories/GenProof.v
theories/PropGen.v
theories/EffModel.v
theories/EffSpec.v
theories/EffProof.v
theories/PropEff.v
theories/ContextModel.v
theories/ContextSpec.v
theories/ContextProof.v
theories/RunnerModel.v
theories/PropContext.v
theories/RunnerSpec.v
theories/RunnerProof.v
theories/RunnerPureProof.v
theories/RunnerShrinkProof.v
theories/RunnerLogProof.v
theories/PropRun.v
theories/MatrixSpec.v
theories/MatrixProof.v
theories/PropMatrix.v
theories/Utf8Model.v
theories/UtfSpec.v
theories/UtfProof.v
theories/Cesu8Model.v
theories/Utf16Model.v
theories/Utf16Proof.v
theories/UnicodeGenModel.v
theories/PropUtf.v
theories/UnicodeGenProof.v
theories/PropUnicode.v
theories/PrintModel.v
theories/PrintSpec.v
theories/PrintProof.v
theories/ShowProof.v
theories/PropPrint.v
theories/PointerModel.v
theories/PointerSpec.v
theories/PropPointer.v
theories/BitmapModel.v
theories/BitmapSpec.v
theories/BitmapProof.v
theories/BitmapAloneProof.v
theories/PropBitmap.v
theories/BitmapRunProof.v
theories/StatefulModel.v
theories/StatefulSpec.v
theories/StatefulProof.v
theories/PropStateful.v
theories/RunnerOnProof.v
theories/ConcModel.v
theories/ConcSpec.v
theories/ConcProof.v
theories/ConcInv.v
theories/ConcCo.v
theories/ConcMore.v
theories/ConcFinish.v
theories/PropConc.v
theories/PipeModel.v
theories/PropPipe.v
theories/FloatModel.v
theories/FloatSpec.v
theories/FloatProof.v
theories/FloatTree.v
theories/PropFloat.v
theories/ConcGoModel.v
theories/ConcGoSpec.v
theories/ConcGoProof.v
theories/PropConcGo.v
theories/MacroModel.v
theories/MacroSpec.v
theories/MacroProof.v
theories/PropMacro.v
theories/SeedModel.v
theories/SeedSpec.v
theories/SeedProof.v
theories/PropSeed.v
theories/ConstructModel.v
theories/ConstructSpec.v
theories/ConstructProof.v
theories/SharingModel.v
theories/SharingSpec.v
theories/SharingProof.v
theories/PropConstruct.v
theories/SearchSpec.v
theories/SearchProof.v
theories/PropSearch.v
theories/ListSearchSpec.v
theories/ListSearchProof.v
theories/PropListSearch.v
theories/SettingsModel.v
theories/SettingsSpec.v
theories/SettingsProof.v
theories/SettingsRunProof.v
theories/SettingsFactsProof.v
theories/PropSettings.v
theories/RecursiveModel.v
theories/RecursiveSpec.v
theories/RecursiveProof.v
theories/PropRecursive.v
theories/BoundarySpec.v
theories/BoundaryProof.v
theories/LazyModel.v
theories/LazySpec.v
theories/LazyProof.v
theories/PropLazy.v
theories/ThrowModel.v
theories/ThrowSpec.v
theories/ThrowProof.v
theories/PropThrow.v
theories/ThrowMapProof.v
theories/FloatPrintModel.v
theories/FloatPrintSpec.v
theories/FloatPrintProof.v
theories/FloatPrintNearProof.v
theories/PropFloatPrint.v
theories/RoundProof.v
theories/PercentProof.v
theories/PropPercent.v
theories/WeightProof.v
theories/WeightSpec.v
theories/PropWeights.v
theories/SupportSpec.v
theories/SupportProof.v
theories/SupportCoinProof.v
theories/TupleGenModel.v
theories/PropSupport.v
theories/TranscriptModel.v
theories/TranscriptSpec.v
theories/TranscriptProof.v
theories/PropTranscript.v
theories/ErasureModel.v
theories/ErasureSpec.v
theories/ErasureProof.v
theories/ErasureEffProof.v
theories/PropErasure.v
theories/ChanceSpec.v
theories/ChanceProof.v
theories/ChanceLawProof.v
theories/ChanceCombProof.v
theories/ChanceRunProof.v
theories/PropChance.v
theories/ChanceWeightProof.v
theories/RaceModel.v
theories/RaceSpec.v
theories/RaceProof.v
theories/RaceHist.v
theories/RaceMore.v
theories/RaceLog.v
theories/PropRace.v
theories/MinimalSpec.v
theories/MinimalProof.v
theories/PropMinimal.v
theories/ActionsSpec.v
theories/ActionsProof.v
theories/PropActions.v
theories/EffortSpec.v
theories/EffortProof.v
theories/PropEffort.v
theories/DepEffortSpec.v
theories/DepEffortProof.v
theories/PropDepEffort.v
theories/DepChanceSpec.v
theories/DepChanceProof.v
theories/DepChanceMainProof.v
theories/PropDepChance.v
theories/EndingSpec.v
theories/EndingProof.v
theories/PropEnding.v
theories/BugChanceSpec.v
theories/BugChanceProof.v
theories/PropBugChance.v
theories/NodeModel.v
theories/NodeSpec.v
theories/NodeProof.v
theories/NodeEdgeProof.v
theories/PropNode.v
theories/SetChanceSpec.v
theories/SetChanceProof.v
theories/SetSureProof.v
theories/PropSetChance.v
theories/FloatChanceSpec.v
theories/FloatChanceProof.v
theories/PropFloatChance.v
theories/UnicodeChanceProof.v
theories/PropUnicodeChance.v
theories/FloatSearchSpec.v
theories/FloatSearchProof.v
theories/PropFloatSearch.v
theories/PropEncodedSearch.v
theories/ReportChanceSpec.v
theories/PropReportChance.v
theories/PropFirstReport.v
theories/PropEnough.v
