-Q theories Verif
theories/AcxCompilerProofs.v
theories/AcxProps.v
theories/AcxTrieProofs.v
theories/AgreeProofs.v
theories/AgreeProps.v
theories/AgreeSpec.v
theories/AlphabetModel.v
theories/AlphabetProofs.v
theories/AlphabetProps.v
theories/AnalysisLoopProofs.v
theories/AnalysisProofs.v
theories/AnalysisProps.v
theories/AnalysisScan.v
theories/AnalysisSpec.v
theories/AttFileProofs.v
theories/AttGraphProofs.v
theories/AttModel.v
theories/AttPartsProofs.v
theories/AttPrintProofs.v
theories/AttProofs.v
theories/AttProps.v
theories/AttSpec.v
theories/AttSplitProofs.v
theories/AttTextProofs.v
theories/AttWalkProofs.v
theories/AutomataProps.v
theories/Base.v
theories/BilingualModel.v
theories/BilingualProofs.v
theories/BilingualProps.v
theories/BilingualSpec.v
theories/BufferModel.v
theories/BufferProps.v
theories/CaseModel.v
theories/CaseProps.v
theories/CharFileModel.v
theories/CharFileSpec.v
theories/CliModel.v
theories/CliProcProofs.v
theories/CliProofs.v
theories/CliProps.v
theories/CliSpec.v
theories/ClosureProofs.v
theories/CodecProps.v
theories/CompCliModel.v
theories/CompCliProps.v
theories/CompilerAcxProps.v
theories/CompilerAcxSpec.v
theories/CompilerModel.v
theories/CompilerProofs.v
theories/CompilerProps.v
theories/CompilerSpec.v
theories/CompilerWeightProofs.v
theories/CompilerWeightProps.v
theories/ComposeModel.v
theories/ComposeProofs.v
theories/ComposeProps.v
theories/ComposeSpec.v
theories/CompoundProofs.v
theories/CompoundProps.v
theories/CompressionModel.v
theories/CompressionProofs.v
theories/DeterminizeProofs.v
theories/DixModel.v
theories/DixProofs.v
theories/DixProps.v
theories/DixSpec.v
theories/EntryFilterModel.v
theories/EntryFilterProps.v
theories/ExpanderModel.v
theories/ExpanderProofs.v
theories/ExpanderProps.v
theories/ExpanderSpec.v
theories/FileModel.v
theories/FileProofs.v
theories/FileProps.v
theories/FinalsModel.v
theories/FinalsProps.v
theories/GenerationModel.v
theories/GenerationProofs.v
theories/GenerationProps.v
theories/GenerationSpec.v
theories/IgnoreProofs.v
theories/IgnoreProps.v
theories/InputModel.v
theories/InputProps.v
theories/InverseProps.v
theories/ListingModel.v
theories/ListingProofs.v
theories/ListingProps.v
theories/ListingSpec.v
theories/LoadModel.v
theories/LoadProofs.v
theories/LoadProps.v
theories/LoadSpec.v
theories/LoadWordProofs.v
theories/LookupProps.v
theories/LrxModel.v
theories/LrxProps.v
theories/MatchModel.v
theories/MatchProps.v
theories/MinimizeProofs.v
theories/NatSets.v
theories/ParadigmModel.v
theories/ParadigmPatterns.v
theories/ParadigmProofs.v
theories/ParadigmProps.v
theories/ParadigmSpec.v
theories/ParadigmToolProofs.v
theories/PatternBuildProofs.v
theories/PatternFileModel.v
theories/PatternFileProofs.v
theories/PatternFileProps.v
theories/PatternMatchProofs.v
theories/PatternModel.v
theories/PatternPathProofs.v
theories/PatternProps.v
theories/PatternRoomProofs.v
theories/PatternRunProofs.v
theories/PatternSpec.v
theories/PlaceModel.v
theories/PlaceProps.v
theories/PrintProps.v
theories/ProcessorModel.v
theories/ProcessorProofs.v
theories/QueueModel.v
theories/QueueProofs.v
theories/QueueProps.v
theories/QueueSpec.v
theories/RationalProofs.v
theories/RationalSpec.v
theories/RegexpModel.v
theories/RegexpProofs.v
theories/RegexpProps.v
theories/RegexpSpec.v
theories/RelabelModel.v
theories/RelabelProofs.v
theories/RelabelProps.v
theories/RelabelSpec.v
theories/RestoreProps.v
theories/RestrictProofs.v
theories/RestrictProps.v
theories/RestrictSpec.v
theories/RestrictToolProofs.v
theories/ReverseProofs.v
theories/SaoModel.v
theories/SaoProofs.v
theories/SaoProps.v
theories/SaoSpec.v
theories/SearchProofs.v
theories/SerialiserModel.v
theories/SerialiserProofs.v
theories/SerialiserProps.v
theories/SortedVectorModel.v
theories/SortedVectorProofs.v
theories/SortedVectorProps.v
theories/StateModel.v
theories/StatePathProofs.v
theories/StateProofs.v
theories/StateProps.v
theories/StateSpec.v
theories/StdoutModel.v
theories/StdoutProps.v
theories/StreamModel.v
theories/StreamProps.v
theories/StringCodecProofs.v
theories/StringModel.v
theories/StringProps.v
theories/ThreadModel.v
theories/ThreadProofs.v
theories/ThreadProps.v
theories/TmFileProofs.v
theories/TmLoopProofs.v
theories/TmModel.v
theories/TmProofs.v
theories/TmProps.v
theories/TmSpec.v
theories/TmToolModel.v
theories/TmToolProofs.v
theories/TmToolProps.v
theories/TmToolSpec.v
theories/TmTraceProofs.v
theories/TmxModel.v
theories/TmxProofs.v
theories/TmxProps.v
theories/TmxSpec.v
theories/ToolsModel.v
theories/ToolsProps.v
theories/TransducerMapModel.v
theories/TransducerMapProps.v
theories/TransducerModel.v
theories/TransducerProofs.v
theories/TransducerSpec.v
theories/TranslitEndProofs.v
theories/TranslitMatchProofs.v
theories/TranslitModel.v
theories/TranslitProps.v
theories/TranslitReadProofs.v
theories/TranslitScanProofs.v
theories/TranslitSpec.v
theories/TrieProofs.v
theories/TrimModel.v
theories/TrimProofs.v
theories/TrimProps.v
theories/TrimSpec.v
theories/TrimToolProofs.v
theories/TrimToolProps.v
theories/UnifiedModel.v
theories/ValidProps.v
theories/WeightCodecProofs.v
theories/WeightSetProofs.v
