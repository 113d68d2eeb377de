-Q theories Verif
theories/Base/Heap.v
theories/Base/Outcome.v
theories/Copra/PhaseDriverChecks.v
theories/Copra/PhaseDriverInst.v
theories/Copra/PhaseDriverModel.v
theories/Copra/PhaseDriverMore.v
theories/Copra/PhaseDriverProof.v
theories/Copra/PhaseDriverProps.v
theories/Copra/PhaseDriverRefine.v
theories/Copra/PhaseDriverSpec.v
theories/Copra/PhaseDriverTrace.v
theories/Copra/ReportInst.v
theories/Copra/ReportModel.v
theories/Copra/ReportProof.v
theories/Copra/ReportProps.v
theories/Copra/ReportSpec.v
theories/Copra/ReportStructure.v
theories/Copra/TravDataInst.v
theories/Copra/TravDataModel.v
theories/Copra/TravDataProof.v
theories/Copra/TravDataProps.v
theories/Copra/TravDataSafe.v
theories/Copra/TravDataSpec.v
theories/Copra/TravInst.v
theories/Copra/TravModel.v
theories/Copra/TravProof.v
theories/Copra/TravProps.v
theories/Copra/TravSpec.v
theories/Front/CheckAttributesModel.v
theories/Front/CheckAttributesProof.v
theories/Front/CheckAttributesProps.v
theories/Front/CheckAttributesSpec.v
theories/Front/CheckExistanceInst.v
theories/Front/CheckExistanceModel.v
theories/Front/CheckExistanceProof.v
theories/Front/CheckExistanceProps.v
theories/Front/CheckExistanceSpec.v
theories/Front/ExampleInst.v
theories/Front/FileInst.v
theories/Front/FileModel.v
theories/Front/FileNames.v
theories/Front/FileNamesSpec.v
theories/Front/FileParts.v
theories/Front/FileProof.v
theories/Front/FileProps.v
theories/Front/FileSpec.v
theories/Front/FileWhole.v
theories/Front/LexerInst.v
theories/Front/LexerModel.v
theories/Front/LexerProof.v
theories/Front/LexerProps.v
theories/Front/LexerSpec.v
theories/Front/LifetimesModel.v
theories/Front/LifetimesProof.v
theories/Front/LifetimesSpec.v
theories/Front/MessageInst.v
theories/Front/MessageModel.v
theories/Front/MessageProof.v
theories/Front/MessageProps.v
theories/Front/MessageSpec.v
theories/Front/NodesetPassesModel.v
theories/Front/NodesetPassesProof.v
theories/Front/NodesetTableInst.v
theories/Front/NodesetTableModel.v
theories/Front/NodesetTableProof.v
theories/Front/NodesetTableProps.v
theories/Front/NodesetTableSpec.v
theories/Front/ParserDecls.v
theories/Front/ParserElse.v
theories/Front/ParserInst.v
theories/Front/ParserModel.v
theories/Front/ParserProof.v
theories/Front/ParserProps.v
theories/Front/ParserRun.v
theories/Front/ParserSound.v
theories/Front/ParserSpec.v
theories/Front/ParserWritten.v
theories/Front/ProductRulesInst.v
theories/Front/ProductRulesModel.v
theories/Front/ProductRulesProof.v
theories/Front/ProductRulesProps.v
theories/Front/ProductRulesSpec.v
theories/Front/PropagateInst.v
theories/Front/PropagateModel.v
theories/Front/PropagateProof.v
theories/Front/PropagateProps.v
theories/Front/PropagateSpec.v
theories/Front/PropagateWalk.v
theories/Front/ReachModel.v
theories/Front/ReachProof.v
theories/Front/ReachSpec.v
theories/Front/ScannerInst.v
theories/Front/ScannerMatch.v
theories/Front/ScannerModel.v
theories/Front/ScannerNext.v
theories/Front/ScannerPlace.v
theories/Front/ScannerProof.v
theories/Front/ScannerProps.v
theories/Front/ScannerRuns.v
theories/Front/ScannerSpec.v
theories/Front/ScannerText.v
theories/Front/ScannerUnique.v
theories/Front/ScannerWhole.v
theories/Front/SetsInst.v
theories/Front/SetsModel.v
theories/Front/SetsProof.v
theories/Front/SetsProps.v
theories/Front/SetsSpec.v
theories/Front/SetsTotal.v
theories/Front/SymbolTableInst.v
theories/Front/SymbolTableModel.v
theories/Front/SymbolTableProof.v
theories/Front/SymbolTableProps.v
theories/Front/SymbolTableSpec.v
theories/Front/Syntax.v
theories/Gen/AccessInst.v
theories/Gen/AccessMembers.v
theories/Gen/AccessModel.v
theories/Gen/AccessProof.v
theories/Gen/AccessProps.v
theories/Gen/AccessSpec.v
theories/Gen/AccessTree.v
theories/Gen/AccessWhole.v
theories/Gen/CheckInst.v
theories/Gen/CheckModel.v
theories/Gen/CheckProof.v
theories/Gen/CheckProps.v
theories/Gen/CheckSpec.v
theories/Gen/CheckTrees.v
theories/Gen/CheckWhole.v
theories/Gen/CommandLineFiles.v
theories/Gen/CommandLineModel.v
theories/Gen/CommandLineNumber.v
theories/Gen/CommandLineOptions.v
theories/Gen/CommandLineProof.v
theories/Gen/CommandLineProps.v
theories/Gen/CommandLineSpec.v
theories/Gen/CompileEnds.v
theories/Gen/CompileInst.v
theories/Gen/CompileLegal.v
theories/Gen/CompileModel.v
theories/Gen/CompileParsed.v
theories/Gen/CompilePasses.v
theories/Gen/CompileProps.v
theories/Gen/CompileSpec.v
theories/Gen/CompileVerdict.v
theories/Gen/DeniedModel.v
theories/Gen/DeniedProof.v
theories/Gen/DeniedProps.v
theories/Gen/DeniedStatus.v
theories/Gen/DiagramInst.v
theories/Gen/DiagramModel.v
theories/Gen/DiagramParsed.v
theories/Gen/DiagramProof.v
theories/Gen/DiagramProps.v
theories/Gen/DiagramSets.v
theories/Gen/DiagramSpec.v
theories/Gen/DiagramWhole.v
theories/Gen/DispatchInst.v
theories/Gen/DispatchModel.v
theories/Gen/DispatchProof.v
theories/Gen/DispatchProps.v
theories/Gen/DispatchReach.v
theories/Gen/DispatchRun.v
theories/Gen/DispatchSpec.v
theories/Gen/DispatchTables.v
theories/Gen/EvalVariantsInst.v
theories/Gen/EvalVariantsModel.v
theories/Gen/EvalVariantsNames.v
theories/Gen/EvalVariantsProof.v
theories/Gen/EvalVariantsProps.v
theories/Gen/EvalVariantsSpec.v
theories/Gen/EvaluateCheck.v
theories/Gen/EvaluateCode.v
theories/Gen/EvaluateGrammar.v
theories/Gen/EvaluateInst.v
theories/Gen/EvaluateModel.v
theories/Gen/EvaluateProof.v
theories/Gen/EvaluateProps.v
theories/Gen/EvaluateSpec.v
theories/Gen/GenerateInst.v
theories/Gen/GenerateProof.v
theories/Gen/GenerateProps.v
theories/Gen/GenerateSpec.v
theories/Gen/GrammarDiagramDirect.v
theories/Gen/GrammarDiagramGraphs.v
theories/Gen/GrammarDiagramHeads.v
theories/Gen/GrammarDiagramInst.v
theories/Gen/GrammarDiagramModel.v
theories/Gen/GrammarDiagramProof.v
theories/Gen/GrammarDiagramProps.v
theories/Gen/GrammarDiagramSpec.v
theories/Gen/GrammarDiagramWhole.v
theories/Gen/GuardInst.v
theories/Gen/GuardModel.v
theories/Gen/GuardProof.v
theories/Gen/GuardProps.v
theories/Gen/GuardSpec.v
theories/Gen/IdentifierInst.v
theories/Gen/IdentifierProps.v
theories/Gen/IndentModel.v
theories/Gen/IndentProof.v
theories/Gen/IndentProps.v
theories/Gen/IndentSpec.v
theories/Gen/LifecycleFile.v
theories/Gen/LifecycleInst.v
theories/Gen/LifecycleModel.v
theories/Gen/LifecycleProof.v
theories/Gen/LifecycleProps.v
theories/Gen/LifecycleRun.v
theories/Gen/LifecycleSpec.v
theories/Gen/LifecycleSteps.v
theories/Gen/NamesInst.v
theories/Gen/NamesModel.v
theories/Gen/NamesProof.v
theories/Gen/NamesProps.v
theories/Gen/NamesSpec.v
theories/Gen/NamesTags.v
theories/Gen/NamesWhole.v
theories/Gen/NodesBuild.v
theories/Gen/NodesCopy.v
theories/Gen/NodesFree.v
theories/Gen/NodesInst.v
theories/Gen/NodesModel.v
theories/Gen/NodesProof.v
theories/Gen/NodesProps.v
theories/Gen/NodesSpec.v
theories/Gen/PhasesInst.v
theories/Gen/PhasesParsed.v
theories/Gen/PhasesProof.v
theories/Gen/PhasesProps.v
theories/Gen/PhasesSpec.v
theories/Gen/PhasesWhole.v
theories/Gen/RepoTestsInst.v
theories/Gen/RepoTestsProps.v
theories/Gen/ReproduceInst.v
theories/Gen/ReproduceProof.v
theories/Gen/ReproduceProps.v
theories/Gen/ReproduceSpec.v
theories/Gen/ReproduceTable.v
theories/Gen/RunInst.v
theories/Gen/RunModel.v
theories/Gen/RunNames.v
theories/Gen/RunProof.v
theories/Gen/RunProps.v
theories/Gen/RunSpec.v
theories/Gen/ShowAstGrammar.v
theories/Gen/ShowAstHidden.v
theories/Gen/ShowAstInst.v
theories/Gen/ShowAstModel.v
theories/Gen/ShowAstProof.v
theories/Gen/ShowAstProps.v
theories/Gen/ShowAstSpec.v
theories/Gen/ShowAstWhole.v
theories/Gen/StubsInst.v
theories/Gen/StubsModel.v
theories/Gen/StubsNames.v
theories/Gen/StubsProof.v
theories/Gen/StubsProps.v
theories/Gen/StubsRun.v
theories/Gen/StubsSpec.v
theories/Gen/TablesInst.v
theories/Gen/TablesModel.v
theories/Gen/TablesProof.v
theories/Gen/TablesProps.v
theories/Gen/TablesSpec.v
theories/Gen/TravChildInst.v
theories/Gen/TravChildModel.v
theories/Gen/TravChildProof.v
theories/Gen/TravChildProps.v
theories/Gen/TravChildSpec.v
theories/Palm/CtinfoInst.v
theories/Palm/CtinfoModel.v
theories/Palm/CtinfoProof.v
theories/Palm/CtinfoProps.v
theories/Palm/CtinfoSpec.v
theories/Palm/HashTableInst.v
theories/Palm/HashTableModel.v
theories/Palm/HashTableProof.v
theories/Palm/HashTableProps.v
theories/Palm/HashTableSpec.v
theories/Palm/MemModel.v
theories/Palm/MemProof.v
theories/Palm/MemProps.v
theories/Palm/MemSpec.v
theories/Palm/StrInst.v
theories/Palm/StrModel.v
theories/Palm/StrProof.v
theories/Palm/StrProps.v
theories/Palm/StrSpec.v
theories/Palm/TableMemoryChains.v
theories/Palm/TableMemoryInst.v
theories/Palm/TableMemoryIters.v
theories/Palm/TableMemoryModel.v
theories/Palm/TableMemoryOps.v
theories/Palm/TableMemoryProof.v
theories/Palm/TableMemoryProps.v
theories/Palm/TableMemorySpec.v
theories/Palm/TableMemoryTables.v
theories/Palm/TableMemoryWalk.v
theories/Sched/CycleProof.v
theories/Sched/EmptyVisitProof.v
theories/Sched/FrontendModel.v
theories/Sched/FrontendProof.v
theories/Sched/GraphModel.v
theories/Sched/GraphProof.v
theories/Sched/GraphSpec.v
theories/Sched/GraphsEnd.v
theories/Sched/InduceProof.v
theories/Sched/OrderProof.v
theories/Sched/PartitionGrammar.v
theories/Sched/PartitionModel.v
theories/Sched/PartitionProof.v
theories/Sched/PartitionProps.v
theories/Sched/PartitionSpec.v
theories/Sched/QueueModel.v
theories/Sched/QueueProof.v
theories/Sched/QueueProps.v
theories/Sched/QueueSpec.v
theories/Sched/ScheduleGraphs.v
theories/Sched/ScheduleInst.v
theories/Sched/ScheduleModel.v
theories/Sched/ScheduleProof.v
theories/Sched/ScheduleProps.v
theories/Sched/ScheduleSpec.v
theories/Sched/TreeProof.v
theories/Sched/VisitComplete.v
theories/Sched/VisitDemand.v
theories/Sched/VisitEntries.v
theories/Sched/VisitGrammar.v
theories/Sched/VisitInst.v
theories/Sched/VisitModel.v
theories/Sched/VisitProof.v
theories/Sched/VisitProps.v
theories/Sched/VisitSpec.v
