-Q theories Verif
theories/Mltl.v
theories/MltlShape.v
theories/MltlEval.v
theories/Transform.v
theories/TransformProofs.v
theories/ArithNary.v
theories/ArithNaryProofs.v
theories/PropTransformAux.v
theories/Prop_Transform.v
theories/OpLaws.v
theories/Rewrite.v
theories/RewriteProofs.v
theories/Prop_Rewrite.v
theories/Egglog.v
theories/EgglogProofs.v
theories/Prop_Egglog.v
theories/Decompose.v
theories/DecomposeProofs.v
theories/Window.v
theories/DelayProofs.v
theories/Prop_Decompose.v
theories/Prop_Delay.v
theories/Scope.v
theories/Definitions.v
theories/DefinitionsProofs.v
theories/Prop_Definitions.v
theories/Graph.v
theories/GraphSpec.v
theories/GraphProofs.v
theories/CseProofs.v
theories/Prop_Graph.v
theories/Pipeline.v
theories/PipelineProofs.v
theories/Prop_Pipeline.v
theories/Scq.v
theories/Engine.v
theories/Monitoring.v
theories/ScqProofs.v
theories/EngineLocal.v
theories/FrameProofs.v
theories/NodeProofs.v
theories/MonitorProofs.v
theories/ScqSize.v
theories/BusyProofs.v
theories/ScqSizeProofs.v
theories/MonitorCheck.v
theories/ReachProofs.v
theories/TightSize.v
theories/TightQueue.v
theories/TightProofs.v
theories/SizeProofs.v
theories/Prop_Size.v
theories/Prop_Monitor.v
theories/PastMonitor.v
theories/PastNode.v
theories/PastProofs.v
theories/PastCheck.v
theories/PastSize.v
theories/PastTight.v
theories/PastSizeProofs.v
theories/MixedProofs.v
theories/SectionSize.v
theories/SectionTight.v
theories/Prop_Past.v
theories/Prop_Mixed.v
theories/Verdict.v
theories/VerdictProofs.v
theories/Queueing.v
theories/QueueProofs.v
theories/Prop_Queue.v
theories/Binary.v
theories/BinarySpec.v
theories/BinaryProofs.v
theories/Prop_Binary.v
theories/Assembly.v
theories/Layout.v
theories/AssemblySpec.v
theories/AssemblyProofs.v
theories/AssembleTotal.v
theories/LayoutProofs.v
theories/LayoutSpec.v
theories/BootProofs.v
theories/Bounds.v
theories/BoundsProofs.v
theories/Prop_Assembly.v
theories/EndToEnd.v
theories/EndToEndProofs.v
theories/Prop_EndToEnd.v
theories/SectionSpec.v
theories/EndToEndSections.v
theories/DefaultSpec.v
theories/DefaultProofs.v
theories/Prop_Default.v
theories/SectionDefault.v
theories/Parents.v
theories/ParentsSpec.v
theories/ParentsProofs.v
theories/ParentsEqsat.v
theories/ParentsReports.v
theories/Prop_Parents.v
theories/Booleanizer.v
theories/BooleanizerSpec.v
theories/BooleanizerOps.v
theories/BooleanizerGen.v
theories/BooleanizerProofs.v
theories/BooleanizerChain.v
theories/BooleanizerPrev.v
theories/Prop_Booleanizer.v
theories/Wcet.v
theories/WcetSpec.v
theories/WcetProofs.v
theories/Prop_Wcet.v
theories/Enums.v
theories/EnumProofs.v
theories/Prop_Enum.v
theories/Commands.v
theories/CommandSpec.v
theories/CommandProofs.v
theories/Prop_Commands.v
theories/MapFile.v
theories/MapSpec.v
theories/MapProofs.v
theories/Prop_Map.v
theories/Saturate.v
theories/SaturateSpec.v
theories/SaturateProofs.v
theories/SaturateRead.v
theories/SaturateEncode.v
theories/SaturateChain.v
theories/Prop_Saturate.v
theories/Ilp.v
theories/IlpSpec.v
theories/IlpProofs.v
theories/IlpFeasible.v
theories/IlpChain.v
theories/IlpGraphs.v
theories/EgraphJson.v
theories/EgraphJsonSpec.v
theories/EgraphJsonProofs.v
theories/EgraphRead.v
theories/Prop_Ilp.v
theories/MltlText.v
theories/MltlTextSpec.v
theories/MltlTextProofs.v
theories/Prop_MltlText.v
theories/C2poText.v
theories/C2poSpec.v
theories/C2poProofs.v
theories/C2poFiles.v
theories/C2poLex.v
theories/C2poWrite.v
theories/C2poRoundTrip.v
theories/C2poChecks.v
theories/Prop_C2po.v
theories/Contracts.v
theories/ContractSpec.v
theories/ContractProofs.v
theories/Prop_Contracts.v
theories/Sugar.v
theories/SugarSpec.v
theories/SugarProofs.v
theories/SugarUnroll.v
theories/SugarArrays.v
theories/Prop_Sugar.v
theories/RustEngine.v
theories/RustProofs.v
theories/RustTight.v
theories/Prop_Rust.v
theories/Ieee.v
theories/RustBooleanizer.v
theories/RustBzSpec.v
theories/RustBzOps.v
theories/RustBzArith.v
theories/RustBzProofs.v
theories/RustBzChain.v
theories/Prop_RustBz.v
theories/RustLayout.v
theories/RustLayoutSpec.v
theories/RustLayoutProofs.v
theories/RustBoot.v
theories/RustDefault.v
theories/Prop_RustBoot.v
theories/RustMixed.v
theories/SectionReports.v
theories/Prop_Sections.v
theories/RustSectionTight.v
theories/RustSectionDefault.v
theories/Prop_SectionDefault.v
theories/CsvTrace.v
theories/CsvSpec.v
theories/CsvProofs.v
theories/CsvHeader.v
theories/CsvAgree.v
theories/CsvStamps.v
theories/CsvReports.v
theories/Prop_Csv.v
theories/Elaborate.v
theories/ElaborateSpec.v
theories/ElaborateProofs.v
theories/ElaborateGraph.v
theories/TextSpec.v
theories/TextReports.v
theories/Prop_Text.v
theories/Recorded.v
theories/RecordedSpec.v
theories/RecordedProofs.v
theories/PastRecorded.v
theories/RecordedReports.v
theories/Prop_Recorded.v
theories/Reload.v
theories/ReloadProofs.v
theories/Prop_Reload.v
theories/Sabre.v
theories/SabreSpec.v
theories/SabreProofs.v
theories/SabreRun.v
theories/Prop_Sabre.v
theories/Smt.v
theories/SmtSpec.v
theories/SmtProofs.v
theories/SmtQueries.v
theories/SmtFunctions.v
theories/Prop_Smt.v
theories/TypeCheck.v
theories/TypeSpec.v
theories/TypeProofs.v
theories/TypeExprs.v
theories/TypePrograms.v
theories/Prop_Type.v
theories/SymSmt.v
theories/SymSmtSpec.v
theories/SymSmtProofs.v
theories/SymSmtQueries.v
theories/Prop_Symbolic.v
theories/SmtArith.v
theories/SmtArithSpec.v
theories/SmtArithProofs.v
theories/SmtArithMonitor.v
theories/Prop_SmtArith.v
theories/EquivText.v
theories/EquivTextSpec.v
theories/EquivTextProofs.v
theories/EquivTextChecks.v
theories/Prop_EquivText.v
theories/SatCommand.v
theories/SatCommandSpec.v
theories/SatCommandProofs.v
theories/Prop_SatCommand.v
theories/SmtFiles.v
theories/SmtFilesSpec.v
theories/SmtFilesProofs.v
theories/Prop_SmtFiles.v
theories/StatsText.v
theories/StatsTextSpec.v
theories/StatsTextProofs.v
theories/Prop_StatsText.v
theories/Snapshot.v
theories/SnapshotSpec.v
theories/SnapshotProofs.v
theories/Prop_Snapshot.v
