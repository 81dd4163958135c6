-Q theories Verif
theories/BitSet.v
theories/ListUtil.v
theories/M_Core.v
theories/M_Shrinking.v
theories/M_Sets.v
theories/M_Preprocessing.v
theories/M_Quorums.v
theories/M_Blocking.v
theories/M_Splitting.v
theories/M_FrontEnd.v
theories/Spec.v
theories/M_Ext.v
theories/P_List.v
theories/P_QuorumSet.v
theories/P_Slices.v
theories/P_Quorum.v
theories/P_Graph.v
theories/P_Symmetric.v
theories/P_Sets.v
theories/P_MinQuorums.v
theories/P_Blocking.v
theories/P_Builder.v
theories/P_TopTier.v
theories/P_Misc.v
theories/Examples.v
theories/P_ThCore.v
theories/P_Nonint.v
theories/P_Shrink.v
theories/P_Shrunken.v
theories/P_SplitStep.v
theories/P_SplitSym.v
theories/P_Splitting.v
theories/Spec_Analysis.v
theories/P_Restrict.v
theories/P_Working.v
theories/P_Transfer.v
theories/P_Analysis.v
theories/P_NoPanic.v
theories/P_ThAnalysis.v
theories/Th_Core.v
theories/Th_Analysis.v
theories/M_Groupings.v
theories/Spec_Groupings.v
theories/P_Groupings.v
theories/P_MergeQset.v
theories/P_Results.v
theories/P_ThGroupings.v
theories/M_Float.v
theories/P_Float.v
theories/P_Rank.v
theories/P_ThFloat.v
theories/Th_Groupings.v
theories/Th_Float.v
theories/P_Orders.v
theories/Spec_Renumber.v
theories/P_Renumber.v
theories/P_ListOrder.v
theories/P_Relabel.v
theories/P_ThOrders.v
theories/Th_Orders.v
theories/P_ThRelabel.v
theories/Th_Relabel.v
theories/M_IO.v
theories/Spec_IO.v
theories/P_IO.v
theories/P_Json.v
theories/P_Labels.v
theories/P_StandardForm.v
theories/P_ThIO.v
theories/P_StandardIter.v
theories/Spec_Json.v
theories/P_JsonSpec.v
theories/Th_Json.v
theories/M_JsonText.v
theories/Spec_JsonText.v
theories/P_JsonText.v
theories/P_JsonNumber.v
theories/P_JsonValue.v
theories/P_JsonPrint.v
theories/Th_JsonText.v
theories/Th_IO.v
theories/M_SimGraph.v
theories/Spec_SimGraph.v
theories/P_SimGraph.v
theories/P_Mesh.v
theories/P_Shuffle.v
theories/P_ScaleFree.v
theories/P_SmallWorld.v
theories/M_GraphIO.v
theories/Spec_GraphIO.v
theories/P_GraphIO.v
theories/P_ThSimGraph.v
theories/Th_SimGraph.v
theories/M_Simulation.v
theories/Spec_Simulation.v
theories/P_Simulation.v
theories/P_Growth.v
theories/P_RandomQsc.v
theories/P_GraphQsc.v
theories/P_ThSimulation.v
theories/Th_Simulation.v
theories/Spec_Rank.v
theories/P_PageRank.v
theories/P_ThRank.v
theories/Th_Rank.v
theories/M_Bulk.v
theories/Spec_Bulk.v
theories/P_Bulk.v
theories/P_BulkInputs.v
theories/P_BulkRows.v
theories/P_ThBulk.v
theories/M_Cli.v
theories/Spec_Cli.v
theories/P_Cli.v
theories/P_ThCli.v
theories/Th_Cli.v
theories/M_CliText.v
theories/Spec_CliText.v
theories/P_CliText.v
theories/Th_CliText.v
theories/M_Performance.v
theories/Spec_Performance.v
theories/P_Performance.v
theories/P_Experiments.v
theories/P_Durations.v
theories/M_Csv.v
theories/Spec_Csv.v
theories/P_Csv.v
theories/P_CsvCells.v
theories/P_CsvRows.v
theories/P_CsvRuns.v
theories/P_CsvCut.v
theories/M_FloatText.v
theories/Spec_FloatText.v
theories/P_FloatText.v
theories/P_FloatParse.v
theories/P_FloatShort.v
theories/P_FloatRound.v
theories/Th_FloatText.v
theories/Spec_CsvFile.v
theories/P_CsvFile.v
theories/Th_Bulk.v
theories/Th_Performance.v
theories/Th_Csv.v
theories/M_Bins.v
theories/Spec_Bins.v
theories/P_Bins.v
theories/P_Simulator.v
theories/P_GraphAll.v
theories/P_Generator.v
theories/Th_Bins.v
theories/M_Reuse.v
theories/Spec_Reuse.v
theories/P_Reuse.v
theories/P_ReuseKeys.v
theories/P_ReuseMain.v
theories/P_ReuseGroups.v
theories/P_ReuseStats.v
theories/P_ReuseFirst.v
theories/P_ThReuse.v
theories/Th_Reuse.v
theories/P_BlockingSound.v
theories/P_SplitSound.v
theories/Spec_Histories.v
theories/P_Histories.v
theories/P_ThHistories.v
theories/Th_Histories.v
theories/Spec_Debug.v
theories/M_Debug.v
theories/P_Debug.v
theories/P_DebugExact.v
theories/Th_Debug.v
theories/P_SetResults.v
theories/Th_SetResults.v
theories/M_Parallel.v
theories/Spec_Parallel.v
theories/P_Parallel.v
theories/Th_Parallel.v
theories/P_MeshGaps.v
theories/Th_MeshGaps.v
theories/P_AskAny.v
theories/Spec_CliAny.v
theories/P_CliAny.v
theories/P_ThCliAny.v
theories/Th_CliAny.v
theories/Spec_BulkAny.v
theories/P_BulkAny.v
theories/P_ThBulkAny.v
theories/Th_BulkAny.v
theories/M_Pipeline.v
theories/Spec_Pipeline.v
theories/P_Pipeline.v
theories/Th_Pipeline.v
theories/Th_GraphAll.v
theories/P_Repeat.v
theories/Spec_CliCount.v
theories/P_CliCount.v
theories/Th_Repeat.v
theories/Spec_AsRel.v
theories/P_AsRel.v
theories/Th_AsRel.v
theories/P_Overflow.v
theories/Th_Overflow.v
theories/P_Shortest.v
theories/Th_Shortest.v
theories/P_BlockingExact.v
theories/Th_BlockingExact.v
theories/P_SplitExact.v
theories/Th_SplitExact.v
theories/P_Epsilon.v
theories/Spec_Layout.v
theories/P_Layout.v
theories/Th_Layout.v
theories/P_WorkingAnalysis.v
theories/Th_Working.v
theories/M_Messages.v
theories/Spec_Messages.v
theories/P_Messages.v
theories/P_ThMessages.v
theories/Th_Messages.v
theories/M_ReuseMessages.v
theories/Spec_ReuseMessages.v
theories/P_ReuseMessages.v
theories/P_ThReuseMessages.v
theories/Th_ReuseMessages.v
theories/Spec_Merging.v
theories/P_MergeExact.v
theories/P_MergeBack.v
theories/Th_Merging.v
theories/Spec_Growth.v
theories/P_SimExact.v
theories/Th_Growth.v
theories/P_AsRelExact.v
theories/Th_AsRelExact.v
theories/P_AltExact.v
theories/Th_AltExact.v
