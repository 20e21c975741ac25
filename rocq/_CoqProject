-Q theories Verif
theories/SymbolTable.v
theories/SymbolTableSpec.v
theories/SymbolTableProofs.v
theories/SymbolTableProps.v
theories/KeySer.v
theories/KeySerSpec.v
theories/KeySerProofs.v
theories/KeySerProps.v
theories/Percent.v
theories/PercentProofs.v
theories/QName.v
theories/QNameProofs.v
theories/QNameProps.v
theories/ListExtra.v
theories/SortedMap.v
theories/DiskMap.v
theories/DiskMapSpec.v
theories/DiskMapProofs.v
theories/DiskMapProps.v
theories/Types.v
theories/TypesProofs.v
theories/SymTabIface.v
theories/AnnoMem.v
theories/AnnoSpec.v
theories/AnnoMemProofs.v
theories/AnnoMemQueries.v
theories/AnnoMemProps.v
theories/AnnoDisk.v
theories/AnnoDiskSpec.v
theories/AnnoDiskProofs.v
theories/AnnoDiskQueries.v
theories/AnnoDiskProps.v
theories/GraphSpec.v
theories/Dfs.v
theories/DfsProofs.v
theories/DfsQueries.v
theories/Adjacency.v
theories/AdjacencySpec.v
theories/AdjacencyProofs.v
theories/StatsProofs.v
theories/CopyProofs.v
theories/AdjacencyProps.v
theories/Linear.v
theories/EdgeAnnoProofs.v
theories/LinearProofs.v
theories/LinearSpec.v
theories/LinearQueries.v
theories/LinearProps.v
theories/PrePost.v
theories/PrePostSpec.v
theories/PrePostNum.v
theories/PrePostProofs.v
theories/PrePostQueries.v
theories/PrePostProps.v
theories/Search.v
theories/Dense.v
theories/DiskPath.v
theories/DenseSpec.v
theories/DenseProofs.v
theories/DiskPathProofs.v
theories/DenseProps.v
theories/DiskAdj.v
theories/DiskAdjSpec.v
theories/DiskAdjProofs.v
theories/DiskAdjProps.v
theories/Registry.v
theories/RegistrySpec.v
theories/RegistryProofs.v
theories/RegistryProps.v
theories/Bincode.v
theories/GraphUpdate.v
theories/GraphUpdateSpec.v
theories/GraphUpdateProofs.v
theories/GraphUpdateProps.v
theories/GraphApply.v
theories/GraphApplySpec.v
theories/GraphApplyProofs.v
theories/GraphApplyHistory.v
theories/GraphApplyProps.v
theories/Persist.v
theories/PersistSpec.v
theories/PersistProofs.v
theories/PersistProps.v
theories/CompPath.v
theories/CompPathSpec.v
theories/CompPathProofs.v
theories/CompPathProps.v
theories/QuickSort.v
theories/QuickSortSpec.v
theories/QuickSortProofs.v
theories/QuickSortProps.v
theories/Paging.v
theories/PagingSpec.v
theories/PagingProofs.v
theories/PagingProps.v
theories/SortMatches.v
theories/SortMatchesSpec.v
theories/SortMatchesProofs.v
theories/SortMatchesProps.v
theories/Joins.v
theories/JoinsSpec.v
theories/JoinsProofs.v
theories/JoinsProps.v
theories/Conjunction.v
theories/ConjunctionSpec.v
theories/ConjunctionProofs.v
theories/ConjPlanProofs.v
theories/ConjOptProofs.v
theories/ConjunctionProps.v
theories/Plan.v
theories/PlanSpec.v
theories/PlanProofs.v
theories/PlanProps.v
theories/LineCol.v
theories/LineColSpec.v
theories/LineColProofs.v
theories/LineColProps.v
theories/Query.v
theories/QuerySpec.v
theories/QueryProofs.v
theories/QueryProps.v
theories/CorpusCache.v
theories/CorpusCacheSpec.v
theories/CorpusCacheProofs.v
theories/CorpusCacheProps.v
theories/CorpusDir.v
theories/CorpusDirProofs.v
theories/CorpusDirProps.v
theories/Union.v
theories/UnionSpec.v
theories/UnionProofs.v
theories/UnionProps.v
theories/Histogram.v
theories/HistogramSpec.v
theories/HistogramProofs.v
theories/HistogramProps.v
theories/Frequency.v
theories/FrequencySpec.v
theories/FrequencyProofs.v
theories/FrequencyProps.v
theories/Storage.v
theories/StorageSpec.v
theories/StorageProofs.v
theories/TokenHelper.v
theories/TokenSearch.v
theories/TokenSearchSpec.v
theories/TokenSearchProofs.v
theories/TokenSearchProps.v
theories/NodeSearch.v
theories/NodeSearchSpec.v
theories/NodeSearchProofs.v
theories/NodeSearchProps.v
theories/EqualValue.v
theories/EqualValueSpec.v
theories/EqualValueProofs.v
theories/EqualValueProps.v
theories/QuickSortAny.v
theories/Context.v
theories/ContextSpec.v
theories/ContextProofs.v
theories/ContextGaps.v
theories/ExampleStorages.v
theories/ExampleCorpus.v
theories/ContextProps.v
theories/TokenOps.v
theories/TokenOpsSpec.v
theories/TokenOpsProofs.v
theories/TokenOpsMore.v
theories/ExampleAligned.v
theories/TokenOpsProps.v
theories/EdgeOps.v
theories/EdgeOpsSpec.v
theories/EdgeOpsProofs.v
theories/ExampleGraph.v
theories/EdgeOpsProps.v
theories/NonExisting.v
theories/NonExistingSpec.v
theories/NonExistingProofs.v
theories/NonExistingProps.v
theories/Index.v
theories/IndexSpec.v
theories/IndexGood.v
theories/IndexProofs.v
theories/IndexLoop.v
theories/IndexNew.v
theories/IndexEvents.v
theories/IndexInc.v
theories/IndexHist.v
theories/IndexAligned.v
theories/IndexExample.v
theories/IndexProps.v
theories/GraphML.v
theories/GraphMLSpec.v
theories/GraphMLProofs.v
theories/GraphMLExport.v
theories/GraphMLRound.v
theories/GraphMLFinal.v
theories/GraphMLProps.v
theories/Service.v
theories/ServiceSpec.v
theories/ServiceProofs.v
theories/ServiceJobs.v
theories/ServiceFinal.v
theories/ServiceProps.v
theories/RelAnnis.v
theories/RelAnnisSpec.v
theories/RelAnnisMaps.v
theories/RelAnnisFields.v
theories/RelAnnisTree.v
theories/RelAnnisNames.v
theories/RelAnnisRun.v
theories/RelAnnisParts.v
theories/RelAnnisGraph.v
theories/RelAnnisEdges.v
theories/RelAnnisOrder.v
theories/RelAnnisCoverage.v
theories/RelAnnisTotal.v
theories/RelAnnisText.v
theories/RelAnnisFilesSpec.v
theories/RelAnnisFiles.v
theories/RelAnnisCorpora.v
theories/RelAnnisApply.v
theories/RelAnnisDuplicates.v
theories/RelAnnisExample.v
theories/RelAnnisProps.v
theories/RelAnnisConfig.v
theories/RelAnnisConfigSpec.v
theories/RelAnnisConfigText.v
theories/RelAnnisConfigProofs.v
theories/RelAnnisVisualizers.v
theories/RelAnnisConfigProps.v
theories/AqlLexer.v
theories/AqlGrammar.v
theories/AqlParser.v
theories/AqlParserProofs.v
theories/AqlParserRules.v
theories/AqlLexerSpec.v
theories/AqlLexerProofs.v
theories/AqlTokens.v
theories/AqlSpec.v
theories/AqlLayout.v
theories/AqlWords.v
theories/AqlWritten.v
theories/AqlPositions.v
theories/AqlShapes.v
theories/AqlProps.v
theories/Subgraph.v
theories/SubgraphSpec.v
theories/SubgraphProofs.v
theories/SubgraphTotal.v
theories/SubgraphProps.v
theories/LinkedFiles.v
theories/LinkedFilesSpec.v
theories/LinkedFilesProofs.v
theories/LinkedFilesCopy.v
theories/LinkedFilesImport.v
theories/LinkedFilesExport.v
theories/LinkedFilesRoundTrip.v
theories/LinkedFilesFinal.v
theories/LinkedFilesCheck.v
theories/LinkedFilesProps.v
theories/CorpusSize.v
theories/CorpusSizeSpec.v
theories/CorpusSizeProofs.v
theories/CorpusSizeProps.v
theories/Listing.v
theories/ListingSpec.v
theories/ListingProofs.v
theories/ListingProps.v
theories/RelAnnisKeys.v
theories/RelAnnisKeysSpec.v
theories/RelAnnisKeysProofs.v
theories/RelAnnisKeysProps.v
theories/Descriptions.v
theories/DescriptionsSpec.v
theories/DescriptionsProofs.v
theories/DescriptionsProps.v
theories/Quirks.v
theories/QuirksSpec.v
theories/QuirksProofs.v
theories/QuirksProps.v
theories/EndToEnd.v
theories/EndToEndSpec.v
theories/EndToEndProofs.v
theories/EndToEndResults.v
theories/EndToEndText.v
theories/EndToEndProps.v
theories/CorpusEngine.v
theories/CorpusEngineSpec.v
theories/CorpusEngineProofs.v
theories/CorpusEngineProps.v
theories/ResultPages.v
theories/ResultPagesSpec.v
theories/ResultPagesProofs.v
theories/ResultPagesProps.v
theories/CApi.v
theories/CApiSpec.v
theories/CApiProofs.v
theories/CApiProps.v
theories/SearchChoice.v
theories/SearchChoiceSpec.v
theories/SearchChoiceProofs.v
theories/SearchChoiceProps.v
theories/FrequencyResults.v
theories/FrequencyResultsSpec.v
theories/FrequencyResultsProofs.v
theories/FrequencyResultsProps.v
theories/FrequencyNodeSpec.v
theories/FrequencyNodeProofs.v
theories/FrequencyNodeProps.v
theories/Console.v
theories/ConsoleSpec.v
theories/ConsoleProofs.v
theories/ConsoleRuns.v
theories/ConsoleProps.v
theories/ConsoleExactSpec.v
theories/ConsoleExactProofs.v
theories/ConsoleExactProps.v
theories/ConsoleSessionProofs.v
theories/ConsoleSessionProps.v
theories/ComponentFiles.v
theories/ComponentFilesSpec.v
theories/ComponentFilesProofs.v
theories/ComponentFilesProps.v
