-Q theories Verif

theories/Base.v
theories/UnionFind.v
theories/EGraphModel.v
theories/EGraphSteps.v
theories/EGraphInv.v
theories/EGraphPres.v
theories/EGraphRuns.v
theories/Spec.v
theories/EGraphMain.v
theories/ExplainForest.v
theories/EGraphReach.v
theories/Examples.v
theories/EGraphOps.v
theories/UnionFindRuns.v
theories/PropertiesCore.v
theories/EGraphSafe.v
theories/EGraphDirect.v
theories/EGraphNoPanic.v
theories/EGraphTerm.v
theories/EGraphDebug.v
theories/EGraphAna.v
theories/AnalysisHelpers.v
theories/PropertiesSafe.v
theories/PropertiesAnalysis.v
theories/Terms.v
theories/RecExprModel.v
theories/RecExprProofs.v
theories/ExprModel.v
theories/PatSpec.v
theories/ExprProofs.v
theories/ExprSafe.v
theories/ExamplesExpr.v
theories/PropertiesExpr.v
theories/MachineModel.v
theories/MatchProofs.v
theories/MatchSpec.v
theories/MachineProofs.v
theories/CompileProofs.v
theories/CompileMain.v
theories/SearchProofs.v
theories/SearchMain.v
theories/MultiProofs.v
theories/MatchMain.v
theories/ExamplesMatch.v
theories/MatchProps.v
theories/PropertiesMatch.v
theories/RewriteModel.v
theories/RewriteProofs.v
theories/AlgSpec.v
theories/AlgProofs.v
theories/AlgRules.v
theories/RewriteMain.v
theories/RuleSpec.v
theories/Completion.v
theories/RuleSafe.v
theories/RuleProps.v
theories/CondProps.v
theories/ExamplesRewrite.v
theories/PropertiesRewrite.v
theories/RunnerModel.v
theories/RunnerSpec.v
theories/RunnerProofs.v
theories/RunnerSound.v
theories/RunnerLimits.v
theories/Still.v
theories/Saturation.v
theories/SaturationRun.v
theories/Reapply.v
theories/BackoffSpec.v
theories/BackoffProofs.v
theories/ExamplesRun.v
theories/PropertiesRun.v
theories/ExtractModel.v
theories/ExtractSpec.v
theories/ExtractProofs.v
theories/ExtractMain.v
theories/ExamplesExtract.v
theories/PropertiesExtract.v
theories/ExplainModel.v
theories/ExplainSpec.v
theories/ExplainPath.v
theories/ExplainProofs.v
theories/ExplainFlat.v
theories/ExplainCount.v
theories/ExplainMain.v
theories/ExplainModes.v
theories/ExamplesExplain.v
theories/PropertiesExplain.v
theories/UtilModel.v
theories/CopyProofs.v
theories/Uncanon.v
theories/FromNodes.v
theories/IntersectProofs.v
theories/ExamplesUtil.v
theories/UnionEqualities.v
theories/PropertiesUtil.v
theories/TotalOps.v
theories/UnionProofs.v
theories/LpModel.v
theories/LpSpec.v
theories/LpProofs.v
theories/LpExtract.v
theories/ExamplesLp.v
theories/PropertiesLp.v
theories/MapModel.v
theories/MapSpec.v
theories/MapProofs.v
theories/MapMain.v
theories/ExamplesMap.v
theories/PropertiesMap.v
theories/LangModel.v
theories/LangSpec.v
theories/LangProofs.v
theories/PropertiesLang.v
theories/TextModel.v
theories/TextSpec.v
theories/TextProofs.v
theories/TextMain.v
theories/ExamplesText.v
theories/PropertiesText.v
theories/MacroModel.v
theories/MacroSpec.v
theories/MacroProofs.v
theories/ExamplesMacro.v
theories/PropertiesMacro.v
theories/TruthSpec.v
theories/TruthProofs.v
theories/TruthRules.v
theories/TruthRun.v
theories/ExamplesTruth.v
theories/PropertiesTruth.v
theories/CheckModel.v
theories/CheckSpec.v
theories/CheckProofs.v
theories/CheckRun.v
theories/CheckSound.v
theories/ExamplesCheck.v
theories/PropertiesCheck.v
theories/CountSpec.v
theories/CountProofs.v
theories/ExamplesCounts.v
theories/PropertiesCounts.v
theories/AnswerProofs.v
theories/AnswerIds.v
theories/CheckEachModel.v
theories/CheckEach.v
theories/ExamplesCheckEach.v
theories/PropertiesCheckEach.v
theories/OptModel.v
theories/OptNeighbours.v
theories/OptSolid.v
theories/OptDist.v
theories/OptPar.v
theories/OptSpec.v
theories/OptSearch.v
theories/OptMemo.v
theories/OptExplain.v
theories/OptCong.v
theories/OptTarjan.v
theories/OptMono.v
theories/OptMain.v
theories/OptShort.v
theories/OptShortPath.v
theories/ShortSpec.v
theories/OptShortMain.v
theories/OptLean.v
theories/ExamplesOpt.v
theories/PropertiesOpt.v
theories/OptInterleave.v
theories/OptNoPanic.v
theories/ExamplesShort.v
theories/PropertiesShort.v
theories/PrintModel.v
theories/PrintSpec.v
theories/PrintProofs.v
theories/PrintFlat.v
theories/PrintShare.v
theories/PrintSize.v
theories/PrintMain.v
theories/ExamplesPrint.v
theories/PropertiesPrint.v
theories/ExplainMatch.v
theories/QueryModel.v
theories/QuerySpec.v
theories/QueryProofs.v
theories/QueryAlpha.v
theories/ExamplesQuery.v
theories/PropertiesQuery.v
theories/TotalProofs.v
theories/TotalSpec.v
theories/RunTotal.v
theories/FuelProofs.v
theories/ExamplesTotal.v
theories/PropertiesTotal.v
theories/SizeModel.v
theories/SizeSpec.v
theories/SizeProofs.v
theories/ExamplesSize.v
theories/PropertiesSize.v
theories/DotModel.v
theories/DotSpec.v
theories/DotProofs.v
theories/ExamplesDot.v
theories/PropertiesDot.v
theories/SerdeModel.v
theories/SerdeSpec.v
theories/SerdeProofs.v
theories/ExamplesSerde.v
theories/PropertiesSerde.v
theories/LifeModel.v
theories/LifeSpec.v
theories/LifeProofs.v
theories/ExamplesLife.v
theories/PropertiesLife.v
theories/OptimumSpec.v
theories/OptimumProofs.v
theories/OptimumRun.v
theories/OptimumDecide.v
theories/ExamplesOptimum.v
theories/PropertiesOptimum.v
theories/DeriveSpec.v
theories/DeriveProofs.v
theories/DeriveRun.v
theories/ExamplesDerive.v
theories/PropertiesDerive.v
theories/ExtractNode.v
theories/SimplifySpec.v
theories/SimplifyModel.v
theories/SimplifyProofs.v
theories/SimplifyMain.v
theories/SimplifyOps.v
theories/SimplifyText.v
theories/ExamplesSimplify.v
theories/PropertiesSimplify.v
theories/PatternIdSpec.v
theories/PatternIdProofs.v
theories/ExamplesPatternId.v
theories/PropertiesPatternId.v
theories/ProveModel.v
theories/ProveSpec.v
theories/ProveProofs.v
theories/ProveTotal.v
theories/ExamplesProve.v
theories/PropertiesProve.v
