-Q theories Verif
theories/Res.v
theories/Cudd.v
theories/CuddFacts.v
theories/Float.v
theories/SpecFloat.v
theories/FloatFacts.v
theories/Helpers.v
theories/Spec.v
theories/SpecFacts.v
theories/HelpersFacts.v
theories/HelpersFacts2.v
theories/PropHelpers.v
theories/Counting.v
theories/AddFacts.v
theories/CountFacts.v
theories/PathFacts.v
theories/PropCounting.v
theories/Metrics.v
theories/MetricsFacts.v
theories/MetricsFacts2.v
theories/MetricsFacts3.v
theories/MetricsFacts4.v
theories/MetricsFacts5.v
theories/MetricsFacts6.v
theories/FromPapers.v
theories/PropMetrics.v
theories/RelMetrics.v
theories/RelFacts.v
theories/RelFacts2.v
theories/RelFacts3.v
theories/RelFacts4.v
theories/RelFacts5.v
theories/RelFacts6.v
theories/RelFacts7.v
theories/PropRelMetrics.v
theories/Examples.v
theories/AdderFacts.v
theories/PropExamples.v
theories/Operators.v
theories/OperatorFacts.v
theories/OperatorFacts2.v
theories/OperatorFacts3.v
theories/OperatorFacts4.v
theories/PropOperators.v
theories/Minimize.v
theories/SpecMinimize.v
theories/MinimizeFacts.v
theories/MinimizeFacts2.v
theories/MinimizeFacts3.v
theories/MinimizeFacts4.v
theories/MinimizeFacts5.v
theories/LevelFacts.v
theories/PropMinimize.v
theories/Parsing.v
theories/SpecParsing.v
theories/ParsingFacts.v
theories/ParsingFacts2.v
theories/ParsingCases.v
theories/PropParsing.v
theories/Benchmark.v
theories/SpecBenchmark.v
theories/BenchmarkFacts.v
theories/BenchmarkFacts2.v
theories/BenchmarkFacts3.v
theories/PropBenchmark.v
theories/Genetic.v
theories/SpecGenetic.v
theories/GeneticFacts.v
theories/GeneticFacts2.v
theories/GeneticFacts3.v
theories/PropGenetic.v
theories/DumpDot.v
theories/SpecDot.v
theories/DumpDotFacts.v
theories/PropDot.v
theories/CrossFacts.v
theories/OrderFacts.v
theories/PapersFacts.v
theories/PropCross.v
theories/Rounded.v
theories/RoundedFacts.v
theories/RoundedFacts2.v
theories/PropRounded.v
theories/SpecAdder.v
theories/AdderErrorFacts.v
theories/AdderErrorFacts2.v
theories/AdderErrorFacts3.v
theories/PropAdder.v
theories/SpecOperators.v
theories/OperatorFacts5.v
theories/OperatorFacts6.v
theories/OperatorFacts7.v
theories/OperatorFacts8.v
theories/PropOperators2.v
theories/SpecExperiments.v
theories/Experiments.v
theories/ExperimentsFacts.v
theories/AdderErrorFacts4.v
theories/PropExperiments.v
theories/PropAdder2.v
theories/DumpDotFacts2.v
theories/BenchmarkFacts4.v
theories/MinimizeFacts6.v
theories/MinimizeFacts7.v
theories/SpecSampling.v
theories/SamplingFacts.v
theories/SamplingFacts2.v
theories/SamplingFacts3.v
theories/SamplingFacts4.v
theories/PropSampling.v
theories/ExperimentsFacts2.v
theories/RepoTests.v
theories/GateFacts.v
theories/PropGates.v
theories/RoundedAdd.v
theories/RoundedAddFacts.v
theories/RoundedAddFacts2.v
theories/PropRoundedAdd.v
theories/DotText.v
theories/SpecDotText.v
theories/DotTextFacts.v
theories/DotTextFacts2.v
theories/DotTextFacts3.v
theories/DotTextFacts4.v
theories/PropDotText.v
theories/AdderSize.v
theories/MinimizeMains.v
theories/SpecMains.v
theories/MainsFacts.v
theories/MainsFacts2.v
theories/MainsCases.v
theories/PropMains.v
theories/RoundedAddFacts3.v
theories/AdderErrorFacts5.v
theories/PropAdder3.v
theories/MinimizeFacts8.v
theories/RoundedMinimize.v
theories/RoundedMinimizeFacts.v
theories/RoundedMinimizeFacts2.v
theories/RoundedMinimizeFacts3.v
theories/RoundedAverageFacts.v
theories/RoundedOperatorFacts.v
theories/RoundedMinimizeFacts4.v
theories/PropRoundedMinimize.v
theories/MinimizeFacts9.v
theories/MinimizeFacts10.v
theories/MinimizeFacts11.v
theories/SpecPaths.v
theories/WideFacts.v
theories/PropWide.v
theories/RoundedRel.v
theories/RoundedRelFacts.v
theories/RoundedRelFacts2.v
theories/RoundedRelFacts3.v
theories/RoundedRelFacts4.v
theories/RoundedRelFacts5.v
theories/RoundedRelFacts6.v
theories/RoundedRelFacts7.v
theories/PropRoundedRel.v
theories/MinimizeFacts12.v
theories/FailureFacts.v
theories/PropFailures.v
theories/RefCount.v
theories/SpecRefs.v
theories/RefFacts.v
theories/RefFacts2.v
theories/PropRefs.v
theories/OutOfMemory.v
theories/OomFacts.v
theories/OomFacts2.v
theories/Reordering.v
theories/ReorderFacts.v
theories/ReorderFacts2.v
theories/PropHazards.v
theories/Ieee.v
theories/IeeeFacts.v
theories/IeeeFacts2.v
theories/IeeeFacts3.v
theories/IeeeFacts4.v
theories/IeeeFacts5.v
theories/IeeeFacts6.v
theories/IeeeFacts7.v
theories/PropIeee.v
theories/RangeFacts.v
theories/PropRange.v
theories/SpecSearch.v
theories/SearchFacts.v
theories/ConstFacts.v
theories/PropSearch.v
theories/SpecBounds.v
theories/BoundsFacts.v
theories/RangeFacts2.v
theories/PropBounds.v
theories/SpecWide.v
theories/WideAverageFacts.v
theories/PropWideAverage.v
theories/WorkFacts.v
theories/PropWork.v
theories/SpecNan.v
theories/NanFacts.v
theories/NanFacts2.v
theories/PropNan.v
theories/SamplingFacts5.v
theories/PropRoundedSampling.v
theories/SpecReading.v
theories/ReadingFacts.v
theories/ReadingFacts2.v
theories/PropReading.v
theories/SpecOrder.v
theories/OrderSampling.v
theories/PropOrderSampling.v
theories/Ieee2.v
theories/SpecEfficient.v
theories/IeeeFacts8.v
theories/PropEfficient.v
theories/IeeeFacts9.v
theories/PropEfficient2.v
theories/AdderErrorFacts6.v
theories/PropAdderSame.v
theories/SizeFacts.v
theories/PropSize.v
theories/Printing.v
theories/SpecPrinting.v
theories/PrintingFacts.v
theories/PrintingFacts2.v
theories/PrintingFacts3.v
theories/MainText.v
theories/SpecTables.v
theories/TextFacts.v
theories/TextFacts2.v
theories/TextFacts3.v
theories/PropPrinting.v
theories/PropTables.v
theories/PrintingFacts4.v
theories/SpecRoundedMinimize.v
theories/RoundedMinimizeFacts5.v
theories/PropRoundedOperators.v
theories/SpecOutcomes.v
theories/OutcomeFacts.v
theories/OutcomeFacts2.v
theories/PropOutcomes.v
theories/SpecExact.v
theories/ExactFacts.v
theories/PropExact.v
theories/RoundedSearchFacts.v
theories/ExactFacts2.v
theories/ExactFacts3.v
theories/PropZeroDraws.v
theories/SpecPartial.v
theories/PartialFacts.v
theories/PartialFacts2.v
theories/PropPartial.v
theories/SpecLimited.v
theories/LimitedFacts.v
theories/LimitedFacts2.v
theories/PropLimited.v
theories/SpecPrograms.v
theories/ProgramText.v
theories/ProgramFacts.v
theories/ProgramFacts2.v
theories/PropPrograms.v
theories/SpecBisect.v
theories/BisectFacts.v
theories/PropBisect.v
theories/TwosFacts.v
theories/GeneticFacts4.v
theories/BisectFacts2.v
theories/Ieee3.v
theories/IeeeFacts10.v
theories/IeeeFacts11.v
theories/PropIeeeMetrics.v
theories/SpecAdderSize.v
theories/AdderSize2.v
theories/AdderSize3.v
theories/PropAdderSize.v
theories/SizeFacts2.v
theories/SizeFacts3.v
theories/PropSize2.v
theories/SpecIeee.v
theories/IeeeStd.v
theories/IeeeStd2.v
theories/PropIeeeStd.v
theories/AdderErrorFacts7.v
theories/PropAdder4.v
theories/SpecLookback.v
theories/AdderErrorFacts8.v
theories/PropAdder5.v
theories/AdderErrorFacts9.v
theories/PropAdder6.v
theories/AdderErrorFacts10.v
theories/PropAdder7.v
theories/AdderErrorFacts11.v
theories/PropAdder8.v
theories/SpecProduct.v
theories/ProductFacts.v
theories/PropProduct.v
theories/DumpDotFacts3.v
theories/PropDot2.v
theories/AdderErrorFacts12.v
theories/PropAdder9.v
theories/LawFacts.v
theories/PropLaws.v
theories/CircularFacts.v
theories/PropCircular.v
theories/SpecLaws.v
theories/LawFacts2.v
theories/PropLaws2.v
theories/LawFacts3.v
theories/PropLaws3.v
theories/ConcatFacts.v
theories/PropConcat.v
theories/OutcomeFacts3.v
theories/PropOutcomes2.v
theories/NearFacts.v
theories/PropNear.v
theories/NearFacts2.v
theories/NearFacts3.v
theories/PropNear2.v
theories/HalfFacts.v
theories/PropHalf.v
theories/WideMseFacts.v
theories/EvalAdderFacts.v
theories/LossFacts.v
theories/PropLoss.v
theories/LossFacts2.v
theories/RoundVectorFacts.v
theories/PropRoundVector.v
theories/RoundVectorFacts2.v
theories/PropRoundVector2.v
theories/RoundVectorFacts3.v
theories/PropRoundVector3.v
