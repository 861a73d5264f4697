-Q theories Verif
theories/Base.v
theories/Decimal.v
theories/Options.v
theories/SpecOptions.v
theories/OptionsFacts.v
theories/OptionsArg.v
theories/Format.v
theories/FormatFacts.v
theories/PropertiesOptions.v
theories/Parse.v
theories/ParseChunks.v
theories/SpecDimacs.v
theories/ParseFacts.v
theories/ParseSafe.v
theories/PropertiesParse.v
theories/ProofFile.v
theories/SpecProof.v
theories/ProofFileFacts.v
theories/PropertiesProof.v
theories/Reluctant.v
theories/SpecReluctant.v
theories/ReluctantFacts.v
theories/Random.v
theories/Witness.v
theories/SpecWitness.v
theories/PropertiesMisc.v
theories/SpecSat.v
theories/SpecApi.v
theories/SpecSearch.v
theories/Lit.v
theories/Solver.v
theories/Analyze.v
theories/Backbone.v
theories/Transitive.v
theories/Probe.v
theories/Search.v
theories/Api.v
theories/Hoare.v
theories/Sem.v
theories/Inv.v
theories/DbFacts.v
theories/AssignFacts.v
theories/AssignSpec.v
theories/BacktrackFacts.v
theories/PropFacts.v
theories/PropLoop.v
theories/Justify.v
theories/CutFacts.v
theories/OneLit.v
theories/MarkFacts.v
theories/ClauseFacts.v
theories/DeduceFacts.v
theories/Otfs.v
theories/DeduceLoop.v
theories/MinFacts.v
theories/ShrinkFacts.v
theories/Learnable.v
theories/LearnFacts.v
theories/AnalyzeLoop.v
theories/CollectFacts.v
theories/SpecGraph.v
theories/TransitiveFacts.v
theories/BackboneFacts.v
theories/SearchFacts.v
theories/Keeps.v
theories/OriginalFacts.v
theories/ApiFacts.v
theories/Lucky.v
theories/LuckyOrder.v
theories/LuckyFacts.v
theories/LuckySpec.v
theories/LuckyApi.v
theories/PropertiesApi.v
theories/PropertiesLucky.v
theories/PropertiesSearch.v
theories/SpecData.v
theories/Heap.v
theories/HeapFacts.v
theories/Fifo.v
theories/FifoFacts.v
theories/PropertiesData.v
theories/Stack.v
theories/StackFacts.v
theories/PropertiesStack.v
theories/Arena.v
theories/ArenaFacts.v
theories/PropertiesArena.v
theories/Sort.v
theories/SortFacts.v
theories/Radix.v
theories/RadixFacts.v
theories/PropertiesSort.v
theories/Queue.v
theories/QueueFacts.v
theories/PropertiesQueue.v
theories/Vector.v
theories/VectorFacts.v
theories/PropertiesVector.v
theories/SpecExtend.v
theories/Extend.v
theories/ExtendFacts.v
theories/PropertiesExtend.v
theories/Eliminate.v
theories/DenseFacts.v
theories/DenseOps.v
theories/GateFacts.v
theories/ResolveFacts.v
theories/WeakenFacts.v
theories/EliminateFacts.v
theories/PropertiesEliminate.v
theories/Smooth.v
theories/PropertiesSmooth.v
theories/Application.v
theories/PropertiesApplication.v
theories/PropertiesMode.v
theories/Levels.v
theories/Limits.v
theories/SpecLimits.v
theories/LimitsFacts.v
theories/PropertiesLimits.v
theories/Krite.v
theories/PropertiesKrite.v
theories/Substitute.v
theories/TarjanFacts.v
theories/RootProp.v
theories/SubstituteFacts.v
theories/SubstituteRound.v
theories/PropertiesSubstitute.v
theories/SpecDrat.v
theories/Factor.v
theories/FactorFacts.v
theories/FactorFresh.v
theories/FactorQuotient.v
theories/FactorApply.v
theories/FactorRun.v
theories/FactorEnter.v
theories/Compact.v
theories/CompactFacts.v
theories/CompactMap.v
theories/CompactCollect.v
theories/CompactQueue.v
theories/CompactFinal.v
theories/CompactSpec.v
theories/PropertiesCompact.v
theories/PropertiesProgram.v
theories/PropertiesTransitive.v
theories/PropertiesBackbone.v
theories/PropertiesFactor.v
theories/Forward.v
theories/ForwardFacts.v
theories/ForwardRun.v
theories/ForwardLoop.v
theories/PropertiesForward.v
theories/ForwardProof.v
theories/ForwardProofRun.v
theories/PropertiesForwardProof.v
theories/Rounds.v
theories/RoundsFacts.v
theories/RoundsSteps.v
theories/PropertiesRounds.v
theories/Files.v
theories/SpecFiles.v
theories/FilesFacts.v
theories/PropertiesFiles.v
theories/Signals.v
theories/SignalsFacts.v
theories/SignalsRun.v
theories/SignalsMore.v
theories/SignalsEnd.v
theories/PropertiesSignals.v
