-Q theories Verif
theories/Model/Ord.v
theories/Model/BTree.v
theories/Model/Outcome.v
theories/Model/Utils.v
theories/Proofs/OrdFacts.v
theories/Proofs/BTreeFacts.v
theories/Proofs/LoopFacts.v
theories/Spec/Reach.v
theories/Proofs/UtilsFacts.v
theories/Model/Grammar.v
theories/Model/StartGrammar.v
theories/Spec/Cfg.v
theories/Spec/BuildSpec.v
theories/Proofs/GrammarFacts.v
theories/Proofs/StartFacts.v
theories/Spec/Examples.v
theories/Proofs/BuildMore.v
theories/Properties/BuildProps.v
theories/Spec/UtilsSpec.v
theories/Proofs/UtilsMore.v
theories/Properties/UtilsProps.v
theories/Model/Nullable.v
theories/Spec/NullSpec.v
theories/Proofs/NullableFacts.v
theories/Proofs/NullableMore.v
theories/Properties/NullableProps.v
theories/Model/Firsts.v
theories/Proofs/CfgFacts.v
theories/Proofs/FirstsFacts.v
theories/Proofs/FollowsFacts.v
theories/Proofs/FirstsMore.v
theories/Properties/FirstsProps.v
theories/Model/NonNull.v
theories/Spec/NonNullSpec.v
theories/Proofs/NonNullFacts.v
theories/Proofs/NonNullMore.v
theories/Properties/NonNullProps.v
theories/Model/Passes.v
theories/Spec/PassSpec.v
theories/Proofs/PassesFacts.v
theories/Proofs/PassesMore.v
theories/Properties/PassesProps.v
theories/Model/Name.v
theories/Spec/NameSpec.v
theories/Proofs/NameFacts.v
theories/Model/Mergeables.v
theories/Spec/MergeSpec.v
theories/Proofs/MergeFacts.v
theories/Model/Tokens.v
theories/Model/TypeMap.v
theories/Spec/TypeMapSpec.v
theories/Proofs/TypeMapFacts.v
theories/Proofs/TokensFacts.v
theories/Properties/UtilsMoreProps.v
theories/Model/Tree.v
theories/Proofs/TreeFacts.v
theories/Spec/TreeSpec.v
theories/Proofs/TreeHist.v
theories/Proofs/DotFacts.v
theories/Properties/TreeProps.v
theories/Model/State.v
theories/Model/Earley.v
theories/Spec/EarleySpec.v
theories/Proofs/EarleyItems.v
theories/Proofs/EarleyRun.v
theories/Proofs/EarleyParse.v
theories/Proofs/EarleyMain.v
theories/Proofs/TreeLink.v
theories/Proofs/EarleyMore.v
theories/Properties/EarleyProps.v
theories/Model/Buffer.v
theories/Spec/BufferSpec.v
theories/Proofs/BufferFacts.v
theories/Proofs/BufferLines.v
theories/Properties/BufferProps.v
theories/Spec/StateSpec.v
theories/Proofs/StateFacts.v
theories/Proofs/StateMore.v
theories/Proofs/StateSets.v
theories/Properties/StateProps.v
theories/Model/Lalr.v
theories/Spec/LalrSpec.v
theories/Proofs/LalrFacts.v
theories/Proofs/LalrMore.v
theories/Proofs/LalrMain.v
theories/Proofs/LalrActions.v
theories/Properties/LalrProps.v
theories/Model/RwLock.v
theories/Spec/RwLockSpec.v
theories/Proofs/RwLockSafe.v
theories/Proofs/RwLockInv.v
theories/Proofs/RwLockLive.v
theories/Proofs/RwLockStuck.v
theories/Properties/RwLockProps.v
theories/Model/Pretty.v
theories/Spec/PrettySpec.v
theories/Proofs/PrettyFacts.v
theories/Properties/PrettyProps.v
theories/Model/DotText.v
theories/Spec/DotSpec.v
theories/Proofs/DotTextFacts.v
theories/Properties/DotProps.v
theories/Proofs/EarleyPieces.v
theories/Properties/ForestProps.v
theories/Model/Compare.v
theories/Spec/CmpSpec.v
theories/Proofs/CompareFacts.v
theories/Properties/CompareProps.v
theories/Model/ExampleGrammars.v
theories/Spec/ExampleSpec.v
theories/Proofs/ExampleFacts.v
theories/Proofs/ExampleLangs.v
theories/Properties/ExampleProps.v
theories/Spec/SizeSpec.v
theories/Proofs/EarleySize.v
theories/Properties/SizeProps.v
theories/Model/EarleyShared.v
theories/Spec/ShareSpec.v
theories/Proofs/EarleyShare.v
theories/Properties/ShareProps.v
theories/Model/DotShared.v
theories/Spec/DotShareSpec.v
theories/Proofs/DotShare.v
theories/Properties/DotShareProps.v
theories/Spec/TrimSpec.v
theories/Proofs/TrimFacts.v
theories/Properties/PipelineProps.v
theories/Properties/DeadlockProps.v
theories/Proofs/RoundFacts.v
theories/Properties/RoundsProps.v
theories/Model/Debug.v
theories/Spec/DebugSpec.v
theories/Proofs/DebugFacts.v
theories/Properties/DebugProps.v
theories/Spec/OrderSpec.v
theories/Proofs/OrderFacts.v
theories/Properties/OrderProps.v
theories/Proofs/NullFreeFacts.v
theories/Properties/NullFreeProps.v
theories/Proofs/IdleFacts.v
theories/Properties/IdleProps.v
theories/Proofs/MemFacts.v
theories/Spec/RenameSpec.v
theories/Proofs/RenameFacts.v
theories/Proofs/RenameParse.v
theories/Properties/RenameProps.v
theories/Spec/RenameForestSpec.v
theories/Proofs/RenameForest.v
theories/Properties/RenameForestProps.v
theories/Proofs/EarleyMem.v
theories/Proofs/EarleyExact.v
theories/Proofs/ReorderFacts.v
theories/Spec/ThreadParseSpec.v
theories/Proofs/ParseThreads.v
theories/Properties/ThreadParseProps.v
theories/Spec/LalrMeaning.v
theories/Proofs/LalrMeaningFacts.v
theories/Properties/LalrMeaningProps.v
theories/Properties/LalrCmpProps.v
theories/Model/UtilsFnMut.v
theories/Spec/CallsSpec.v
theories/Proofs/FnMutFacts.v
theories/Properties/FnMutProps.v
theories/Model/DotReads.v
theories/Spec/ThreadDotSpec.v
theories/Proofs/DotThreads.v
theories/Properties/ThreadDotProps.v
theories/Model/TreeFaults.v
theories/Spec/TreeFaultsSpec.v
theories/Proofs/TreeFaultsFacts.v
theories/Proofs/TreeFaultsPoison.v
theories/Properties/TreeFaultsProps.v
theories/Model/PassesCatch.v
theories/Spec/PassCatchSpec.v
theories/Proofs/PassesCatchFacts.v
theories/Properties/PassesCatchProps.v
theories/Spec/LL1Spec.v
theories/Proofs/LL1Facts.v
theories/Proofs/StuckProds.v
theories/Properties/LL1Props.v
theories/Proofs/Overlaps.v
theories/Model/ThreadFaults.v
theories/Spec/ThreadFaultsSpec.v
theories/Proofs/ThreadFaultsSafe.v
theories/Proofs/ThreadFaultsOps.v
theories/Proofs/ThreadFaultsInv.v
theories/Proofs/ThreadFaultsMore.v
theories/Properties/ThreadFaultsProps.v
theories/Proofs/ArithVerdict.v
theories/Properties/ArithProps.v
theories/Spec/KeySpec.v
theories/Proofs/KeyFacts.v
theories/Properties/KeyProps.v
theories/Properties/DebugMoreProps.v
theories/Proofs/PrefixFacts.v
theories/Properties/PrefixProps.v
theories/Properties/OptionalProps.v
theories/Spec/ValueSpec.v
theories/Proofs/ValueFacts.v
theories/Properties/ValueProps.v
theories/Model/Machine.v
theories/Spec/MachineSpec.v
theories/Proofs/MachineFacts.v
theories/Properties/MachineProps.v
theories/Spec/CoarseSpec.v
theories/Proofs/CoarseFacts.v
theories/Properties/CoarseProps.v
theories/Spec/AmbigSpec.v
theories/Proofs/AmbigFacts.v
theories/Properties/AmbigProps.v
theories/Spec/SymbolSpec.v
theories/Proofs/SymbolFacts.v
theories/Properties/SymbolProps.v
theories/Spec/DrawSpec.v
theories/Proofs/DrawFacts.v
theories/Properties/DrawProps.v
theories/Model/ExamplePrograms.v
theories/Properties/ProgramProps.v
theories/Spec/SymbolLalrSpec.v
theories/Proofs/SymbolLalrFacts.v
theories/Properties/SymbolLalrProps.v
theories/Proofs/CoarseBfs.v
theories/Spec/LalrExploreSpec.v
theories/Proofs/LalrExplore.v
theories/Properties/LalrExploreProps.v
theories/Spec/JoinSpec.v
theories/Proofs/JoinFacts.v
theories/Properties/JoinProps.v
theories/Spec/NullSizeSpec.v
theories/Proofs/NullSize.v
theories/Properties/NullSizeProps.v
theories/Spec/CutSpec.v
theories/Proofs/CutFacts.v
theories/Properties/CutProps.v
theories/Spec/PredictSpec.v
theories/Proofs/PredictFacts.v
theories/Properties/PredictProps.v
theories/Proofs/FollowGen.v
theories/Spec/WalkSpec.v
theories/Proofs/WalkFacts.v
theories/Properties/WalkProps.v
theories/Spec/SiftSpec.v
theories/Proofs/SiftFacts.v
theories/Properties/SiftProps.v
theories/Proofs/ViableRun.v
theories/Spec/BlameSpec.v
theories/Proofs/BlameFacts.v
theories/Properties/BlameProps.v
theories/Spec/ReadingsSpec.v
theories/Proofs/ReadingsFacts.v
theories/Properties/ReadingsProps.v
theories/Properties/OptionalOracleProps.v
theories/Spec/RepairSpec.v
theories/Proofs/RepairFacts.v
theories/Properties/RepairProps.v
theories/Spec/GrammarTestSpec.v
theories/Proofs/GrammarTestFacts.v
theories/Properties/GrammarTestProps.v
theories/Spec/OptionalTestSpec.v
theories/Proofs/OptionalTestFacts.v
theories/Properties/OptionalTestProps.v
theories/Spec/CleanSpec.v
theories/Proofs/CleanFacts.v
theories/Properties/CleanProps.v
