-Q theories Verif
theories/Base.v
theories/Syntax.v
theories/GrammarSpec.v
theories/ParseGrammar.v
theories/Earley.v
theories/EarleySpec.v
theories/ParseGrammarProofs.v
theories/EarleyInv.v
theories/EarleyLoop.v
theories/EarleyTree.v
theories/EarleyRun.v
theories/EarleyMain.v
theories/EarleyTerm.v
theories/EarleyExact.v
theories/EarleyBounds.v
theories/EarleyOrder.v
theories/ParseExamples.v
theories/CopiesSpec.v
theories/CopiesProofs.v
theories/Facts_Copies.v
theories/Facts_Parsing.v
theories/Properties_Parsing.v
theories/TerminationExamples.v
theories/Properties_Termination.v
theories/Properties_Validation.v
theories/Display.v
theories/Generation.v
theories/Strategies.v
theories/GenSpec.v
theories/GenProofs.v
theories/StrategyProofs.v
theories/StrategyExact.v
theories/DepthLength.v
theories/Facts_Generation.v
theories/Properties_Generation.v
theories/Facts_Strategies.v
theories/Properties_Strategies.v
theories/Properties_Choices.v
theories/Decimals.v
theories/TreeFormat.v
theories/TreeSpec.v
theories/DecimalProofs.v
theories/TreeProofs.v
theories/EditProofs.v
theories/Macros.v
theories/Facts_Trees.v
theories/Properties_Trees.v
theories/Facts_Api.v
theories/Properties_Api.v
theories/Text.v
theories/TextSpec.v
theories/TextTotal.v
theories/TextProofs.v
theories/TextRead.v
theories/TextComplete.v
theories/NormalizeSpec.v
theories/NormalizeProofs.v
theories/NormalizeClosed.v
theories/TextMain.v
theories/TextExamples.v
theories/Facts_Text.v
theories/Properties_Text.v
theories/Facts_Normalize.v
theories/Properties_Normalize.v
theories/DocProofs.v
theories/Properties_Docs.v
theories/TreeInject.v
theories/Properties_Formats.v
theories/TraceSpec.v
theories/TraceProofs.v
theories/Properties_Traces.v
theories/EarleyWork.v
theories/WorkNumbered.v
theories/WorkExamples.v
theories/Properties_Work.v
theories/RenameSpec.v
theories/EarleySim.v
theories/Facts_Rename.v
theories/Properties_Rename.v
theories/Utf8.v
theories/Order.v
theories/Properties_Order.v
theories/Properties_Bytes.v
theories/TextErrors.v
theories/TextErrorsProofs.v
theories/TextTail.v
theories/TextLocate.v
theories/Facts_Errors.v
theories/Properties_Errors.v
theories/Fixtures.v
theories/FixtureProofs.v
theories/Facts_Fixtures.v
theories/Properties_Fixtures.v
theories/Conformance.v
theories/PropTests.v
theories/PropTestProofs.v
theories/PropTestRange.v
theories/Facts_PropTests.v
theories/Properties_PropTests.v
theories/UnitTests.v
theories/TextCost.v
theories/TextCostProofs.v
theories/TextCostLower.v
theories/Facts_Cost.v
theories/Properties_Cost.v
theories/WalkSpec.v
theories/WalkProofs.v
theories/Facts_Walks.v
theories/Properties_Walks.v
theories/Json.v
theories/JsonSpec.v
theories/JsonProofs.v
theories/Facts_Json.v
theories/Properties_Json.v
theories/Debug.v
theories/DebugProofs.v
theories/Facts_Debug.v
theories/Properties_Debug.v
theories/Nesting.v
theories/NestingProofs.v
theories/TreeDepth.v
theories/GenDepth.v
theories/Facts_Nesting.v
theories/Properties_Nesting.v
theories/EndsSpec.v
theories/EndsProofs.v
theories/GenTests.v
theories/Facts_Ends.v
theories/Properties_Ends.v
theories/ErrorProofs.v
theories/Facts_GenErrors.v
theories/DeadEndSpec.v
theories/DeadEnds.v
theories/Properties_GenErrors.v
theories/Iterate.v
theories/IterateSpec.v
theories/IterateProofs.v
theories/Facts_Iterate.v
theories/Properties_Iterate.v
theories/TreeExamples.v
theories/DebugTree.v
theories/CoverSpec.v
theories/CoverProofs.v
theories/Facts_Cover.v
theories/Properties_Cover.v
theories/ScanSpec.v
theories/ScanProofs.v
theories/Facts_Scan.v
theories/Properties_Scan.v
theories/LinearSpec.v
theories/LinearProofs.v
theories/Facts_Linear.v
theories/Properties_Linear.v
theories/AmbiguitySpec.v
theories/AmbiguityProofs.v
theories/Facts_Ambiguity.v
theories/Facts_Repeated.v
theories/Properties_Ambiguity.v
theories/ExpectSpec.v
theories/ExpectProofs.v
theories/Facts_Expect.v
theories/Properties_Expect.v
theories/CriticalProofs.v
theories/Properties_Critical.v
theories/DirectSpec.v
theories/DirectProofs.v
theories/Facts_Direct.v
theories/Properties_Direct.v
theories/CoverDraws.v
theories/Properties_CoverDraws.v
theories/PreferSpec.v
theories/PreferProofs.v
theories/Facts_Prefer.v
theories/Properties_Prefer.v
theories/RoundSpec.v
theories/RoundProofs.v
theories/InfixSpec.v
theories/InfixProofs.v
theories/InfixCount.v
theories/Facts_Round.v
theories/Properties_Round.v
theories/TreeCost.v
theories/TreeCostProofs.v
theories/Facts_TreeCost.v
theories/Properties_TreeCost.v
theories/Postal.v
theories/PostalProofs.v
theories/PostalTrees.v
theories/Properties_Postal.v
theories/Programs.v
theories/ProgramProofs.v
theories/Properties_Programs.v
theories/StructSpec.v
theories/StructProofs.v
theories/Properties_Structures.v
theories/FormatSpec.v
theories/FormatProofs.v
theories/FormatMain.v
theories/Properties_UserFormats.v
theories/GenSameSpec.v
theories/GenSameProofs.v
theories/GenSameCases.v
theories/Properties_GenSame.v
theories/ExtendSpec.v
theories/ExtendProofs.v
theories/Properties_Extend.v
theories/Hashing.v
theories/HashSpec.v
theories/HashProofs.v
theories/Properties_Hash.v
theories/SizeSpec.v
theories/SizeDisplay.v
theories/SizeProofs.v
theories/Properties_Size.v
theories/CombineSpec.v
theories/CombineProofs.v
theories/CombineGen.v
theories/Properties_Combine.v
theories/TourSpec.v
theories/TourProofs.v
theories/Facts_Tours.v
theories/Properties_Tours.v
theories/Tracing.v
theories/TracingSpec.v
theories/TracingProofs.v
theories/Facts_Tracing.v
theories/Properties_Tracing.v
theories/TextTracing.v
theories/TextTracingSpec.v
theories/TextTracingProofs.v
theories/TextStory.v
theories/Facts_TextTracing.v
theories/Properties_TextTracing.v
theories/Seeding.v
theories/SeedingProofs.v
theories/Facts_Seeding.v
theories/Properties_Seeding.v
theories/Machine.v
theories/MachineProofs.v
theories/Facts_Machine.v
theories/Properties_Machine.v
theories/PrefixSpec.v
theories/PrefixProofs.v
theories/Facts_Prefix.v
theories/Properties_Prefix.v
theories/StepsSpec.v
theories/StepsProofs.v
theories/Facts_Steps.v
theories/Properties_Steps.v
theories/MemorySpec.v
theories/MemoryProofs.v
theories/Properties_Memory.v
theories/Facts_Inside.v
theories/Properties_Inside.v
theories/TreeSizeSpec.v
theories/TreeSizeProofs.v
theories/Properties_TreeSize.v
theories/CodeSpec.v
theories/CodeProofs.v
theories/Facts_Code.v
theories/Properties_Code.v
theories/SimplifySpec.v
theories/SimplifyProofs.v
theories/SimplifyEnds.v
theories/Facts_Simplify.v
theories/Properties_Simplify.v
theories/PartsSpec.v
theories/PartsProofs.v
theories/Facts_Parts.v
theories/Properties_Parts.v
theories/CountSpec.v
theories/CountProofs.v
theories/Facts_Count.v
theories/Properties_Count.v
theories/LeftSpec.v
theories/LeftProofs.v
theories/LeftTrees.v
theories/LeftEnds.v
theories/LeftCopies.v
theories/Facts_Left.v
theories/Properties_Left.v
