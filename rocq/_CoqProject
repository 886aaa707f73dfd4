-Q theories Verif
theories/Base/Prelude.v
theories/Spec/Grammar.v
theories/Model/Error.v
theories/Model/BitSet.v
theories/Model/FixedMap.v
theories/Model/Vocabulary.v
theories/Model/IndexedGrammar.v
theories/Model/FirstMap.v
theories/Model/Position.v
theories/Model/Closure.v
theories/Model/LRTable.v
theories/Model/TableText.v
theories/Model/StateMap.v
theories/Model/ParseSimulator.v
theories/Model/GrammarStr.v
theories/Model/TokenTree.v
theories/Model/Terminal.v
theories/Model/Constructor.v
theories/Model/CodeGen.v
theories/Model/Symbol.v
theories/Model/FrontEnd.v
theories/Model/Runtime.v
theories/Model/Rust.v
theories/Model/Emit.v
theories/Model/ErrorText.v
theories/Model/Diagnostics.v
theories/Model/CodeGenDiagnostics.v
theories/Model/Expand.v
theories/Proofs/WP.v
theories/Proofs/BitSetProofs.v
theories/Proofs/FixedMapProofs.v
theories/Proofs/VocabProofs.v
theories/Spec/Validity.v
theories/Spec/Histories.v
theories/Spec/Nullable.v
theories/Spec/Observers.v
theories/Spec/States.v
theories/Proofs/IndexedProofs.v
theories/Proofs/IndexedBuild.v
theories/Proofs/IndexedMain.v
theories/Proofs/FirstProofs.v
theories/Proofs/ClosureProofs.v
theories/Proofs/ItemSets.v
theories/Proofs/TableProofs.v
theories/Proofs/TableBuild.v
theories/Proofs/Fuel.v
theories/Proofs/Machine.v
theories/Proofs/MixedRuns.v
theories/Proofs/ParserFinal.v
theories/Proofs/RecognitionFinal.v
theories/Proofs/Refutations.v
theories/Spec/LR1.v
theories/Proofs/LR1Proofs.v
theories/Proofs/DataFinal.v
theories/Proofs/IndexedFinal.v
theories/Proofs/LR1Final.v
theories/Proofs/LR1Refute.v
theories/Proofs/StatesFinal.v
theories/Proofs/TableFinal.v
theories/Proofs/StateMapFinal.v
theories/Proofs/UsedTokens.v
theories/Spec/TableText.v
theories/Proofs/TextLayout.v
theories/Proofs/TableText.v
theories/Spec/Values.v
theories/Spec/Substitution.v
theories/Spec/GrammarText.v
theories/Spec/Macro.v
theories/Spec/MacroPanic.v
theories/Spec/Diagnostics.v
theories/Spec/CodeGenDiagnostics.v
theories/Spec/Lookahead.v
theories/Spec/EmittedCode.v
theories/Spec/Places.v
theories/Spec/Expansion.v
theories/Spec/EmittedNames.v
theories/Proofs/ConstructorProofs.v
theories/Proofs/GenTable.v
theories/Proofs/GenCode.v
theories/Proofs/GenRun.v
theories/Proofs/GenPath.v
theories/Proofs/GenFinal.v
theories/Proofs/GenEnds.v
theories/Proofs/GenLang.v
theories/Proofs/GenMain.v
theories/Proofs/StatesRefute.v
theories/Proofs/Substitution.v
theories/Proofs/GrammarText.v
theories/Proofs/Macro.v
theories/Proofs/MacroTotal.v
theories/Proofs/MacroMain.v
theories/Proofs/MacroExamples.v
theories/Proofs/Diagnostics.v
theories/Proofs/Lookahead.v
theories/Proofs/DiagnosticsExamples.v
theories/Proofs/CodeGenDiagnostics.v
theories/Proofs/CodeGenReports.v
theories/Proofs/GenExamples.v
theories/Proofs/CodeGenExamples.v
theories/Proofs/EmitRun.v
theories/Proofs/EmitMain.v
theories/Proofs/EmitNames.v
theories/Proofs/EmitExamples.v
theories/Proofs/Places.v
theories/Proofs/ExpandMain.v
theories/Proofs/ExpandExamples.v
theories/Proofs/MacroRefute.v
theories/Proofs/Amortize.v
theories/Proofs/Linear.v
theories/Proofs/GenLinear.v
theories/Proofs/StepsFinal.v
theories/Properties/DataStructures.v
theories/Properties/GrammarIndex.v
theories/Properties/Recognition.v
theories/Properties/LR1.v
theories/Properties/States.v
theories/Properties/StateMap.v
theories/Properties/TableText.v
theories/Properties/Generated.v
theories/Properties/Constructors.v
theories/Properties/GrammarText.v
theories/Properties/FrontEnd.v
theories/Properties/Diagnostics.v
theories/Properties/CodeGenDiagnostics.v
theories/Properties/EmittedCode.v
theories/Properties/Expansion.v
theories/Properties/Steps.v
theories/Model/ParserErrorText.v
theories/Model/DeriveUserError.v
theories/Spec/Causes.v
theories/Spec/Derive.v
theories/Proofs/Causes.v
theories/Proofs/ParserErrors.v
theories/Proofs/Derive.v
theories/Proofs/ErrorExamples.v
theories/Properties/Errors.v
theories/Model/FixedSize.v
theories/Spec/FixedSize.v
theories/Proofs/FixedSize.v
theories/Spec/Typing.v
theories/Proofs/Typing.v
theories/Proofs/TypingExamples.v
theories/Properties/Typing.v
theories/Spec/Meaning.v
theories/Proofs/Meaning.v
theories/Proofs/Cuts.v
theories/Proofs/FailMain.v
theories/Proofs/MeaningMain.v
theories/Proofs/MeaningExamples.v
theories/Properties/Meaning.v
theories/Spec/FailingStreams.v
theories/Proofs/FailStreams.v
theories/Proofs/FailStreamsExamples.v
theories/Properties/FailingStreams.v
theories/Spec/Overlaps.v
theories/Proofs/Overlaps.v
theories/Proofs/OverlapsMain.v
theories/Proofs/OverlapsExamples.v
theories/Properties/Overlaps.v
theories/Model/TestGrammars.v
theories/Spec/TestLanguages.v
theories/Proofs/TestGrammars.v
theories/Proofs/TestLanguages.v
theories/Proofs/TestCalc.v
theories/Proofs/TestAlike.v
theories/Proofs/TestSanity.v
theories/Proofs/TestMain.v
theories/Proofs/TestExamples.v
theories/Proofs/TestAccepted.v
theories/Properties/TestGrammars.v
theories/Spec/TestFailures.v
theories/Proofs/TestFailures.v
theories/Proofs/TestSmall.v
theories/Proofs/TestStream.v
theories/Proofs/TestFailMain.v
theories/Proofs/TestFailExamples.v
theories/Properties/TestFailures.v
theories/Proofs/Rename.v
theories/Spec/TestPatterns.v
theories/Proofs/TestPatterns.v
theories/Proofs/TestPatternsMain.v
theories/Proofs/TestPatternsJava.v
theories/Proofs/TestPatternExamples.v
theories/Properties/TestPatterns.v
theories/Proofs/UnitTests.v
theories/Spec/Ownership.v
theories/Proofs/Ownership.v
theories/Proofs/OwnershipExamples.v
theories/Properties/Ownership.v
theories/Spec/Notes.v
theories/Proofs/Notes.v
theories/Proofs/NotesExamples.v
theories/Properties/Notes.v
theories/Spec/Early.v
theories/Proofs/FirstEarly.v
theories/Proofs/EarlyFinal.v
theories/Proofs/Reordered.v
theories/Proofs/OrderExamples.v
theories/Properties/RuleOrder.v
theories/Model/DebugText.v
theories/Spec/DebugText.v
theories/Proofs/DebugText.v
theories/Properties/DebugText.v
theories/Spec/Reordering.v
theories/Proofs/ReorderedValues.v
theories/Proofs/ReorderedExamples.v
theories/Properties/Reordering.v
theories/Spec/Renaming.v
theories/Proofs/Renaming.v
theories/Proofs/RenamingExamples.v
theories/Properties/Renaming.v
theories/Spec/LabelNames.v
theories/Proofs/LabelNames.v
theories/Proofs/LabelNamesExamples.v
theories/Properties/LabelNames.v
theories/Spec/Redundant.v
theories/Proofs/Redundant.v
theories/Proofs/RedundantMacro.v
theories/Properties/Redundant.v
theories/Model/Brainfck.v
theories/Spec/Brainfck.v
theories/Proofs/Brainfck.v
theories/Proofs/BrainfckRun.v
theories/Proofs/BrainfckExamples.v
theories/Properties/Brainfck.v
theories/Spec/Parts.v
theories/Proofs/Parts.v
theories/Proofs/PartsExamples.v
theories/Proofs/PartsMacro.v
theories/Proofs/PartsMacroExamples.v
theories/Properties/Parts.v
theories/Spec/Repair.v
theories/Proofs/Repair.v
theories/Proofs/RepairExamples.v
theories/Properties/Repair.v
theories/Spec/Frame.v
theories/Proofs/Frame.v
theories/Proofs/FrameExamples.v
theories/Proofs/FrameRepair.v
theories/Properties/Frame.v
theories/Model/SymbolText.v
theories/Spec/SymbolText.v
theories/Proofs/SymbolText.v
theories/Properties/SymbolText.v
theories/Model/PrintTable.v
theories/Spec/PrintTable.v
theories/Proofs/PrintTable.v
theories/Properties/PrintTable.v
