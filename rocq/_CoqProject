-Q theories Verif
theories/Model/Prelude.v
theories/Model/Parser.v
theories/Model/Iter.v
theories/Spec/Contract.v
theories/Proofs/Wp.v
theories/Proofs/Safety.v
theories/Proofs/Depth.v
theories/Proofs/Sim.v
theories/Spec/AbsStream.v
theories/Spec/Grammar.v
theories/Proofs/FuelMono.v
theories/Spec/Balance.v
theories/Proofs/GrammarFacts.v
theories/Proofs/AbsParse.v
theories/Proofs/Complete.v
theories/Proofs/Refine.v
theories/Proofs/AbsIter.v
theories/Spec/Trace.v
theories/Proofs/TraceFacts.v
theories/Model/Utf8.v
theories/Model/Chunk.v
theories/Model/TextIter.v
theories/Model/PosStr.v
theories/Model/PosStrish.v
theories/Model/TextVec.v
theories/Model/TextDatumList.v
theories/Model/CharIter.v
theories/Model/StrishIter.v
theories/Model/Alloc.v
theories/Model/DefaultClassifier.v
theories/Model/TextMethods.v
theories/Model/DatumMethods.v
theories/Model/Bindings.v
theories/Model/Premade.v
theories/Spec/ChunkContract.v
theories/Proofs/StrFacts.v
theories/Proofs/ChunkFacts.v
theories/Proofs/TextFacts.v
theories/Proofs/Utf8Facts.v
theories/Spec/Lex.v
theories/Proofs/MethodFacts.v
theories/Proofs/DatumFacts.v
theories/Proofs/BindingFacts.v
theories/Proofs/AllocFacts.v
theories/Spec/Lawful.v
theories/Proofs/Compose.v
theories/Proofs/Transfer.v
theories/Proofs/Instances.v
theories/Proofs/PremadeFacts.v
theories/Spec/History.v
theories/Proofs/HistoryFacts.v
theories/Proofs/Concrete.v
theories/Tests/Str.v
theories/Tests/Harness.v
theories/Tests/Suite.v
theories/Tests/Cases.v
theories/Properties/Termination.v
theories/Spec/Canonical.v
theories/Spec/Render.v
theories/Proofs/RenderFacts.v
theories/Spec/Kept.v
theories/Proofs/CanonFacts.v
theories/Spec/Run.v
theories/Proofs/RunFacts.v
theories/Proofs/ClassifierFacts.v
theories/Tests/AbsCases.v
theories/Proofs/GrammarRuns.v
theories/Properties/Grammar.v
theories/Spec/Fails.v
theories/Proofs/NextFacts.v
theories/Proofs/FormFacts.v
theories/Proofs/PrefixFacts.v
theories/Spec/Outcome.v
theories/Proofs/FormRuns.v
theories/Properties/Combiners.v
theories/Properties/Texts.v
theories/Spec/Paths.v
theories/Properties/Datums.v
theories/Spec/Calls.v
theories/Proofs/CallFacts.v
theories/Proofs/TwoRuns.v
theories/Proofs/Inv.v
theories/Spec/Slices.v
theories/Proofs/Diag.v
theories/Properties/Streams.v
theories/Properties/Collect.v
theories/Proofs/Memory.v
theories/Spec/Memory.v
theories/Proofs/Count.v
theories/Proofs/MemoryFacts.v
theories/Properties/Alloc.v
theories/Model/Drop.v
theories/Model/DropRc.v
theories/Spec/Drops.v
theories/Proofs/DropFacts.v
theories/Model/DropShared.v
theories/Proofs/DropSharedFacts.v
theories/Proofs/HeapFacts.v
theories/Proofs/DropRcFacts.v
theories/Proofs/DropDeep.v
theories/Properties/Drop.v
theories/Spec/Spacing.v
theories/Proofs/White.v
theories/Properties/Whitespace.v
theories/Model/Stack.v
theories/Spec/Nesting.v
theories/Proofs/StackFacts.v
theories/Proofs/StackTight.v
theories/Properties/Stack.v
theories/Model/SlotHeap.v
theories/Spec/SlotHeap.v
theories/Proofs/SlotSim.v
theories/Proofs/SlotText.v
theories/Proofs/SlotRun.v
theories/Properties/SlotHeap.v
theories/Spec/Inside.v
theories/Proofs/InsideFacts.v
theories/Spec/ReadAhead.v
theories/Proofs/ReadAheadFacts.v
theories/Proofs/ReadAheadForms.v
theories/Properties/ReadAhead.v
theories/Proofs/AppendFacts.v
theories/Spec/Append.v
theories/Properties/Append.v
theories/Proofs/DropRcDepth.v
theories/Model/DropArc.v
theories/Spec/Threads.v
theories/Proofs/ThreadFacts.v
theories/Proofs/ThreadRuns.v
theories/Properties/Threads.v
theories/Spec/Cost.v
theories/Proofs/CostFacts.v
theories/Properties/Cost.v
theories/Model/UserIter.v
theories/Proofs/Local.v
theories/Spec/UserIter.v
theories/Proofs/UserIterFacts.v
theories/Properties/UserIter.v
theories/Proofs/UserIterForms.v
theories/Model/Equal.v
theories/Proofs/EqualFacts.v
theories/Properties/Equality.v
theories/Model/DropCost.v
theories/Proofs/DropCostFacts.v
theories/Proofs/DropCostTree.v
theories/Proofs/DropCostRc.v
theories/Proofs/DropCostLong.v
theories/Properties/DropCost.v
theories/Model/DatumStack.v
theories/Properties/Recursion.v
theories/Model/RcProgram.v
theories/Spec/Programs.v
theories/Proofs/RcProgramFacts.v
theories/Proofs/RcProgramValues.v
theories/Properties/Programs.v
theories/Proofs/DropCostUnshared.v
theories/Spec/Classes.v
theories/Proofs/ClassFacts.v
theories/Model/CustomClassifier.v
theories/Proofs/ClassMem.v
theories/Properties/Classes.v
theories/Model/Numeral.v
theories/Spec/Numeral.v
theories/Proofs/NumeralFacts.v
theories/Model/ExampleLang.v
theories/Spec/Extended.v
theories/Proofs/ExampleFacts.v
theories/Proofs/ExampleRuns.v
theories/Proofs/ExampleStack.v
theories/Properties/ExampleLang.v
theories/Model/Reparse.v
theories/Proofs/ReparseFacts.v
theories/Properties/Reparse.v
theories/Spec/Unclosed.v
theories/Proofs/UnclosedFacts.v
theories/Properties/WholeRun.v
theories/Model/TextWork.v
theories/Spec/TextWork.v
theories/Proofs/Amortize.v
theories/Spec/Pieces.v
theories/Proofs/PiecesFacts.v
theories/Proofs/TextWorkFacts.v
theories/Proofs/PiecesRuns.v
theories/Properties/Pieces.v
theories/Proofs/TextSim.v
theories/Proofs/TextWorkRuns.v
theories/Properties/TextWork.v
theories/Proofs/CountInner.v
theories/Properties/AllocVec.v
theories/Proofs/ExampleMeaning.v
theories/Properties/ExampleMeaning.v
theories/Model/Unwind.v
theories/Proofs/UnwindSim.v
theories/Spec/Unwind.v
theories/Proofs/UnwindFacts.v
theories/Properties/Unwind.v
theories/Model/RcParser.v
theories/Spec/RcParser.v
theories/Proofs/RcHeap.v
theories/Proofs/RcSim.v
theories/Proofs/RcRun.v
theories/Properties/RcParser.v
theories/Model/PanicIter.v
theories/Spec/Interrupt.v
theories/Proofs/PanicSim.v
theories/Proofs/CutParse.v
theories/Proofs/PanicIterFacts.v
theories/Proofs/InterruptFacts.v
theories/Properties/Interrupt.v
theories/Model/RcUnwind.v
theories/Proofs/RcUnwindSim.v
theories/Spec/RcUnwind.v
theories/Proofs/RcUnwindRun.v
theories/Properties/RcUnwind.v
theories/Proofs/HeapLink.v
theories/Model/ArcParser.v
theories/Spec/ArcParser.v
theories/Proofs/ArcTask.v
theories/Proofs/ArcSim.v
theories/Proofs/ThreadPool.v
theories/Proofs/ArcRun.v
theories/Properties/ArcParser.v
theories/Proofs/SourceWork.v
theories/Proofs/SourceRuns.v
theories/Proofs/ManyPieces.v
theories/Proofs/ManyStreams.v
theories/Proofs/ManyRuns.v
theories/Spec/Held.v
theories/Proofs/HeldFacts.v
theories/Properties/ManyPieces.v
theories/Proofs/ManyCalls.v
theories/Model/DropValue.v
theories/Spec/DropValues.v
theories/Proofs/DropValueFacts.v
theories/Properties/DropValue.v
theories/Model/DropExtra.v
theories/Spec/DropExtras.v
theories/Proofs/DropExtraFacts.v
theories/Properties/DropExtra.v
theories/Model/CharConvert.v
theories/Spec/Convert.v
theories/Proofs/ConvertFacts.v
theories/Properties/Convert.v
theories/Proofs/ConvertRuns.v
theories/Spec/Reported.v
theories/Proofs/ReportedFacts.v
theories/Proofs/ConvertPanics.v
theories/Properties/Reported.v
theories/Proofs/ReportedDepth.v
