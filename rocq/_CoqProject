-Q theories Verif
theories/Base.v
theories/Runtime.v
theories/Names.v
theories/Sets.v
theories/Types.v
theories/Ast.v
theories/Infer.v
theories/SpecLang.v
theories/SetFacts.v
theories/SpecTyping.v
theories/Erase.v
theories/TypeFacts.v
theories/InferFacts.v
theories/LangFacts.v
theories/TreeFacts.v
theories/SpecGuard.v
theories/ExactFacts.v
theories/InferState.v
theories/SpecKeep.v
theories/InferMore.v
theories/Examples.v
theories/PropTyping.v
theories/SpecPos.v
theories/SpecUtf8.v
theories/RuntimeFacts.v
theories/PropRuntime.v
theories/Lower.v
theories/GenSem.v
theories/SpecTable.v
theories/TableFacts.v
theories/WtFacts.v
theories/GenFacts.v
theories/SpecSharing.v
theories/ReprFacts.v
theories/LeftFacts.v
theories/TableMore.v
theories/EmitFacts.v
theories/NameFacts.v
theories/ShareFacts.v
theories/PropGen.v
theories/Reduce.v
theories/SpecBeta.v
theories/SpecSimple.v
theories/SpecFix.v
theories/BetaFacts.v
theories/EraseBeta.v
theories/ReduceFacts.v
theories/StepFacts.v
theories/SimpleFacts.v
theories/ReduceMore.v
theories/PropReduce.v
theories/Nibble.v
theories/SpecSyntax.v
theories/SyntaxFacts.v
theories/Convert.v
theories/SpecScope.v
theories/ConvertFacts.v
theories/PropNibble.v
theories/Main.v
theories/PropMain.v
theories/FixFacts.v
theories/PropFix.v
theories/Arith.v
theories/SpecArith.v
theories/ArithFacts.v
theories/ArithSound.v
theories/PropArith.v
theories/Source.v
theories/ArithGen.v
theories/GenTrees.v
theories/ArithGenFacts.v
theories/PropArithGen.v
theories/PropRepo.v
theories/SpecJson.v
theories/Json.v
theories/JsonFacts.v
theories/JsonRead.v
theories/JsonPrint.v
theories/JsonGen.v
theories/JsonGenFacts.v
theories/JsonGenValue.v
theories/PropJson.v
theories/PropJsonGen.v
theories/AutoNibble.v
theories/SpecAuto.v
theories/AutoFacts.v
theories/AutoRead.v
theories/AutoAgree.v
theories/AutoLex.v
theories/AutoFront.v
theories/Warm.v
theories/AutoTable.v
theories/PropAuto.v
theories/SameFacts.v
theories/PropSame.v
theories/SpecSame.v
theories/SpanFacts.v
theories/SpanFront.v
theories/AutoMain.v
theories/AutoSame.v
theories/PropSpan.v
theories/PropAutoMain.v
theories/SpecDefect.v
theories/DefectFacts.v
theories/PropDefect.v
theories/SpecViable.v
theories/ViableFacts.v
theories/PropViable.v
theories/SpecDistinct.v
theories/DistinctFacts.v
theories/PropDistinct.v
theories/SpecOrigin.v
theories/OriginFacts.v
theories/PropOrigin.v
theories/Messages.v
theories/SpecMessages.v
theories/MessageFacts.v
theories/PropMessages.v
theories/SpecReport.v
theories/ReportFacts.v
theories/ExpectFacts.v
theories/PropReport.v
theories/ArithLalr.v
theories/ArithLalrFacts.v
theories/PropArithLalr.v
theories/JsonLalr.v
theories/SpecJsonLalr.v
theories/JsonLalrFacts.v
theories/PropJsonLalr.v
theories/SpecReplace.v
theories/ReplaceFacts.v
theories/PropReplace.v
theories/UnrollFacts.v
theories/PropUnroll.v
theories/WideFacts.v
theories/PropWide.v
theories/Display.v
theories/SpecDisplay.v
theories/DisplayFacts.v
theories/SpecEqual.v
theories/EqualFacts.v
theories/PropDisplay.v
theories/Rust.v
theories/SpecRust.v
theories/RustFacts.v
theories/RustWf.v
theories/PropRust.v
theories/RustMain.v
theories/SpecCase.v
theories/CaseFacts.v
theories/PropCase.v
theories/InferCost.v
theories/SpecCost.v
theories/RoundFacts.v
theories/CostFacts.v
theories/PropRounds.v
theories/SpecSource.v
theories/SourceFacts.v
theories/SourceRespan.v
theories/PropSource.v
theories/SpecRegular.v
theories/RegularFacts.v
theories/PropRegular.v
theories/SpecArithError.v
theories/ArithErr.v
theories/ArithErr2.v
theories/PropArithErr.v
theories/LabelFacts.v
theories/WriteFacts.v
theories/WriteConv.v
theories/WriteText.v
theories/PropWrite.v
theories/SpecJsonError.v
theories/JsonErr.v
theories/JsonErr2.v
theories/JsonErr3.v
theories/JsonErr4.v
theories/JsonErr5.v
theories/JsonErr6.v
theories/JsonErr7.v
theories/JsonErr8.v
theories/PropJsonErr.v
theories/TakeStr.v
theories/TakeFacts.v
theories/PropTake.v
theories/PanicFacts.v
theories/PropPanic.v
theories/JsonBoth.v
theories/JsonBoth2.v
theories/PropJsonBoth.v
theories/Depth.v
theories/SpecDepth.v
theories/DepthFacts.v
theories/DepthGram.v
theories/PropDepth.v
theories/JsonDepth.v
theories/SpecJsonDepth.v
theories/JsonDepthFacts.v
theories/PropJsonDepth.v
theories/SpecCombine.v
theories/CombineFacts.v
theories/PropCombine.v
theories/SpecResidual.v
theories/ResidualFacts.v
theories/PropResidual.v
theories/ArithDepth.v
theories/SpecArithDepth.v
theories/ArithDepthFacts.v
theories/PropArithDepth.v
theories/SpecMistake.v
theories/MistakeFacts.v
theories/PropMistake.v
theories/SpecCount.v
theories/CountFacts.v
theories/DoublingFacts.v
theories/CountEps.v
theories/PropCount.v
theories/SpecClosure.v
theories/PropClosure.v
theories/SpecArrange.v
theories/ArrangeFacts.v
theories/PropArrange.v
theories/SpecUnused.v
theories/UnusedFacts.v
theories/PropUnused.v
theories/PropUnusedArg.v
theories/SpecRewrite.v
theories/RewriteFacts.v
theories/RewriteBack.v
theories/PropRewrite.v
theories/PropIdle.v
