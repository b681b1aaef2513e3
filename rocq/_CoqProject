-Q theories Verif
theories/Bytes.v
theories/Utf8.v
theories/Source.v
theories/Lexer.v
theories/Ast.v
theories/Parser.v
theories/Vlq.v
theories/Printer.v
theories/Transformer.v
theories/Resolver.v
theories/BytesFacts.v
theories/LexSpec.v
theories/LexFacts.v
theories/LexNext.v
theories/Samples.v
theories/LexProps.v
theories/SourceSpec.v
theories/SourceProofs.v
theories/VlqSpec.v
theories/VlqProofs.v
theories/PropLexer.v
theories/PropSource.v
theories/PropVlq.v
theories/ResolverSpec.v
theories/ResolverProofs.v
theories/PropResolver.v
theories/AstInd.v
theories/PrinterSpec.v
theories/PrinterProofs.v
theories/MapProofs.v
theories/JsonSpec.v
theories/JsonProofs.v
theories/PropPrinter.v
theories/TransSpec.v
theories/TransProofs.v
theories/TransMedia.v
theories/TransGap.v
theories/TransVars.v
theories/TransCalc.v
theories/TransOrder.v
theories/TransInline.v
theories/TransSamples.v
theories/TransWitness.v
theories/PropTransformer.v
theories/ParserSpec.v
theories/ParseMono.v
theories/ParseInv.v
theories/ParseSound.v
theories/ParserProofs.v
theories/ParseResults.v
theories/ParseLines.v
theories/ParseMark.v
theories/ParseRaw.v
theories/ParseRerun.v
theories/ParseTable.v
theories/TransRerun.v
theories/Strip.v
theories/ReadSpec.v
theories/ReadProofs.v
theories/ParseWitness.v
theories/ReadExamples.v
theories/PropRead.v
theories/PropParser.v
theories/Compile.v
theories/CompileSpec.v
theories/CompileSteps.v
theories/CompileOne.v
theories/CompileCalm.v
theories/CompileEnd.v
theories/CompileTrap.v
theories/CompileRefs.v
theories/CompileSamples.v
theories/CompileWitness.v
theories/CompileExamples.v
theories/TransStable.v
theories/CompileMany.v
theories/CompileReturns.v
theories/PropCompile.v
theories/Plugin.v
theories/PluginSpec.v
theories/PluginProofs.v
theories/PropPlugin.v
theories/PrintStrip.v
theories/RoundSpec.v
theories/RoundLex.v
theories/RoundValue.v
theories/RoundDecl.v
theories/RoundSel.v
theories/RoundSheet.v
theories/RoundTrip.v
theories/RoundMap.v
theories/PropRound.v
theories/Walk.v
theories/WalkSpec.v
theories/WalkProofs.v
theories/PropWalk.v
theories/LexSame.v
theories/FullValue.v
theories/FullDecl.v
theories/FullSel.v
theories/FullSheet.v
theories/FullExamples.v
theories/PropFull.v
theories/LexGrammar.v
theories/LexCut.v
theories/LexWords.v
theories/LexFun.v
theories/LexReads.v
theories/LexStreamSpec.v
theories/LexStream.v
theories/LexExamples.v
theories/PropLexical.v
theories/SpanSpec.v
theories/SpanProofs.v
theories/SpanReports.v
theories/SpanCompile.v
theories/SpanExamples.v
theories/PropSpan.v
theories/InlineSpec.v
theories/InlineRefs.v
theories/InlineProofs.v
theories/InlineReturns.v
theories/TransDefs.v
theories/InlineExamples.v
theories/PropInline.v
theories/OutputSpec.v
theories/OutputProofs.v
theories/OutputRead.v
theories/OutputExamples.v
theories/PropOutput.v
theories/RaceSpec.v
theories/RaceProofs.v
theories/RaceExamples.v
theories/PropRace.v
theories/TwiceSpec.v
theories/TwiceProofs.v
theories/TwiceFiles.v
theories/TwiceExamples.v
theories/PropTwice.v
theories/StripTrans.v
theories/AgainSpec.v
theories/AgainProofs.v
theories/AgainExamples.v
theories/PropAgain.v
theories/DiagSpec.v
theories/DiagProofs.v
theories/DiagExamples.v
theories/PropDiag.v
theories/ErrSpec.v
theories/ErrSound.v
theories/ErrComplete.v
theories/ErrChain.v
theories/ErrExamples.v
theories/PropErr.v
theories/JoinSpec.v
theories/JoinLex.v
theories/JoinTokens.v
theories/JoinRead.v
theories/JoinProofs.v
theories/JoinExamples.v
theories/PropJoin.v
theories/LayoutSpec.v
theories/LayoutLex.v
theories/LayoutTokens.v
theories/LayoutSwap.v
theories/LayoutLoose.v
theories/LayoutProofs.v
theories/LayoutExamples.v
theories/LayoutProjSpec.v
theories/LayoutInline.v
theories/LayoutInlineExamples.v
theories/PropLayout.v
theories/SelectorSpec.v
theories/SelectorProofs.v
theories/SelectorExamples.v
theories/PropSelector.v
theories/Mains.v
theories/MainsProofs.v
theories/PropMains.v
theories/CMapSpec.v
theories/CMapProofs.v
theories/CMapExamples.v
theories/PropCMap.v
theories/ApplySpec.v
theories/ApplyProofs.v
theories/ApplyChain.v
theories/ApplyWarn.v
theories/ApplyExamples.v
theories/PropApply.v
theories/LaterSpec.v
theories/LaterLex.v
theories/LaterParse.v
theories/LaterErr.v
theories/LaterRaw.v
theories/LaterSheet.v
theories/LaterStop.v
theories/LaterSame.v
theories/LaterProofs.v
theories/LaterExamples.v
theories/PropLater.v
