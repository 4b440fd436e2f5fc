-Q theories Verif
theories/Ir.v
theories/Eval.v
theories/Compile.v
theories/Vm.v
theories/EvalFacts.v
theories/Orders.v
theories/Wf.v
theories/CompileStatic.v
theories/CompileCorrect.v
theories/CompileTotal.v
theories/RunnerCorrect.v
theories/RunnerFacts.v
theories/PropsRunner.v
theories/ArithProofs.v
theories/PropsArith.v
theories/Lsp.v
theories/LspSpec.v
theories/LspProofs.v
theories/PropsLsp.v
theories/Formatter.v
theories/FormatterSpec.v
theories/FormatterProofs.v
theories/PropsFormatter.v
theories/Checks.v
theories/ChecksProofs.v
theories/PrintProofs.v
theories/PrintDecode.v
theories/PropsChecks.v
theories/Heap.v
theories/HeapSpec.v
theories/HeapProofs.v
theories/HeapFacts.v
theories/HeapRun.v
theories/PropsHeap.v
theories/Unify.v
theories/UnifySpec.v
theories/UnifyProofs.v
theories/UnifyFacts.v
theories/PropsUnify.v
theories/Lexer.v
theories/LexerSpec.v
theories/LexerProofs.v
theories/PropsLexer.v
theories/Parser.v
theories/ParserSpec.v
theories/ParserProofs.v
theories/ParserRun.v
theories/ParserFns.v
theories/ParserTree.v
theories/ParserItem.v
theories/ParserFile.v
theories/PropsParser.v
theories/Lambda.v
theories/LambdaProofs.v
theories/PropsLambda.v
theories/Verify.v
theories/VerifyState.v
theories/VerifyNames.v
theories/TypeSpec.v
theories/TypeTr.v
theories/TypeSafe.v
theories/TypeSafeProg.v
theories/VerifyRuns.v
theories/AlphaSpec.v
theories/AlphaProofs.v
theories/PropsVerify.v
theories/OptEv.v
theories/OptRel.v
theories/OptWalk.v
theories/OptGood.v
theories/OptPasses.v
theories/OptLaws.v
theories/OptProg.v
theories/OptSmall.v
theories/OptMove.v
theories/OptDce.v
theories/OptMerge.v
theories/PropsOpt.v
theories/OptInline.v
theories/OptCopy.v
theories/OptRelD.v
theories/OptInlineOk.v
theories/OptInlineTotal.v
theories/PropsInline.v
theories/OptSaturate.v
theories/OptSatRel.v
theories/OptSatOk.v
theories/OptSatProg.v
theories/OptSatDefs.v
theories/OptSatTotal.v
theories/PropsSaturate.v
theories/OptAll.v
theories/OptAllOk.v
theories/VerifyLimit.v
theories/PropsOptAll.v
theories/Pretty.v
theories/PrettyLex.v
theories/PrettyTok.v
theories/PrettyRead.v
theories/PrettyVerified.v
theories/PropsPretty.v
theories/StackSpec.v
theories/StackBound.v
theories/StackProg.v
theories/StackLoops.v
theories/PropsStack.v
theories/GenCore.v
theories/GenSpec.v
theories/GenFacts.v
theories/GenNames.v
theories/GenItems.v
theories/IterateOk.v
theories/FoldSpec.v
theories/FoldOk.v
theories/TypeTable.v
theories/PropsGen.v
theories/SrcSem.v
theories/SrcRel.v
theories/SrcSim.v
theories/SrcApply.v
theories/SrcFlat.v
theories/SrcItems.v
theories/SrcTables.v
theories/SrcRun.v
theories/SrcSpec.v
theories/SrcEnd.v
theories/PropsSource.v
theories/StdLib.v
theories/SrcBig.v
theories/StdSpec.v
theories/StdTac.v
theories/StdList.v
theories/StdOpt.v
theories/StdString.v
theories/StdInt.v
theories/StdArray.v
theories/StdAll.v
theories/PropsStd.v
theories/Imports.v
theories/ImportsSpec.v
theories/ImportsProofs.v
theories/PropsImports.v
theories/LspFiles.v
theories/LspFilesSpec.v
theories/LspFilesProofs.v
theories/LspFilesMain.v
theories/PropsLspFiles.v
theories/Typeck.v
theories/SrcTyping.v
theories/TypeckTypes.v
theories/TypeckSound.v
theories/TypeckSafe.v
theories/TypeckProg.v
theories/TypeckSpec.v
theories/TypeckShape.v
theories/TypeckAccept.v
theories/TypeckAll.v
theories/TypeckPrefix.v
theories/PropsTypeck.v
theories/Units.v
theories/UnitsProofs.v
theories/PropsUnits.v
theories/Resolve.v
theories/ResolveFacts.v
theories/ResolveProofs.v
theories/ResolveSpec.v
theories/ResolveLex.v
theories/ResolveComplete.v
theories/PropsResolve.v
theories/Nav.v
theories/NavSpec.v
theories/NavProofs.v
theories/NavUnits.v
theories/PropsNav.v
theories/Compl.v
theories/ComplSpec.v
theories/ComplProofs.v
theories/PropsCompl.v
theories/PropsKinds.v
theories/GrammarSpec.v
theories/GrammarParse.v
theories/GrammarItems.v
theories/GrammarBack.v
theories/GrammarFile.v
theories/PropsGrammar.v
theories/TokenSpec.v
theories/Tokens.v
theories/TokenProofs.v
theories/PropsTokens.v
theories/PropsUnused.v
theories/HoverSpec.v
theories/Hover.v
theories/HoverProofs.v
theories/HoverText.v
theories/PropsHover.v
theories/PropsLaid.v
theories/PropsHoverSame.v
theories/Erase.v
theories/PropsTraps.v
theories/PropsErase.v
