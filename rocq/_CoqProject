-Q theories Verif
theories/After.v
theories/AlikeEquiv.v
theories/AlikeFile.v
theories/AlikeOptions.v
theories/AlikeRead.v
theories/AlikeWalk.v
theories/Append.v
theories/AppendText.v
theories/Base.v
theories/BaseFacts.v
theories/Checks.v
theories/Cost.v
theories/Decimal.v
theories/DecimalFacts.v
theories/DedupFacts.v
theories/DirectiveFacts.v
theories/Display.v
theories/DisplayDirective.v
theories/DisplayDump.v
theories/DisplayLaid.v
theories/DisplayLedger.v
theories/DisplayLex.v
theories/DisplayLexed.v
theories/DisplayParsed.v
theories/DisplayRead.v
theories/DisplayText.v
theories/ExprFacts.v
theories/Grammar.v
theories/GrammarComplete.v
theories/GrammarDirectives.v
theories/GrammarSafe.v
theories/GrammarSound.v
theories/Honest.v
theories/IncludeTokens.v
theories/LayoutLex.v
theories/LexFacts.v
theories/LexPost.v
theories/Lexer.v
theories/LexerFacts.v
theories/LexerOrder.v
theories/LexerUnique.v
theories/Local.v
theories/Messages.v
theories/Miss.v
theories/MissErased.v
theories/MissFile.v
theories/MissFirst.v
theories/MissGrammar.v
theories/MissLedger.v
theories/MissMessages.v
theories/MissParse.v
theories/MissPlace.v
theories/MissPrefix.v
theories/Names.v
theories/NamesRun.v
theories/Numbers.v
theories/NumbersFiles.v
theories/NumbersRun.v
theories/Options.v
theories/OptionsFacts.v
theories/P_After.v
theories/P_Append.v
theories/P_Arith.v
theories/P_Block.v
theories/P_BlockText.v
theories/P_Checks.v
theories/P_Complete.v
theories/P_Cost.v
theories/P_Display.v
theories/P_Dump.v
theories/P_Expr.v
theories/P_File.v
theories/P_Grammar.v
theories/P_Includes.v
theories/P_Layout.v
theories/P_Ledger.v
theories/P_Lex.v
theories/P_Lexer.v
theories/P_Local.v
theories/P_Messages.v
theories/P_Miss.v
theories/P_MissText.v
theories/P_Names.v
theories/P_NamesFiles.v
theories/P_Newline.v
theories/P_Numbers.v
theories/P_NumbersFiles.v
theories/P_NumbersWords.v
theories/P_Options.v
theories/P_Order.v
theories/P_Parse.v
theories/P_Paste.v
theories/P_PasteNeeds.v
theories/P_Permute.v
theories/P_Places.v
theories/P_Pragma.v
theories/P_Read.v
theories/P_Recovery.v
theories/P_Rename.v
theories/P_RenameFiles.v
theories/P_ReplaceWords.v
theories/P_Report.v
theories/P_RoundTrip.v
theories/P_Said.v
theories/P_SaidText.v
theories/P_Shown.v
theories/P_Sort.v
theories/P_Sources.v
theories/P_Split.v
theories/P_SplitText.v
theories/P_Swap.v
theories/P_Text.v
theories/P_Total.v
theories/P_Types.v
theories/P_Words.v
theories/P_Wrap.v
theories/P_Written.v
theories/Parse.v
theories/ParseFacts.v
theories/ParseFile.v
theories/ParseOnce.v
theories/Parts.v
theories/Paste.v
theories/PasteFine.v
theories/Path.v
theories/PathFacts.v
theories/Peg.v
theories/PegFacts.v
theories/Places.v
theories/Pragma.v
theories/PragmaFacts.v
theories/PragmaRun.v
theories/Read.v
theories/ReadFacts.v
theories/Regex.v
theories/RegexFacts.v
theories/Rename.v
theories/RenameFiles.v
theories/RenameRun.v
theories/ReplaceWords.v
theories/RepoTests.v
theories/Report.v
theories/ReportFacts.v
theories/SaidFacts.v
theories/Shown.v
theories/Sim.v
theories/SimCopy.v
theories/SimFile.v
theories/SimGrammar.v
theories/SimPass.v
theories/SimShift.v
theories/SimValues.v
theories/SimWhole.v
theories/SortFacts.v
theories/SortM.v
theories/Sources.v
theories/SourcesFacts.v
theories/SpecAfter.v
theories/SpecAlike.v
theories/SpecAppend.v
theories/SpecBlock.v
theories/SpecChecks.v
theories/SpecCost.v
theories/SpecDecimal.v
theories/SpecDirective.v
theories/SpecDisplay.v
theories/SpecExpr.v
theories/SpecGrammar.v
theories/SpecLayout.v
theories/SpecLedger.v
theories/SpecLex.v
theories/SpecLexer.v
theories/SpecLocal.v
theories/SpecMessages.v
theories/SpecMiss.v
theories/SpecMissText.v
theories/SpecNames.v
theories/SpecNumbers.v
theories/SpecOptions.v
theories/SpecParse.v
theories/SpecPaste.v
theories/SpecPath.v
theories/SpecPlaces.v
theories/SpecPragma.v
theories/SpecRead.v
theories/SpecRecovery.v
theories/SpecRegex.v
theories/SpecRename.v
theories/SpecReport.v
theories/SpecSaid.v
theories/SpecShown.v
theories/SpecSort.v
theories/SpecSources.v
theories/SpecSplit.v
theories/SpecSwap.v
theories/SpecTotal.v
theories/SpecTypes.v
theories/SpecWhole.v
theories/SpecWrap.v
theories/SpecWritten.v
theories/Split.v
theories/SyntheticFacts.v
theories/Text.v
theories/TextFacts.v
theories/TextLines.v
theories/Token.v
theories/Types.v
theories/TypesFacts.v
theories/Wrap.v
