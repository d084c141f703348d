-Q theories Verif
theories/Bytes.v
theories/Utf8.v
theories/F64.v
theories/Ast.v
theories/Peg.v
theories/GrammarGen.v
theories/Actions.v
theories/Engine.v
theories/Parser.v
theories/Regex.v
theories/AstPrint.v
theories/AstUtil.v
theories/Apply.v
theories/App.v
theories/RepoTests.v
theories/EscapeFacts.v
theories/QuoteFacts.v
theories/SimpleFacts.v
theories/AstInd.v
theories/ApplyFacts.v
theories/Run.v
theories/PosFacts.v
theories/EngineFacts.v
theories/Termination.v
theories/Matches.v
theories/Sim.v
theories/RunInv.v
theories/HistFacts.v
theories/ParseFacts.v
theories/Utf8Facts.v
theories/InputFacts.v
theories/LimitFacts.v
theories/Strip.v
theories/PegSem.v
theories/Det.v
theories/PegFacts.v
theories/LexFacts.v
theories/ItoaFacts.v
theories/WarnFacts.v
theories/Rules.v
theories/Tree.v
theories/Sound.v
theories/SoundLex.v
theories/SoundRules.v
theories/ParseTree.v
theories/PropsEngine.v
theories/PropsUtil.v
theories/PropsTree.v
theories/PropsNodes.v
theories/LintFacts.v
theories/AppFacts.v
theories/PropsApp.v
theories/NilFacts.v
theories/NumFacts.v
theories/NumPrint.v
theories/NumRound.v
theories/PropsPrint.v
theories/ArrayFacts.v
theories/PropsRead.v
theories/Lines.v
theories/Layout.v
theories/Bare.v
theories/Reads.v
theories/ReadLex.v
theories/ReadGap.v
theories/ReadCom.v
theories/ReadVal.v
theories/ReadCond.v
theories/ReadBop.v
theories/ReadConf.v
theories/RoundTrip.v
theories/Comments.v
theories/Blank.v
theories/PrintBare.v
theories/Regular.v
theories/Printable.v
theories/Accepted.v
theories/Utf8Tree.v
theories/LintTree.v
theories/PropsRound.v
theories/PropsFormat.v
theories/PropsQuote.v
theories/Conc.v
theories/ConcFacts.v
theories/PropsConc.v
theories/Memo.v
theories/MemoFacts.v
theories/PropsMemo.v
theories/ErrFacts.v
theories/ExpectFacts.v
theories/PropsReport.v
theories/Cmd.v
theories/PropsCmd.v
theories/Spelled.v
theories/HidFacts.v
theories/GapComments.v
theories/SpellRules.v
theories/SpellParse.v
theories/Written.v
theories/Exact.v
theories/FreeLex.v
theories/FreeVal.v
theories/FreeCond.v
theories/FreeWord.v
theories/FreeBop.v
theories/FreeConf.v
theories/ClearRules.v
theories/PropsSpell.v
theories/PropsLayout.v
theories/PropsExact.v
theories/Build.v
theories/PropsBuild.v
theories/ChoiceGen.v
theories/Stats.v
theories/StatsFacts.v
theories/PropsStats.v
theories/Treetop.v
theories/TreetopGen.v
theories/TtMap.v
theories/TtLaws.v
theories/TtRules.v
theories/TtSame.v
theories/TtParse.v
theories/PropsTreetop.v
theories/Types.v
theories/TypeSound.v
theories/NumRange.v
theories/PropsWhy.v
theories/Store.v
theories/StoreFacts.v
theories/PropsStore.v
theories/ApplyMem.v
theories/ApplyMemFacts.v
theories/PropsApplyMem.v
theories/PropsBuffer.v
theories/Cost.v
theories/CostFacts.v
theories/CostLex.v
theories/CostTok.v
theories/CostVal.v
theories/CostTools.v
theories/CostCond.v
theories/CostWord.v
theories/CostBranch.v
theories/CostAll.v
theories/PropsCost.v
theories/Reader.v
theories/PropsReader.v
theories/Hashes.v
theories/PropsCalm.v
theories/Debug.v
theories/DebugFacts.v
theories/PropsDebug.v
theories/PegFile.v
theories/PegSame.v
theories/PropsPeg.v
theories/Concat.v
theories/PropsConcat.v
theories/Locality.v
theories/PropsLocal.v
theories/Stack.v
theories/PropsStack.v
theories/PropsStart.v
