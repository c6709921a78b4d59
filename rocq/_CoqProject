-Q theories Verif
theories/Str.v
theories/SpecStr.v
theories/StrFacts.v
theories/Tokens.v
theories/SpecTokens.v
theories/TokensRun.v
theories/TokensFacts.v
theories/Values.v
theories/ValuesFacts.v
theories/AlgebraFacts.v
theories/Overflow.v
theories/OverflowFacts.v
theories/PropsTokens.v
theories/PropsOverflow.v
theories/Fmt.v
theories/SpecFmt.v
theories/FmtFacts.v
theories/RenderFacts.v
theories/WriterFacts.v
theories/LayoutFacts.v
theories/HistoryFacts.v
theories/OutputFacts.v
theories/PropsFmt.v
theories/Order.v
theories/Quote.v
theories/LangBase.v
theories/LangC.v
theories/LangSwift.v
theories/LangGo.v
theories/LangDart.v
theories/LangJava.v
theories/LangCsharp.v
theories/LangJs.v
theories/LangNix.v
theories/LangPython.v
theories/LangRust.v
theories/LangExamples.v
theories/SpecLex.v
theories/LexFacts.v
theories/QuoteFacts.v
theories/StringFacts.v
theories/AlphabetFacts.v
theories/SpecCode.v
theories/CodeFacts.v
theories/PropsQuote.v
theories/SpecOrder.v
theories/OrderFacts.v
theories/SpecFile.v
theories/HeaderFacts.v
theories/FileFacts.v
theories/SpecLang.v
theories/ImportFacts.v
theories/PickFacts.v
theories/JavaFacts.v
theories/CsharpFacts.v
theories/BlockFacts.v
theories/PropsLang.v
theories/GroupFacts.v
theories/SpecPython.v
theories/PythonFacts.v
theories/SpecRust.v
theories/RustFacts.v
theories/PropsNames.v
theories/SpecJs.v
theories/JsFacts.v
theories/PropsJs.v
theories/SpecNix.v
theories/NixFacts.v
theories/NixHeader.v
theories/NixFile.v
theories/PropsNix.v
theories/SpecHeader.v
theories/PropsHeader.v
theories/PropsDedup.v
theories/PropsOneLine.v
theories/PropsSpelling.v
theories/PropsDefaults.v
theories/PropsAnySource.v
theories/SpecComment.v
theories/CommentFacts.v
theories/PropsComment.v
theories/SpecReadComment.v
theories/PropsReadComment.v
theories/PropsNeutral.v
theories/Macro.v
theories/SpecMacro.v
theories/MacroFacts.v
theories/MacroSem.v
theories/MacroTokens.v
theories/MacroLines.v
theories/MacroRender.v
theories/SpecQuote.v
theories/MacroControl.v
theories/MacroStrings.v
theories/MacroMerge.v
theories/PropsMacro.v
theories/SpecWords.v
theories/SpecSilent.v
theories/WordsFacts.v
theories/SilentFacts.v
theories/PropsWords.v
theories/PropsSilent.v
theories/LangBuild.v
theories/SpecBuild.v
theories/PropsBuild.v
theories/SpecRounds.v
theories/RoundsFacts.v
theories/PropsRounds.v
theories/SpecOffside.v
theories/OffsideFacts.v
theories/PropsOffside.v
theories/Compare.v
theories/PropsCompare.v
theories/PropsControl.v
theories/Parse.v
theories/SpecParse.v
theories/ParseFacts.v
theories/Source.v
theories/PropsParse.v
theories/MacroLangs.v
theories/RepoTests.v
theories/SpecResolve.v
theories/PropsResolve.v
theories/RelPath.v
theories/SpecPath.v
theories/PathFacts.v
theories/PropsPath.v
theories/Fake.v
theories/SpecStable.v
theories/StableFacts.v
theories/PropsStable.v
theories/SpecTemplate.v
theories/TemplateFacts.v
theories/SpecStrings.v
theories/StringsFacts.v
theories/PropsTemplate.v
theories/SpecReread.v
theories/RereadFacts.v
theories/RespaceFacts.v
theories/PropsReread.v
theories/Exit.v
theories/SpecExit.v
theories/ExitFacts.v
theories/PropsExit.v
theories/Diag.v
theories/SpecDiag.v
theories/DiagFacts.v
theories/PropsDiag.v
theories/Jump.v
theories/SpecJump.v
theories/JumpFacts.v
theories/PropsJump.v
theories/SpecAgain.v
theories/AgainFacts.v
theories/PropsAgain.v
theories/Scope.v
theories/SpecScope.v
theories/ScopeSem.v
theories/SpecShadow.v
theories/ShadowFacts.v
theories/PropsScope.v
theories/SpecInterp.v
theories/InterpFacts.v
theories/PropsInterp.v
theories/SpecEvalOrder.v
theories/PropsEvalOrder.v
theories/ExactFacts.v
theories/PropsExact.v
theories/PropsClash.v
theories/SpecSession.v
theories/PropsSession.v
theories/SpecProgram.v
theories/ProgramFacts.v
theories/UseFacts.v
theories/PropsProgram.v
theories/FmtConfig.v
theories/SpecConfig.v
theories/ConfigFacts.v
theories/PropsConfig.v
theories/SpecWhole.v
theories/WholeFacts.v
theories/PropsWhole.v
theories/SpecAssembled.v
theories/SparseFacts.v
theories/AssembledFacts.v
theories/PropsAssembled.v
theories/SpecParts.v
theories/PartsFacts.v
theories/PropsParts.v
theories/SpecFileParts.v
theories/PropsFileParts.v
theories/SpecReplay.v
theories/ReplayFacts.v
theories/PropsReplay.v
theories/PropsNested.v
theories/SpecTrigraph.v
theories/PropsTrigraph.v
theories/SpecOutline.v
theories/OutlineFacts.v
theories/OutlineFits.v
theories/PropsOutline.v
theories/PropsDefaultStrings.v
