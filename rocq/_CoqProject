-Q theories Verif
theories/Tokens.v
theories/Syn.v
theories/Ast.v
theories/Parse.v
theories/Expand.v
theories/Macro.v
theories/Lex.v
theories/Texts.v
theories/Conformance.v
theories/SpecStr.v
theories/SpecGrammar.v
theories/Monad.v
theories/KebabFacts.v
theories/GrammarFacts.v
theories/GrammarFacts2.v
theories/TagFacts.v
theories/ElementFacts.v
theories/Inv.v
theories/Fuel.v
theories/SpecPanic.v
theories/SpecOut.v
theories/SpecRead.v
theories/SpecEdit.v
theories/SpecOrder.v
theories/SpecContext.v
theories/ExpandFacts.v
theories/ExpandFacts2.v
theories/ExpandInv.v
theories/CodeFacts.v
theories/ParseInv.v
theories/TreeInv.v
theories/PhraseInv.v
theories/Report.v
theories/Follow.v
theories/Context.v
theories/Same.v
theories/Swap.v
theories/OrderFacts.v
theories/ExampleFacts.v
theories/PlaceFacts.v
theories/PropFacts1.v
theories/SpecCount.v
theories/CountFacts.v
theories/SpecOrigin.v
theories/SpecCompose.v
theories/Nightly.v
theories/SpecRecover.v
theories/SpecReports.v
theories/ReportsFacts.v
theories/SpecRust.v
theories/OriginFacts.v
theories/RustFacts.v
theories/STokens.v
theories/SSyn.v
theories/SParse.v
theories/SExpand.v
theories/SMacro.v
theories/SpecSpan.v
theories/Erase.v
theories/Move.v
theories/SLex.v
theories/ConformanceSpans.v
theories/SpanExamples.v
theories/SpecSpell.v
theories/SpellFacts.v
theories/PlacedFacts.v
theories/SpellOnce.v
theories/PlacesIn.v
theories/SpecWhere.v
theories/WhereFacts.v
theories/UserIn.v
theories/SpecKept.v
theories/KeptFacts.v
theories/SpecBroken.v
theories/SpecStop.v
theories/SpecWritable.v
theories/SpecSize.v
theories/BrokenFacts.v
theories/BrokenFacts2.v
theories/BrokenFacts3.v
theories/StopFacts.v
theories/WritableFacts.v
theories/WritableFacts2.v
theories/SizeFacts.v
theories/Properties1.v
theories/Properties2.v
theories/Properties3.v
theories/Properties4.v
theories/Properties5.v
theories/Properties6.v
theories/Properties7.v
theories/Properties8.v
theories/Properties9.v
theories/Properties10.v
theories/Properties11.v
theories/Properties12.v
theories/Properties13.v
theories/Properties14.v
theories/Properties15.v
theories/Properties16.v
theories/Properties17.v
theories/Properties18.v
theories/Properties19.v
theories/Properties20.v
theories/Properties21.v
theories/Properties22.v
theories/Properties23.v
theories/BoundFacts.v
theories/Properties24.v
theories/SpecGaps.v
theories/GapFacts.v
theories/GapFacts2.v
theories/Properties25.v
theories/SpecEqual.v
theories/EqualFacts.v
theories/EqualFacts2.v
theories/EqualFacts3.v
theories/OrderAll.v
theories/Properties26.v
theories/Work.v
theories/WorkFacts.v
theories/WorkBound.v
theories/WorkLow.v
theories/Properties27.v
theories/SpecRun.v
theories/SpecView.v
theories/SpecHtml.v
theories/RunFacts.v
theories/RunFacts2.v
theories/RunFacts3.v
theories/Properties28.v
theories/UserBroken.v
theories/Properties29.v
theories/SpecText.v
theories/TextFacts.v
theories/Properties30.v
theories/WorkX.v
theories/WorkXFacts.v
theories/WorkXBound.v
theories/WorkXBound2.v
theories/WorkXRead.v
theories/WorkXLow.v
theories/WorkXSize.v
theories/Properties31.v
theories/SpecTyped.v
theories/TypedFacts.v
theories/TypedFacts2.v
theories/TypedFacts3.v
theories/TypedFacts4.v
theories/Properties32.v
theories/Blind.v
theories/SpecBlind.v
theories/Holes.v
theories/Properties33.v
theories/SpecWhite.v
theories/White.v
theories/White2.v
theories/Properties34.v
theories/SpecRespaced.v
theories/Respaced.v
theories/SpecCut.v
theories/CutFacts.v
theories/CutFacts2.v
theories/CutFacts3.v
theories/Properties35.v
theories/SpecConfined.v
theories/Confined.v
theories/ConfinedCode.v
theories/Properties36.v
theories/SpecOneChild.v
theories/OneChildFacts.v
theories/Properties37.v
theories/SpecMixed.v
theories/MixedFacts.v
theories/MixedFacts2.v
theories/Properties38.v
theories/SpecMoved.v
theories/MovedFacts.v
theories/Properties39.v
theories/SpecOneAttr.v
theories/OneAttrFacts.v
theories/Properties40.v
theories/SpecRenamed.v
theories/RenamedFacts.v
theories/Properties41.v
theories/RenamedFacts2.v
theories/Properties42.v
theories/SpecSelected.v
theories/SelectedFacts.v
theories/Properties43.v
