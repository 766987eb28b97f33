-Q theories Verif
theories/Base.v
theories/Tokens.v
theories/Ast.v
theories/Interner.v
theories/Lexer.v
theories/Parser.v
theories/Printer.v
theories/Driver.v
theories/Conformance.v
theories/AstMap.v
theories/Spec.v
theories/SmallFacts.v
theories/PropertiesSmall.v
theories/AstInd.v
theories/Wp.v
theories/ParserTermination.v
theories/ParserMono.v
theories/ParserRel.v
theories/ParserFacts.v
theories/PropertiesParser.v
theories/LexBase.v
theories/LexSteps.v
theories/LexWords.v
theories/LexTok.v
theories/LexNum.v
theories/LexStr.v
theories/LexMore.v
theories/LexRun.v
theories/LexParse.v
theories/LexFacts.v
theories/LexCrash.v
theories/LexProg.v
theories/PropertiesLexer.v
theories/ParseRun.v
theories/ParseTac.v
theories/ParseExpr.v
theories/ParseStmt.v
theories/ParseDecl.v
theories/Emit.v
theories/SpecProg.v
theories/ProgOps.v
theories/ProgNames.v
theories/PropertiesProg.v
theories/LexMono.v
theories/SpecRT.v
theories/RTBase.v
theories/RTExpr.v
theories/RTStmt.v
theories/RTStm2.v
theories/RoundTrip.v
theories/PropertiesRT.v
theories/StrFacts.v
theories/PropertiesStr.v
theories/SpecMixed.v
theories/Mixed.v
theories/PropertiesMixed.v
theories/SpecCtl.v
theories/Ctl.v
theories/PropertiesCtl.v
theories/SpecInterp.v
theories/Interp.v
theories/PropertiesInterp.v
theories/SpecRun.v
theories/LexInv.v
theories/LexTotal.v
theories/PropertiesRun.v
theories/SpecBad.v
theories/Bad.v
theories/PropertiesBad.v
theories/ParseCrash.v
theories/Dies.v
theories/DiesStm.v
theories/SpecCrash.v
theories/Crash.v
theories/PropertiesCrash.v
theories/SpecOrder.v
theories/Order.v
theories/OrderPass.v
theories/OrderTop.v
theories/PropertiesOrder.v
theories/SpecGrammar.v
theories/Grammar.v
theories/GrammarAll.v
theories/LexBehind.v
theories/GrammarTop.v
theories/GrammarEx.v
theories/PropertiesGrammar.v
theories/SpecErr.v
theories/ErrAt.v
theories/Stops.v
theories/StopsExpr.v
theories/StopsMember.v
theories/GrammarErr.v
theories/ErrTop.v
theories/ErrEx.v
theories/PropertiesErr.v
theories/SpecText.v
theories/SpecUnread.v
theories/LexText.v
theories/TextTok.v
theories/TextProof.v
theories/UnreadProof.v
theories/TextMain.v
theories/UnreadInside.v
theories/TextMain2.v
theories/TextTotal.v
theories/TextEx.v
theories/PropertiesText.v
theories/UnreadEx.v
theories/PropertiesUnread.v
theories/CompleteEx.v
theories/PropertiesComplete.v
theories/SpecPanic.v
theories/SafeWp.v
theories/Safe.v
theories/SafeMain.v
theories/SafeEx.v
theories/PropertiesSafe.v
theories/SpecSpan.v
theories/Span.v
theories/SpanPass.v
theories/SpanTop.v
theories/PropertiesSpan.v
theories/SpecPlace.v
theories/Place.v
theories/PropertiesPlace.v
theories/SpecLines.v
theories/Lines.v
theories/LinesMain.v
theories/PropertiesLines.v
theories/SpecRender.v
theories/Render.v
theories/PropertiesRender.v
theories/Tester.v
theories/SpecTester.v
theories/TesterFacts.v
theories/PropertiesTester.v
theories/SpecWide.v
theories/Wide.v
theories/WideEx.v
theories/PropertiesWide.v
theories/SpecDoc.v
theories/Doc.v
theories/PropertiesDoc.v
