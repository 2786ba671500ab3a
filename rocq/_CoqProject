-Q theories Verif
theories/Base.v
theories/Lib.v
theories/Glob.v
theories/GlobSpec.v
theories/GlobProofs.v
theories/PropertiesGlob.v
theories/Var.v
theories/Value.v
theories/ValueSpec.v
theories/ValueProofs.v
theories/PropertiesValue.v
theories/Comparator.v
theories/ComparatorSpec.v
theories/ComparatorProofs.v
theories/ComparatorProofs2.v
theories/PropertiesCompare.v
theories/SetVar.v
theories/SetSpec.v
theories/SetProofs.v
theories/PropertiesSet.v
theories/Flags.v
theories/FlagsSpec.v
theories/FlagsProofs.v
theories/PropertiesFlags.v
theories/Message.v
theories/MessageSpec.v
theories/MessageProofs.v
theories/MessageProofs2.v
theories/HeaderShowSpec.v
theories/HeaderShowProofs.v
theories/PropertiesMessage.v
theories/EditHeader.v
theories/EditHeaderSpec.v
theories/EditHeaderProofs.v
theories/PropertiesEdit.v
theories/Address.v
theories/AddressSpec.v
theories/AddressProofs.v
theories/PropertiesAddress.v
theories/Expr.v
theories/ExprSpec.v
theories/ExprProofs.v
theories/ExprTok.v
theories/ExprTokSpec.v
theories/ExprTokProofs.v
theories/PropertiesExpr.v
theories/Event.v
theories/Notify.v
theories/NotifySpec.v
theories/NotifyProofs.v
theories/PropertiesNotify.v
theories/Vacation.v
theories/VacationSpec.v
theories/VacationProofs.v
theories/VacationProofs2.v
theories/PropertiesVacation.v
theories/Spam.v
theories/SpamSpec.v
theories/SpamProofs.v
theories/SpamProofs2.v
theories/PropertiesSpam.v
theories/AddrTest.v
theories/AddrSpec.v
theories/AddrTestProofs.v
theories/PropertiesAddrTest.v
theories/Mime.v
theories/Sieve.v
theories/Run.v
theories/RunSpec.v
theories/RunProofs.v
theories/RunProofs2.v
theories/RunProofs3.v
theories/RunProofs4.v
theories/RunProofs5.v
theories/RunProofs6.v
theories/RunProofs7.v
theories/RunProofs8.v
theories/RunProofs9.v
theories/PropertiesRun.v
theories/Compile.v
theories/CompileSpec.v
theories/CompileProofs1.v
theories/CompileProofs2.v
theories/CompileProofs3.v
theories/CompileProofs4.v
theories/CompileProofs5.v
theories/CompileProofs6.v
theories/ExprRunSpec.v
theories/ExprRunProofs.v
theories/PropertiesExprRun.v
theories/CompileProofs7.v
theories/ControlSpec.v
theories/ControlProofs1.v
theories/ControlProofs2.v
theories/ControlProofs3.v
theories/ControlProofs4.v
theories/ControlProofs5.v
theories/ControlProofs6.v
theories/CompileProofs8.v
theories/CompileProofs9.v
theories/CompileProofs10.v
theories/PropertiesCompile.v
theories/Scope.v
theories/ScopeSpec.v
theories/ScopeRun.v
theories/ScopeProofs.v
theories/ScopeProofs2.v
theories/ScopeProofs3.v
theories/PropertiesScope.v
theories/Utf8.v
theories/Lexer.v
theories/LexerSpec.v
theories/LexerProofs.v
theories/LexerProofs2.v
theories/PropertiesLexer.v
theories/StringTok.v
theories/HeaderVar.v
theories/StringSpec.v
theories/StringProofs.v
theories/StringProofs2.v
theories/StringProofs3.v
theories/PropertiesString.v
theories/ParseArgs.v
theories/ParseBase.v
theories/Parse.v
theories/ParseSafe.v
theories/ParseSpec.v
theories/PropertiesParse.v
theories/ParseMax.v
theories/ParseCaps1.v
theories/ParseCaps2.v
theories/ParseGuard1.v
theories/ParseGuard2.v
theories/ParseGuard3.v
theories/ParseGuard4.v
theories/ParseGuard5.v
theories/ParseGuard6.v
theories/GuardSpec.v
theories/ParseGuard7.v
theories/PropertiesGuard.v
theories/Build.v
theories/BuildSpec.v
theories/BuildProofs.v
theories/BuildProofs2.v
theories/BuildProofs3.v
theories/BuildProofs4.v
theories/BuildProofs5.v
theories/BuildProofs6.v
theories/PropertiesBuild.v
theories/CalmSpec.v
theories/CalmProofs.v
theories/CalmProofs2.v
theories/CalmProofs3.v
theories/ReportSpec.v
theories/ReportProofs.v
theories/PropertiesCalm.v
theories/GrammarSpec.v
theories/GrammarProofs.v
theories/GrammarProofs2.v
theories/GrammarProofs3.v
theories/GrammarProofs4.v
theories/PropertiesGrammar.v
theories/LexTextSpec.v
theories/LexTextProofs.v
theories/PropertiesLexText.v
theories/FieldsSpec.v
theories/FieldsProofs.v
theories/PropertiesFields.v
theories/HeaderEval.v
theories/HeaderVarSpec.v
theories/HeaderVarProofs.v
theories/PropertiesHeaderVar.v
theories/MatchSpec.v
theories/MatchProofs.v
theories/PropertiesMatch.v
theories/ArgBase.v
theories/ArgSpec.v
theories/ArgProofs1.v
theories/ArgProofs2.v
theories/ArgProofs3.v
theories/ArgProofs4.v
theories/ArgProofs5.v
theories/PropertiesArgs.v
theories/RefineSpec.v
theories/RefineProofs1.v
theories/RefineProofs2.v
theories/RefineProofs3.v
theories/RefineCaps.v
theories/RefineProofs4.v
theories/RefineProofs5.v
theories/RefineProofs6.v
theories/RefineProofs7.v
theories/RefineProofs8.v
theories/RefineProofs9.v
theories/RefineProofs10.v
theories/RefineProofs14.v
theories/RefineProofs11.v
theories/RefineProofs12.v
theories/RefineProofs13.v
theories/RefineProofs15.v
theories/PropertiesRefine.v
theories/AcceptSpec.v
theories/AcceptBase.v
theories/AcceptArgs.v
theories/AcceptTests.v
theories/AcceptTests2.v
theories/AcceptTests3.v
theories/AcceptTests4.v
theories/AcceptTest.v
theories/AcceptActs.v
theories/AcceptActs2.v
theories/AcceptCmds.v
theories/AcceptCmds2.v
theories/AcceptCmds3.v
theories/AcceptText.v
theories/PropertiesAccept.v
theories/OperatorSpec.v
theories/OperatorProofs.v
theories/PropertiesOperator.v
theories/Host.v
theories/HostSpec.v
theories/PropertiesHost.v
theories/BuildView.v
theories/PropertiesBuildRun.v
theories/DecodeSpec.v
theories/DecodeProofs.v
theories/PropertiesDecode.v
theories/DateSpec.v
theories/DateProofs.v
theories/PropertiesDate.v
theories/ParseRoom.v
theories/PropertiesRoom.v
theories/BodyText.v
theories/BodySpec.v
theories/BodyProofs.v
theories/PropertiesBody.v
theories/TestSpec.v
theories/TestProofs.v
theories/PropertiesTest.v
theories/ActionSpec.v
theories/ActionProofs.v
theories/PropertiesAction.v
theories/CountSpec.v
theories/CountProofs.v
theories/PropertiesCount.v
theories/ModSpec.v
theories/ModProofs.v
theories/ModProofs2.v
theories/ModProofs3.v
theories/PropertiesMods.v
theories/EditRunSpec.v
theories/EditRunProofs.v
theories/PropertiesEditRun.v
theories/EditTreeSpec.v
theories/EditTreeProofs.v
theories/PropertiesEditTree.v
theories/IncludeSpec.v
theories/IncludeProofs.v
theories/PropertiesInclude.v
theories/LimitSpec.v
theories/LimitProofs.v
theories/PropertiesLimit.v
theories/AuditSpec.v
theories/AuditProofs.v
theories/PropertiesAudit.v
theories/WordSpec.v
theories/WordProofs.v
theories/PropertiesWord.v
theories/AckSpec.v
theories/AckProofs.v
theories/AckLayout.v
theories/PropertiesAck.v
theories/EndProofs.v
theories/PropertiesEnd.v
theories/LexPos.v
theories/LexPosSpec.v
theories/LexPosProofs.v
theories/PropertiesPlace.v
theories/ErrText.v
theories/PropertiesErrText.v
theories/Changed.v
theories/ChangedProofs.v
theories/PropertiesChanged.v
theories/CompLimitSpec.v
theories/ParseLimit.v
theories/PropertiesCompLimit.v
theories/FnSpec.v
theories/ParseFn.v
theories/FnExpr.v
theories/PropertiesFn.v
