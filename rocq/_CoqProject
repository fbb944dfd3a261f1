-Q theories Verif
theories/Base.v
theories/PyText.v
theories/Lexer.v
theories/LexSpec.v
theories/LexerProofs.v
theories/LexerScan.v
theories/LexerCorrect.v
theories/LexerThm.v
theories/LexerValues.v
theories/LexerProps.v
theories/SrcRef.v
theories/SrcRefProofs.v
theories/Prop_Lexer.v
theories/MathModel.v
theories/MathProofs.v
theories/Prop_Math.v
theories/Messages.v
theories/MessagesProofs.v
theories/Prop_Messages.v
theories/SymTab.v
theories/SymTabProofs.v
theories/Prop_SymTab.v
theories/SourceMan.v
theories/SourceManProofs.v
theories/Prop_SourceMan.v
theories/Markup.v
theories/NestedProofs.v
theories/MarkupSpec.v
theories/MarkupProofs.v
theories/Prop_Markup.v
theories/Ast.v
theories/TypesProofs.v
theories/Prop_Types.v
theories/Eval.v
theories/Checks.v
theories/ChecksProofs.v
theories/Prop_Checks.v
theories/Typing.v
theories/Soundness.v
theories/EvalSpec.v
theories/EvalSpecProofs.v
theories/EvalCorrect.v
theories/Prop_Eval.v
theories/Lint.v
theories/LintProofs.v
theories/Prop_Lint.v
theories/ParserBase.v
theories/ParserExpr.v
theories/ExprSyntax.v
theories/ParserProofs.v
theories/ExprParserSound.v
theories/ExprParserComplete.v
theories/EvalFuel.v
theories/ParserFuel.v
theories/ExprTyping.v
theories/ExprPrint.v
theories/ParserValue.v
theories/ValueSyntax.v
theories/ValueParserSound.v
theories/ExprMeaning.v
theories/ExprMeaningProofs.v
theories/ValueParserComplete.v
theories/ValueFuel.v
theories/Resolve.v
theories/ValueTyping.v
theories/Prop_Value.v
theories/ParserDecl.v
theories/ParserFile.v
theories/Process.v
theories/Growth.v
theories/DeclInv.v
theories/DeclRsl.v
theories/DeclTrlc.v
theories/DeclFrame.v
theories/ProcessInv.v
theories/ProcessRun.v
theories/DeclSyntax.v
theories/DeclSound.v
theories/DeclComplete.v
theories/RunSyntax.v
theories/Notes.v
theories/RunGraph.v
theories/RunSound.v
theories/RunMessages.v
theories/DeclFuel.v
theories/FileFuel.v
theories/ProcessFuel.v
theories/Hazards.v
theories/ParserCrash.v
theories/ValueCrash.v
theories/DeclCrash.v
theories/RunValid.v
theories/RunComplete.v
theories/RunHazards.v
theories/CheckCrash.v
theories/RunMeaning.v
theories/LintRun.v
theories/RunLint.v
theories/ProcessCrash.v
theories/Prop_Parser.v
theories/Prop_Process.v
theories/Prop_LintRun.v
theories/Prop_RunCrash.v
theories/Prop_File.v
theories/Prop_Run.v
theories/Prop_Valid.v
theories/Prop_Crash.v
theories/Prop_Meaning.v
theories/SemEval.v
theories/Vcg.v
theories/VcgSem.v
theories/VcgEnc.v
theories/VcgOps.v
theories/VcgEq.v
theories/VcgFun.v
theories/VcgTmp.v
theories/VcgSound.v
theories/VcgChecks.v
theories/VcgModel.v
theories/VcgMain.v
theories/VcgRun.v
theories/Prop_Vcg.v
theories/VcgTotal.v
theories/Prop_VcgTotal.v
theories/Imports.v
theories/ImportFrame.v
theories/ImportRun.v
theories/Prop_Imports.v
theories/Api.v
theories/ApiProofs.v
theories/ApiRun.v
theories/Prop_Api.v
theories/Sections.v
theories/SectionProofs.v
theories/SectionRun.v
theories/Prop_Sections.v
theories/Counter.v
theories/CounterProofs.v
theories/CounterRead.v
theories/Prop_Counter.v
theories/Show.v
theories/ShowProofs.v
theories/Prop_Show.v
theories/Prop_Follows.v
