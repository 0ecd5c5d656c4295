-Q theories Verif
theories/Base.v
theories/Float64.v
theories/Token.v
theories/Lexer.v
theories/Values.v
theories/ValuesSpec.v
theories/ValuesProofs.v
theories/Array.v
theories/ArraySpec.v
theories/ArrayProofs.v
theories/Dict.v
theories/DictSpec.v
theories/DictProofs.v
theories/DictTheory.v
theories/Props_Data.v
theories/Arena.v
theories/ArenaSpec.v
theories/ArenaProofs.v
theories/Strings.v
theories/StringsProofs.v
theories/Pos.v
theories/PosProofs.v
theories/ErrFmt.v
theories/ErrFmtSpec.v
theories/ErrFmtProofs.v
theories/LexerAbs.v
theories/LexerC.v
theories/LexerCProofs.v
theories/LexerSpec.v
theories/LexerProofs.v
theories/LexerTheory.v
theories/LexerWords.v
theories/Props_Text.v
theories/Code.v
theories/CodeSpec.v
theories/CodeProofs.v
theories/FileLine.v
theories/FileLineSpec.v
theories/FileLineProofs.v
theories/Heap.v
theories/GCSpec.v
theories/GCProofs.v
theories/VM.v
theories/VMBasics.v
theories/VMSpec.v
theories/VMInv.v
theories/VMFrame.v
theories/Disasm.v
theories/VMProofs.v
theories/VMProps.v
theories/Props_VM.v
theories/GCTransSpec.v
theories/GCTrans.v
theories/GCSound.v
theories/Props_GC.v
theories/Syntax.v
theories/Symbols.v
theories/Parser.v
theories/Resolve.v
theories/Compile.v
theories/Source.v
theories/Layout.v
theories/LayoutProofs.v
theories/CompileProofs.v
theories/Simulate.v
theories/SimExpr.v
theories/SimEval.v
theories/SimStmt.v
theories/TableInv.v
theories/ParserInv.v
theories/ResolveInv.v
theories/Host.v
theories/HostInv.v
theories/LayTable.v
theories/Whole.v
theories/Props_Compile.v
theories/Preserve.v
theories/Props_Driver.v
theories/LifeSpec.v
theories/LifeProofs.v
theories/LifeErase.v
theories/Props_Life.v
theories/StdSpec.v
theories/Std.v
theories/StdProofs.v
theories/StdPrintf.v
theories/Props_Std.v
theories/Stream.v
theories/ParserSpec.v
theories/ParserTotal.v
theories/Props_Parser.v
theories/Grammar.v
theories/GrammarProofs.v
theories/GrammarSound.v
theories/Props_Grammar.v
theories/Scope.v
theories/ScopeProofs.v
theories/Props_Scope.v
theories/HeightSpec.v
theories/HeightProofs.v
theories/Props_Height.v
theories/FailTable.v
theories/FailCode.v
theories/Props_Fail.v
theories/TypeSpec.v
theories/TypeCode.v
theories/TypeVM.v
theories/TypeLink.v
theories/TagTable.v
theories/TagParse.v
theories/TagResolve.v
theories/TagWhole.v
theories/Props_Types.v
theories/GrammarStmt.v
theories/GrammarStmtSound.v
theories/GrammarStmtComplete.v
theories/GrammarEnds.v
theories/Props_Stmt.v
theories/Props_Names.v
theories/Typing.v
theories/TypingProofs.v
theories/TypingExpr.v
theories/TypingStmt.v
theories/Props_Typing.v
theories/Accept.v
theories/AcceptCode.v
theories/AcceptStmt.v
theories/AcceptReady.v
theories/AcceptGrammar.v
theories/AcceptRoom.v
theories/AcceptWhole.v
theories/Props_Accept.v
theories/StdBox.v
theories/StdBoxGC.v
theories/StdBoxSpec.v
theories/StdBoxProofs.v
theories/StdBoxMain.v
theories/StdBoxStrict.v
theories/Props_Box.v
theories/BindSpec.v
theories/BindProofs.v
theories/Props_Bind.v
theories/Settled.v
theories/SettledParse.v
theories/Answer.v
theories/SettledResolve.v
theories/SettledStmt.v
theories/SettledWhole.v
theories/Props_Answer.v
theories/StdBind.v
theories/SigText.v
theories/LibrarySpec.v
theories/LibraryProofs.v
theories/LibDict.v
theories/Props_Library.v
theories/LibScript.v
theories/Props_Libraries.v
theories/I64.v
theories/Props_I64.v
theories/Props_Indirect.v
theories/Props_Uses.v
theories/Props_UsesAnswer.v
theories/Reflect.v
theories/Props_Reflect.v
theories/Files.v
theories/Props_Files.v
theories/CompileFile.v
theories/Props_CompileFile.v
theories/Props_Stoi.v
