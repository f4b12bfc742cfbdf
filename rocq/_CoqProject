-Q theories Verif
theories/Base.v
theories/Tokens.v
theories/PeekReader.v
theories/CharReader.v
theories/Lexer.v
theories/Ast.v
theories/Prog.v
theories/Parser.v
theories/LexSpec.v
theories/LexChars.v
theories/LexerFacts.v
theories/LexSound.v
theories/LexSound2.v
theories/LexSound3.v
theories/LexComplete.v
theories/LexComplete2.v
theories/LexComplete3.v
theories/LexComplete4.v
theories/LexComplete5.v
theories/LexComplete6.v
theories/ReaderFacts.v
theories/LexProps.v
theories/PropLexer.v
theories/TokChain.v
theories/ParseState.v
theories/Grammar.v
theories/Contract.v
theories/Hoare.v
theories/GrammarFacts.v
theories/ParTac.v
theories/ParLib.v
theories/Par1.v
theories/Par2.v
theories/Par3.v
theories/Par4.v
theories/Par5.v
theories/Par6.v
theories/AllOk.v
theories/AstSpec.v
theories/StaticSem.v
theories/AstSound.v
theories/ParseRuns.v
theories/Layout.v
theories/LayoutSound.v
theories/Nesting.v
theories/Operators.v
theories/PropParser.v
theories/PropErrors.v
theories/PropComplete.v
theories/PropAst.v
theories/PropBacktrack.v
theories/Numeral.v
theories/SpanSerde.v
theories/Emitter.v
theories/PropEmitter.v
theories/Traverse.v
theories/Sorts.v
theories/PropTraverse.v
theories/Mutate.v
theories/PropMutate.v
theories/Shape.v
theories/Codegen.v
theories/Bare.v
theories/PropCodegen.v
theories/Source.v
theories/Stream.v
theories/Forward.v
theories/Written.v
theories/Starts.v
theories/Teq.v
theories/Fwd1.v
theories/Fwd2.v
theories/Fwd3.v
theories/Fwd4.v
theories/Fwd5.v
theories/Fwd6.v
theories/Fwd7.v
theories/Fwd8.v
theories/Fwd9.v
theories/Fwd10.v
theories/FwdAsg.v
theories/Complete.v
theories/Unparse.v
theories/PrintLex.v
theories/Print.v
theories/PrintNode.v
theories/PrintShape.v
theories/Regen.v
theories/GenBare.v
theories/PropRound.v
theories/PropLayout.v
theories/Cli.v
theories/PropCli.v
