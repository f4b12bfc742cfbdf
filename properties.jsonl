{"id": "C01", "title": "Lexing terminates and makes progress", "statement": "Calling Lexer::read repeatedly on any source reaches the EndOfStream error or a lexical error after at most (number of characters + 1) calls; every successful read strictly advances the input position; read never loops forever.", "quantifier": "every source text (any sequence of Unicode scalar values) and every lexer state/mode", "why_tests_cant": "Non-termination or a zero-width token shows up only on particular inputs; the input space is infinite.", "anchors": ["lexer/src/lib.rs: Lexer::read, Lexer::next, skip_whitespaces", "common/src/io.rs: PeekReader"]}
{"id": "C02", "title": "Token spans are ordered, disjoint and inside the source", "statement": "Every token returned by Lexer::read has span.start < span.end, starts at or after the end of the previous token, and ends at or before the position the reader reports at the end of the source.", "quantifier": "every source text and every pair of successive reads", "why_tests_cant": "Universally quantified over source texts and read histories.", "anchors": ["lexer/src/lib.rs: Lexer::next", "ast/src/span.rs: Span", "common/src/io/char_reader.rs"]}
{"id": "C03", "title": "Tokens tile the source text", "statement": "For ASCII source the text source[span.start..span.end] of each token is exactly the characters the token was lexed from, and the text between two successive tokens consists only of whitespace, line terminators and comments; concatenating trivia and tokens gives back the source.", "quantifier": "every ASCII source text, all tokens of the stream", "why_tests_cant": "Losing or duplicating a character can happen at any boundary of any input.", "anchors": ["lexer/src/lib.rs", "common/src/io/char_reader.rs"]}
{"id": "C04", "title": "Spans remain byte offsets after non-ASCII characters", "statement": "Span positions are byte offsets on character boundaries of the source, also when the source contains non-ASCII characters, so that slicing the source with a span, or seeking back to it, never panics.", "quantifier": "every source text", "why_tests_cant": "Depends on every mix of 1-4 byte characters at every position.", "anchors": ["common/src/io/char_reader.rs: CharReader (Iterator, ReaderPosition/seek)", "lexer/src/lib.rs: Lexer::rewind"]}
{"id": "C05", "title": "Punctuators are lexed by maximal munch", "statement": "A punctuator token is always the longest punctuator of the ECMAScript table that is a prefix of the remaining source (with `?.` followed by a digit lexed as `?`), and its text is its spelling.", "quantifier": "every remaining source text that begins with a punctuator", "why_tests_cant": "Every combination of punctuator prefix and following character.", "anchors": ["lexer/src/lib.rs: Lexer::read_value, the punct_* macros", "lexer/src/token.rs: Punct"]}
{"id": "C06", "title": "Keyword and identifier classification is exact", "statement": "A word token is a keyword token exactly when its text is one of the keyword spellings and carries that keyword; otherwise it is an identifier token carrying exactly the text. Keyword and punctuator enums round-trip through their string form.", "quantifier": "every word; every keyword and punctuator variant", "why_tests_cant": "All words, arbitrary length, all following contexts.", "anchors": ["lexer/src/lib.rs: read_identifier_or_keyword", "lexer/src/token.rs: keyword! table", "macros/src/enum_from_string.rs"]}
{"id": "C07", "title": "first_on_line is set exactly after a line terminator", "statement": "Token.first_on_line is true exactly when the trivia between the previous token and this one contains a line terminator (also one inside a comment), or the token is the first of the source.", "quantifier": "every source text and every token", "why_tests_cant": "Any combination of comments, newlines and tokens.", "anchors": ["lexer/src/lib.rs: Lexer::read, skip_whitespaces, skip_comment"]}
{"id": "C08", "title": "Numeric literals follow the numeric grammar", "statement": "A number token consists of digits of its base with separators, optional fraction and exponent; a number is never immediately followed by an identifier start, never ends in a separator and never contains a double separator. (ECMAScript further forbids a separator next to the prefix, the dot or the exponent mark.)", "quantifier": "every source text starting with a digit or dot-digit", "why_tests_cant": "Unbounded digits and separators.", "anchors": ["lexer/src/number.rs"]}
{"id": "C09", "title": "String literals are read up to the matching unescaped delimiter", "statement": "A string token's text starts and ends with the same quote; the closing quote is the first unescaped occurrence; the stored value is the text between. No unescaped line terminator is inside; an unterminated string is an error at end of stream, never an infinite loop.", "quantifier": "every source text starting with a quote", "why_tests_cant": "Every mixture of escapes, quotes and terminators.", "anchors": ["lexer/src/string.rs"]}
{"id": "C10", "title": "Regular expression and template literals are delimited correctly", "statement": "A regex token ends at the first unescaped `/` outside a character class, followed by identifier-part flags, and contains no line terminator; a template chunk ends at the first unescaped backtick or `${`.", "quantifier": "every source text in regex/template mode", "why_tests_cant": "Unbounded nesting of classes/escapes.", "anchors": ["lexer/src/regexp.rs", "lexer/src/lib.rs: read_template_literal_head_or_plain, read_template_literal_middle_or_tail"]}
{"id": "C11", "title": "Comments and whitespace do not affect tokenisation", "statement": "Replacing the trivia between tokens by other trivia with the same line-break status leaves the sequence of token values (and everything a parse depends on, up to span shifts) unchanged; `<!--` and `-->` are comments in scripts and not in modules.", "quantifier": "every source and every trivia replacement", "why_tests_cant": "All sources times all comment texts.", "anchors": ["lexer/src/lib.rs: skip_comment, skip_single_line_comment, skip_multi_line_comment, html comments"]}
{"id": "C12", "title": "Rewinding replays the same tokens", "statement": "After PeekReader::rewind_to a token previously returned by the lexer, the stream delivers that same token again and then the same following tokens, given the same lexer state.", "quantifier": "every ASCII source, every reachable reader state and every earlier token", "why_tests_cant": "History-dependent: any point of any parse may rewind.", "anchors": ["common/src/io.rs: PeekReader::rewind_to, reread_with_state", "lexer/src/lib.rs: rewind, reread_with_state"]}
{"id": "C13", "title": "PeekReader behaves as a two-token look-ahead cursor", "statement": "current/peek/consume of PeekReader observe successive items of the inner reader without loss, duplication or reordering; position() is the end position of the last consumed item.", "quantifier": "every inner reader and every sequence of current/peek/consume calls", "why_tests_cant": "Quantifies over operation histories.", "anchors": ["common/src/io.rs: PeekReader"]}
{"id": "C14", "title": "Parsing terminates on every input", "statement": "parse_program, parse_stmt and parse_expr return (with Ok, Err, or a panic) for every source; the recursion depth is linear in the source length.", "quantifier": "every source text, goal symbol, source type and context", "why_tests_cant": "Infinite loops or exponential backtracking occur only on special inputs.", "anchors": ["parser/src/lib.rs", "parser/src/expr.rs", "parser/src/stmt.rs"]}
{"id": "C15", "title": "Parsing never panics", "statement": "parse::<T> returns Ok or Err and never panics, for every input.", "quantifier": "every source text, goal and source type", "why_tests_cant": "Panic paths (unwrap, debug_assert, unreachable!, slice indexing) are reached only by particular inputs.", "anchors": ["parser/src/lib.rs", "parser/src/module.rs: parse_module_specifier", "parser/src/stmt.rs: parse_declaration", "common/src/io/char_reader.rs: seek"]}
{"id": "C16", "title": "A successful program parse consumed the whole source", "statement": "If parse_program returns Ok then every token of the source was consumed and only trivia remained; nothing after the accepted text is ignored.", "quantifier": "every source text", "why_tests_cant": "Trailing garbage of any shape.", "anchors": ["parser/src/lib.rs: parse, parse_program; parser/src/stmt.rs: parse_stmt_list"]}
{"id": "C17", "title": "AST spans are exact", "statement": "Every AST node's span starts at the start of its first token and ends at the end of its last token; child spans are nested inside the parent's and siblings are ordered.", "quantifier": "every accepted source and every node of the AST", "why_tests_cant": "All nodes of all programs.", "anchors": ["parser/src/lib.rs: span_from", "parser/src/*.rs"]}
{"id": "C18", "title": "The AST reflects the token sequence (no token lost or invented)", "statement": "For every accepted source the flattening of the AST by the grammar of the language gives back the token sequence of the source (up to optional semicolons and trailing commas).", "quantifier": "every accepted source", "why_tests_cant": "All programs.", "anchors": ["parser/src/*.rs"]}
{"id": "C19", "title": "return only inside functions", "statement": "An accepted AST has a return statement only inside a function, method or arrow body.", "quantifier": "every accepted source", "why_tests_cant": "Any nesting depth.", "anchors": ["parser/src/stmt.rs: parse_return_stmt", "parser/src/lib.rs: ContextModify"]}
{"id": "C20", "title": "super only in methods / derived constructors", "statement": "An accepted AST contains super.property only where a method, accessor, or constructor encloses it, and super(...) only in constructors of classes with a heritage.", "quantifier": "every accepted source", "why_tests_cant": "Any nesting depth.", "anchors": ["parser/src/function.rs", "parser/src/expr.rs: parse_super", "parser/src/class.rs"]}
{"id": "C21", "title": "await and yield are expressions only in async / generator bodies", "statement": "In an accepted AST an await expression occurs only inside an async function body (or module top level if supported) and yield only inside a generator body, with the innermost function deciding.", "quantifier": "every accepted source", "why_tests_cant": "Any nesting.", "anchors": ["parser/src/expr.rs", "parser/src/function.rs"]}
{"id": "C22", "title": "Reserved words are never identifiers", "statement": "No identifier of an accepted AST (binding or reference) is a reserved word; in strict mode code also not implements, interface, let, package, private, protected, public, static, yield.", "quantifier": "every accepted source", "why_tests_cant": "All programs, all nesting of strict functions.", "anchors": ["parser/src/lib.rs: parse_identifier, is_identifier", "lexer/src/token.rs: into_identifier, is_allowed_identifier"]}
{"id": "C23", "title": "Assignment and update targets are valid", "statement": "In an accepted AST the left side of an assignment is a simple target or pattern (pattern only for `=`), and ++/-- apply to simple targets.", "quantifier": "every accepted source", "why_tests_cant": "All programs.", "anchors": ["parser/src/expr.rs: parse_assignment_expr, parse_update_expr", "parser/src/static_semantics/mod.rs"]}
{"id": "C24", "title": "import/export declarations only in modules", "statement": "Import and export declarations occur only in AST of sources parsed as modules, and only at top level.", "quantifier": "every accepted source", "why_tests_cant": "All programs, all nestings.", "anchors": ["parser/src/stmt.rs", "parser/src/module.rs"]}
{"id": "C25", "title": "Duplicate parameter names are rejected where the language forbids them", "statement": "A function with non-simple parameters, an arrow function, a method or strict function is accepted only if its parameter names are pairwise distinct.", "quantifier": "every accepted source", "why_tests_cant": "All parameter lists.", "anchors": ["parser/src/function.rs", "parser/src/static_semantics/mod.rs: get_first_duplicate, BoundNames"]}
{"id": "C26", "title": "Strict mode is inherited and switched on by the directive prologue", "statement": "Code is parsed as strict exactly when an enclosing function body or program has a 'use strict' directive, or it is class or module code; strict mode restrictions (delete of an identifier, octal, reserved words) are enforced there.", "quantifier": "every accepted source", "why_tests_cant": "All nestings.", "anchors": ["parser/src/function.rs: parse_function_body", "parser/src/lib.rs: parse_directive_prologue, ContextModify", "parser/src/expr.rs: parse_unary_expr"]}
{"id": "C27", "title": "Accessors and constructors have the right shape", "statement": "A getter has no parameter, a setter exactly one; a class has at most one constructor; try has a catch or a finally.", "quantifier": "every accepted source", "why_tests_cant": "All programs.", "anchors": ["parser/src/method.rs", "parser/src/class.rs", "parser/src/stmt.rs: parse_try_stmt"]}
{"id": "C28", "title": "Automatic semicolon insertion follows the three rules", "statement": "A statement that needs a terminating semicolon is accepted only if it is followed by `;`, `}`, the end of the source, or a token on a new line.", "quantifier": "every accepted source", "why_tests_cant": "All statement pairs.", "anchors": ["parser/src/lib.rs: consume_optional_semicolon", "parser/src/stmt.rs", "parser/src/variable.rs"]}
{"id": "C29", "title": "Binary operator precedence and associativity", "statement": "A binary expression a1 op1 a2 op2 ... parses to the unique tree in which higher-precedence operators bind tighter and equal precedence associates to the left (** to the right), with `??` not mixed with && / || without parentheses.", "quantifier": "every operator sequence of every length", "why_tests_cant": "Infinitely many operator sequences.", "anchors": ["parser/src/binary_expr.rs"]}
{"id": "C30", "title": "Error positions point into the source", "statement": "The span of every parse error lies within the source, so that rendering it with ErrorEmitter never panics.", "quantifier": "every rejected source", "why_tests_cant": "Every rejected input.", "anchors": ["parser/src/error/mod.rs", "parser/src/error/emitter.rs"]}
{"id": "C31", "title": "Emitted line and column numbers are those of the error span", "statement": "The line/column printed by ErrorEmitter are those of the first character of the error span and the printed source line is the one containing it.", "quantifier": "every source and error span", "why_tests_cant": "All sources/spans.", "anchors": ["parser/src/error/emitter.rs"]}
{"id": "C32", "title": "Span JSON form round-trips", "statement": "Deserialising the serialised form of any Span yields the same span; deserialising any string returns a span or an error and never panics.", "quantifier": "every span; every string", "why_tests_cant": "Infinite domain.", "anchors": ["ast/src/span.rs: Serialize, Deserialize, SpanVisitor"]}
{"id": "C33", "title": "AST traversal visits every node exactly once and balances enter/exit", "statement": "Traverse visits every child of every node exactly once in source order, and enter/exit calls are properly nested.", "quantifier": "every AST", "why_tests_cant": "All ASTs.", "anchors": ["ast/src/traverse/mod.rs", "ast/src/traverse/macros.rs"]}
{"id": "C34", "title": "Generated code re-parses to the same AST", "statement": "codegen(parse(s)) parses again and gives the same AST up to spans, both in pretty and in minified form.", "quantifier": "every accepted source and codegen option set", "why_tests_cant": "All programs.", "anchors": ["codegen/src/lib.rs"]}
{"id": "C35", "title": "Minified output keeps adjacent tokens apart", "statement": "In minified output two adjacent tokens which would lex together are separated by a space.", "quantifier": "all adjacent tokens of all ASTs", "why_tests_cant": "All pairs.", "anchors": ["codegen/src/lib.rs: must_add_space_before"]}
{"id": "C36", "title": "Backtracking between cover grammars is transparent", "statement": "Trying an arrow function or an assignment pattern and backtracking leaves no trace: the result is the same as parsing the alternative directly from the original position and lexer state.", "quantifier": "every source at which the parser backtracks", "why_tests_cant": "All inputs, history dependent.", "anchors": ["parser/src/cover.rs", "parser/src/lib.rs: rewind", "parser/src/expr.rs"]}
{"id": "C37", "title": "Accepted trees are well-typed and have the shape the language prescribes", "statement": "Every field of every node of a returned tree holds a value of the type the syntax tree declares for it; the body of if/for/while/do/with and of a label is never a declaration; export wraps a declaration and export default a function or class; variable statements declare something; comma expressions have at least two operands; yield* has an operand; new without parentheses has no arguments; import() has exactly one plain argument; an import never has both a namespace and a list; a template has at least one part.", "quantifier": "all sources, both source types, all three entry points, all nodes of the returned tree", "why_tests_cant": "Snapshot tests show the shape of chosen programs; the claim is about every node of every accepted program.", "anchors": ["parser/src/stmt.rs: parse_stmt", "ast/src/*.rs"]}
{"id": "C38", "title": "Code generation never fails", "statement": "generate_code returns a text for every syntax tree, minified or not: the bookkeeping of line and block positions never underflows (which would panic in a build with overflow checks).", "quantifier": "every syntax tree (accepted or built by hand), all three kinds of roots, both modes", "why_tests_cant": "The line index is reset, moved and compared with a text that also shrinks (semicolons and line feeds are removed again); whether it can exceed the length of the text depends on the whole history of calls, for every tree.", "anchors": ["codegen/src/lib.rs: CodeGenerator::col_pos, indent, end_block, remove_last, new_line, with_align"]}
{"id": "C39", "title": "Minifying only drops blanks and semicolons", "statement": "The minified code of a tree is its ordinary code with some spaces, line feeds and semicolons left out and some line feeds written as spaces; nothing else is added, lost or reordered. In particular it is never longer.", "quantifier": "every syntax tree, all three kinds of roots", "why_tests_cant": "The two modes take different branches in the printer at every step and undo parts of their output; the claim relates two whole runs for every tree.", "anchors": ["codegen/src/lib.rs: CodeGenerator, GeneratorContext"]}
{"id": "C40", "title": "Layout does not matter", "statement": "Two sources that consist of the same tokens, broken into lines at the same places, are treated alike: if one is a valid program so is the other, their trees are equal up to positions, and the code generated for them is the same. (Line breaks do matter: return followed by a line break, two expressions on one line.)", "quantifier": "all pairs of sources and all programs, source types, entry points and generator modes", "why_tests_cant": "It relates two runs on arbitrary sources; the parser works with byte positions (rewinding, comparing the start of an error with the start of an expression), so that an unlucky layout could change what is accepted.", "anchors": ["parser/src/lib.rs", "parser/src/expr.rs: parse_conditional_expr_or_arrow_function", "common/src/io.rs", "codegen/src/lib.rs"]}
{"id": "C41", "title": "Valid programs are accepted, as the tree they stand for", "statement": "If the tokens of a source form a program of the language (a grammar written down independently of the parser: expressions with precedence and associativity, statements, functions, classes, destructuring declarations, modules, semicolon insertion, directives), parsing succeeds and the tree is the one the grammar assigns to it, up to positions. In particular the grammar is unambiguous on texts.", "quantifier": "all sources and all derivations in the grammar, both source types, all three entry points", "why_tests_cant": "Tests show that chosen programs parse; the claim is that no program of the (infinite) language is rejected or misread, whatever is nested in what and however the parser backtracks.", "anchors": ["parser/src/expr.rs", "parser/src/stmt.rs", "parser/src/function.rs", "parser/src/class.rs", "parser/src/module.rs", "parser/src/lib.rs: parse, parse_program"]}
{"id": "C42", "title": "The command line program reports the outcome of the parse", "statement": "Run on a readable file, the program exits with 0 exactly if the file is accepted (as a module if its name ends in .mjs or .module.js, as a script otherwise), and with 1 and an error report on standard error and nothing on standard output if it is rejected; no other exit code occurs. On success it writes the confirmation for --check, else the generated code for --format (minified only for the value minified), else the tree. It does not crash. Formatting the output of the formatter again reproduces it.", "quantifier": "every file name, option combination and file content", "why_tests_cant": "The outcome has to match that of the parser for every content, and the fixed point property ranges over all programs.", "anchors": ["src/main.rs: main", "src/main.rs: get_arguments"]}
{"id": "C43", "title": "A visitor can rewrite the tree", "statement": "Traversing a tree with a visitor whose methods change what they are handed yields the tree with exactly those changes: a visitor that changes nothing leaves the tree as it is and receives the same calls; a node that a visitor declines to enter is left as its enter and exit methods leave it; a visitor that maps each identifier on entry and each expression on exit yields the tree with every identifier mapped once and every expression mapped once from the inside out, and nothing else changed. The traversal ends.", "quantifier": "every well-typed tree (in particular every tree the parser returns), every identifier and expression map, every visitor", "why_tests_cant": "The rewriting must reach every identifier and expression of every tree, however nested, and must touch nothing else.", "anchors": ["ast/src/traverse/mod.rs: Traverse impls", "ast/src/traverse/macros.rs: generate_fold_and_visit, Visitor"]}
{"id": "C44", "title": "What a syntax error names is at the position it points to", "statement": "If parsing is rejected, then an 'unexpected token' error names the token that stands at its span, reached by reading tokens from the beginning of the source, and that token is not the one the error says was expected; 'expected identifier' names such a token that is neither an identifier nor a word; 'forbidden identifier' names a word that stands there and is reserved in some code; 'unexpected identifier' and 'initializer not allowed' likewise; 'arrow function not allowed' carries an arrow function that is written at its span; 'unexpected end of input' is reported only if the whole source divides into tokens; a lexical error only if, after tokens, neither a token nor the end can be read; 'import/export outside a module', 'illegal return', 'illegal newline after throw', 'missing catch or finally', the errors about super and about rest elements only where such tokens stand; an invalid assignment, update or destructuring target is written at the span and is neither a variable nor a property access; eval, arguments and a deleted identifier stand there; a template refused in an optional chain begins there; an initializer is missed only after an object or array pattern that is written there; and parameters refused in a getter, setter or method are written there and have the fault the error names (parameters or a rest parameter in a getter, a rest parameter or a number other than one in a setter, patterns or default values with \"use strict\", the named parameter twice); a loop refused after 'for await' begins with these words; a declaration is missed only after export or default. No other syntax error is reported.", "quantifier": "every rejected source, goal symbol and source type", "why_tests_cant": "Backtracking, rewinding and reading tokens again in another mode could make an error name a token that is not in the source; all rejected sources matter.", "anchors": ["parser/src/error/mod.rs: Error, ErrorKind", "parser/src/lib.rs: consume_assert, consume_list_delimiter, parse_identifier", "parser/src/cover.rs"]}
