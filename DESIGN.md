# A formal model of FelixStridsberg/fajt in Coq 8.16

The model is in `rocq/theories`. It covers the crates a user calls - the lexer, the parser, the
syntax tree with its traversal and span text form, the error emitter, the code generator and the
command line program - function by function; the theorems about it are in the files named `Prop*.v`
(and `SpanSerde.v`, `Shape.v`), each property `Cnn` as theorems `Cnn_*`. `MANIFEST.json` lists them.

A theorem `Cnn_*_refuted` proves that (part of) the property is *false* of the code, with a concrete
input; a theorem `Cnn_*_partial` proves the property under the hypotheses or with the omissions that
its comment, and the section *Properties* below, state.

## 1. Trusted base

1. **Coq's kernel** (8.16.1), including its `vm_compute` reduction machine, which evaluates the model in
   instances and witnesses. No native compilation, no plugins, no extraction in the build.
2. **Axioms: none.** Every file with claims ends in a `Print Assumptions` of all of them together
   (`round_theorems`, `complete_theorems`, ...), which prints `Closed under the global context`. The only
   libraries used are Coq's standard library (lists, strings, `N`, `nat`, `lia`). (The axiom list vcheck
   prints for the whole development contains `Coq.ssr.ssrunder.*`: these are fields of a module type of the
   standard distribution, loaded with `lia`; no theorem depends on them.)
3. **The model is what the code does.** It was written by reading `/repo`; nothing was run. Every definition
   carries the file and lines it models and says where it simplifies. Section 3 lists the deviations.
4. **The specifications say what the English says.** They are small and separate from the model: `LexSpec.v`
   (lexical grammar), `Source.v` (division of a source into tokens), `Written.v` (grammar of programs and the
   trees they stand for), `Layout.v` (how a tree is written), `AstSpec.v` (strict code, enclosing functions,
   ...), `Sorts.v` (types of the fields), `Unparse.v` (tokens a tree is printed as; what the printer can print).
5. **The class `Platform`** (`Lexer.v`) is a parameter of the model, not an axiom: the two Unicode identifier
   tables, `char::is_alphanumeric` and whether debug assertions are compiled in. Its fields include the facts
   about these tables the proofs use: their values below 128, that an identifier start can continue an
   identifier, that blanks and line terminators cannot. `ascii_platform` (`PropLexer.v`: `ap`) is an instance, so
   the laws are consistent; instances and witnesses are evaluated in it.

## 2. What is modelled

| Rust | Coq |
|---|---|
| `common/src/io.rs` (`PeekReader`), `common/src/io/char_reader.rs` | `PeekReader.v`, `CharReader.v` |
| `lexer/src/token.rs`, `macros/src/enum_from_string.rs` (the tables it generates) | `Tokens.v` |
| `lexer/src/{lib,number,string,regexp,unicode_escape_sequence,code_point,error}.rs` | `Lexer.v` |
| `ast/src/*.rs` (all node types) | `Ast.v`, `Sorts.v` |
| `parser/src/*.rs`, `parser/src/static_semantics/*`, `parser/src/error/mod.rs` | `Prog.v` (parser state, interpreter), `Parser.v` |
| `parser/src/error/emitter.rs` | `Emitter.v` |
| `ast/src/span.rs` (serde form) | `SpanSerde.v`, `Numeral.v` (decimal numbers) |
| `ast/src/traverse/{mod,macros}.rs` | `Traverse.v`, `Mutate.v` |
| `codegen/src/lib.rs` | `Codegen.v` |
| `src/main.rs` | `Cli.v` |

Not modelled: `macros/src/for_each_file.rs`, `testing/` and `tests/` (test support), `build.rs`, the derived
`Debug`/`Serialize` of the tree (other than `Span`), clap's parsing of the command line, file reading, terminal
output errors.

### Method

* Characters are code points (`N`), sources are lists of them, positions are `nat`. `blen` is the length in UTF-8.
* `&mut self` with `Result` is a state-and-error monad; a panic is a separate outcome. Loops run on fuel;
  running out of fuel is an outcome of its own, proved never to occur with the fuel supplied (C01, C14).
* The parser is a deep embedding: each Rust method is a nonterminal whose body is a program over a few
  operations on the token stream (`Prog.v`); an interpreter runs them. Contracts per method and one theorem by
  induction on executions give what is true of every run: soundness against the grammar of `Grammar.v`
  (`Par1-6`, `AllOk`), from which C16-C30 and C37 follow. In the other direction `Forward.v`, `Fwd1-10`, `FwdAsg` and
  `Complete.v` run the parser on every program that `Written.v` derives, by induction on the derivation (C41).

## 3. Simplifications

* **Sizes.** `usize` is `nat`: no overflow; memory and stack are unbounded (C14 bounds the depth of recursion).
* **Lexer.** The `Peekable<CharIndices>` of the character reader is the rest of the text with a byte index. A slice
  or seek inside a character panics, as in Rust. Error messages are kept as texts, `Display` of errors is not
  modelled.
* **Parser.** `Rc`, boxing and cloning are ignored. `Context` is a record of flags. The parser's positions, rewinding,
  and the temporary lexer states (including what an error leaves behind, finding 2) are modelled exactly.
* **Emitter.** What is written is a text; errors of the underlying writer do not occur. The `Debug` text of a token
  in a message is a parameter (`no_debug` in instances).
* **Traversal.** A visitor decides from what it has seen whether to enter a node (`Visit`/`Skip`); the model yields the
  events it sees (`Traverse.v`). Visitors that change what they are handed are in `Mutate.v`; what comes back has the
  type of what was handed out, otherwise it is ignored (Rust's types rule this out).
* **Generator.** The visitor's calls are flattened to the sequence of printer operations of each node (`gen`);
  `skip_next_separation` is folded into `gen`. A subtraction that would underflow sets `g_fault`.
* **Spans.** `Span` parsing uses a model of Rust's `usize::from_str` and `Display` (`Numeral.v`).
* **Command line.** The options and the file contents are arguments of `main`; the tree printed without `--format`
  is a parameter.

## 4. Properties

*proved*: for all inputs the property ranges over. *partial*: the part proved, then what is missing; where the missing
part is false of the code there is a theorem `_refuted` with a witness.

**Lexer** (`PropLexer.v`; specification `LexSpec.v`; `LexSound*` and `LexComplete*` prove that `read` returns a
token exactly if the specification allows it).

* C01, C02, C03, C05, C06, C07, C11, C12, C13 - proved. C12 for ASCII sources, since beyond ASCII a rewind may panic (C04).
* C04 - refuted (`len_utf16` is added to a byte index); proved: positions are boundaries exactly if no character before
  takes more bytes than UTF-16 units.
* C08 - partial: ECMAScript's restrictions on separators next to a prefix, dot or exponent are not enforced (refuted).
* C09 - partial: delimiting is exact; the stored value drops the backslash of an escape (refuted).
* C10 - partial: delimiting is exact; a class may contain a line terminator (refuted).

**Parser** (`PropParser.v`, `PropAst.v`, `PropBacktrack.v`, `Shape.v`; specifications `Layout.v`, `AstSpec.v`, `Sorts.v`).

* C14, C16, C17, C19, C23, C37 - proved.
* C15 - refuted for three kinds of input (one of them only in debug builds), proved for all other ASCII input.
* C18 - partial: two deviations of the tree (holes of array assignment patterns, inherited method flags), refuted.
* C20 - C22, C24 - C28: partial, each missing clause is false of the code and refuted.
* C29 - partial: the tree is the unique one; `**` associates to the left, `-a ** b` and `a ?? b || c` are accepted (refuted).
* C30 - partial: one module error has a reversed span, and spans may split a non-ASCII character (refuted).
* C36 - refuted in general; partial: holds for sources without `/`, template and `<!`.

**Completeness** (`PropComplete.v`; specification `Written.v`, `Source.v`).

* C40 - sources that differ in layout only, one of them derivable: both are accepted, with the same tree up to positions.
* C41 - partial: every ASCII source whose division into tokens `Written.v` derives is accepted, as the tree that the
  grammar gives; so the grammar is unambiguous. The grammar leaves out: `let` and `async` as names of variables,
  `yield` without operand, calls `async(..)`. It lists a regular expression as its `/` and the
  expression, and the rest of a template as its `}` and the rest, which is how the parser meets them. Valid programs
  the parser rejects: `C41_scripts_refuted`, `C41_modules_refuted`.

**Other parts.**

* C44 (`PropErrors.v`) - proved: the errors that name something name what stands at their span. Proof: the contract of
  every parser method (`Contract.v`) says so of its errors (`says`); tokens are read again only where they were read.
  A lexical error: after a chain of tokens the lexer is stuck (`TokChain.v`: neither a token of `LexSpec.v` nor the end
  follows in that state; by completeness of the lexer). Early errors: what is refused is written at the span (`fits`,
  as in C40) and has the fault named, stated on the tree (`simple_params`, `params_names`, `assignable`). All texts
  of syntax errors are listed (`C44_messages`) and covered. `C44_token_text` turns "the token stands there" into text.
* C31 (`PropEmitter.v`) - partial: the report is determined for every span, and is as claimed for spans within a line of
  ASCII text; for the others the claim is refuted. Where a token was expected the report quotes the text of
  the token found (`C31_expected_token`).
* C32 (`SpanSerde.v`) - round trip for all spans; the strings on which deserialising panics are characterised exactly
  (so "never panics" is refuted).
* C33 (`PropTraverse.v`) - partial: nesting and skipping for all visitors and trees; everything once and in order for
  trees without six constructs, each refuted.
* C34, C35 (`PropRound.v`, `PropCodegen.v`; specification `Unparse.v`) - refuted in general; proved for programs that
  `Written.v` derives (with regular expressions and templates with substitutions), in ASCII, without backslash
  outside regular expressions, if the tree is printable (`node_ok`: none of the constructs the printer writes wrongly) and no two neighbouring tokens run
  together (`tokens_apart`). Proof: the printer's calls write the tokens of `Unparse.v` (`Print`, `PrintNode`), the
  grammar derives those tokens again with the same tree (`PrintShape`, `Regen`), and C41.
* C38, C39 (`PropCodegen.v`) - proved for all trees.
* C43 (`PropMutate.v`, model `Mutate.v`) - partial: a visitor that changes nothing leaves the tree and gets the calls of
  C33; skipping; the visitor that maps identifiers on entry and expressions on exit computes the structural map
  (`rewritten`) on all well-typed trees without five constructs, each refuted. That every traversal ends is refuted for
  a visitor that wraps on entry. Proof: induction over the fuel with the height of the tree.
* C42 (`PropCli.v`) - partial: exit codes and outputs for all inputs; crashes on modules refuted; stability of the
  formatter under the hypotheses of C34.

## 5. Tests of the theorems

`seeded/LOG.jsonl` records wrong programs: an edit of a definition of the model, the claim it breaks, and the
theorems that no longer build. Survivors led to new or stronger theorems (field `tightened`).
