(** * Tokens: keywords, punctuators, token values and tokens.

    Models lexer/src/token.rs and the [FromString] derive of
    macros/src/enum_from_string.rs. *)

From Verif Require Import Base.
Local Open Scope list_scope.

(** lexer/src/token.rs:74-128: [enum Keyword]. *)
Inductive keyword : Set :=
| KAwait
| KAs
| KAsync
| KBreak
| KCase
| KCatch
| KClass
| KConst
| KContinue
| KDebugger
| KDefault
| KDelete
| KDo
| KElse
| KEnum
| KExport
| KExtends
| KFalse
| KFinally
| KFor
| KFrom
| KFunction
| KGet
| KIf
| KImplements
| KImport
| KIn
| KInstanceof
| KInterface
| KLet
| KNew
| KNull
| KOf
| KPackage
| KPrivate
| KProtected
| KPublic
| KReturn
| KSet
| KStatic
| KSuper
| KSwitch
| KTarget
| KThis
| KThrow
| KTrue
| KTry
| KTypeof
| KVar
| KVoid
| KWhile
| KWith
| KYield.

(** macros/src/enum_from_string.rs:41-66, 129-142: [Keyword::as_str]; a variant without a
    [from_string] attribute is spelled as its lower-cased name. *)
Definition keyword_string (k : keyword) : string :=
  match k with
  | KAwait => "await"
  | KAs => "as"
  | KAsync => "async"
  | KBreak => "break"
  | KCase => "case"
  | KCatch => "catch"
  | KClass => "class"
  | KConst => "const"
  | KContinue => "continue"
  | KDebugger => "debugger"
  | KDefault => "default"
  | KDelete => "delete"
  | KDo => "do"
  | KElse => "else"
  | KEnum => "enum"
  | KExport => "export"
  | KExtends => "extends"
  | KFalse => "false"
  | KFinally => "finally"
  | KFor => "for"
  | KFrom => "from"
  | KFunction => "function"
  | KGet => "get"
  | KIf => "if"
  | KImplements => "implements"
  | KImport => "import"
  | KIn => "in"
  | KInstanceof => "instanceof"
  | KInterface => "interface"
  | KLet => "let"
  | KNew => "new"
  | KNull => "null"
  | KOf => "of"
  | KPackage => "package"
  | KPrivate => "private"
  | KProtected => "protected"
  | KPublic => "public"
  | KReturn => "return"
  | KSet => "set"
  | KStatic => "static"
  | KSuper => "super"
  | KSwitch => "switch"
  | KTarget => "target"
  | KThis => "this"
  | KThrow => "throw"
  | KTrue => "true"
  | KTry => "try"
  | KTypeof => "typeof"
  | KVar => "var"
  | KVoid => "void"
  | KWhile => "while"
  | KWith => "with"
  | KYield => "yield"
  end%string.
Definition keyword_str (k : keyword) : str := chars (keyword_string k).

(** The variants in declaration order (the order of the generated [match]). *)
Definition all_keywords : list keyword :=
  [KAwait; KAs; KAsync; KBreak; KCase; KCatch; KClass; KConst; KContinue; KDebugger; KDefault; KDelete; KDo; KElse; KEnum; KExport; KExtends; KFalse; KFinally; KFor; KFrom; KFunction; KGet; KIf; KImplements; KImport; KIn; KInstanceof; KInterface; KLet; KNew; KNull; KOf; KPackage; KPrivate; KProtected; KPublic; KReturn; KSet; KStatic; KSuper; KSwitch; KTarget; KThis; KThrow; KTrue; KTry; KTypeof; KVar; KVoid; KWhile; KWith; KYield].

(** lexer/src/token.rs:179-288: [enum Punctuator]. *)
Inductive punct : Set :=
| PParenOpen
| PParenClose
| PBraceOpen
| PBraceClose
| PBracketOpen
| PBracketClose
| PDot
| PTripleDot
| PSemiColon
| PComma
| PLessThan
| PDoubleLessThan
| PGreaterThan
| PDoubleGreaterThan
| PTripleGreaterThan
| PEqual
| PDoubleEqual
| PLessEqual
| PDoubleLessEqual
| PGreaterEqual
| PDoubleGreaterEqual
| PTripleGreaterEqual
| PEqualGreater
| PNotEqual
| PPlusEqual
| PMinusEqual
| PStarEqual
| PDoubleStarEqual
| PSlashEqual
| PPercentEqual
| PPipeEqual
| PCaretEqual
| PAmpersandEqual
| PTripleEqual
| PExclamationDoubleEqual
| PPlus
| PDoublePlus
| PMinus
| PDoubleMinus
| PStar
| PDoubleStar
| PSlash
| PPercent
| PAmpersand
| PDoubleAmpersand
| PPipe
| PDoublePipe
| PCaret
| PExclamation
| PTilde
| PQuestionMark
| PDoubleQuestionMark
| PQuestionMarkDot
| PColon.

(** macros/src/enum_from_string.rs:41-66: [Punctuator::as_str]. *)
Definition punct_string (p : punct) : string :=
  match p with
  | PParenOpen => "("
  | PParenClose => ")"
  | PBraceOpen => "["
  | PBraceClose => "]"
  | PBracketOpen => "{"
  | PBracketClose => "}"
  | PDot => "."
  | PTripleDot => "..."
  | PSemiColon => ";"
  | PComma => ","
  | PLessThan => "<"
  | PDoubleLessThan => "<<"
  | PGreaterThan => ">"
  | PDoubleGreaterThan => ">>"
  | PTripleGreaterThan => ">>>"
  | PEqual => "="
  | PDoubleEqual => "=="
  | PLessEqual => "<="
  | PDoubleLessEqual => "<<="
  | PGreaterEqual => ">="
  | PDoubleGreaterEqual => ">>="
  | PTripleGreaterEqual => ">>>="
  | PEqualGreater => "=>"
  | PNotEqual => "!="
  | PPlusEqual => "+="
  | PMinusEqual => "-="
  | PStarEqual => "*="
  | PDoubleStarEqual => "**="
  | PSlashEqual => "/="
  | PPercentEqual => "%="
  | PPipeEqual => "|="
  | PCaretEqual => "^="
  | PAmpersandEqual => "&="
  | PTripleEqual => "==="
  | PExclamationDoubleEqual => "!=="
  | PPlus => "+"
  | PDoublePlus => "++"
  | PMinus => "-"
  | PDoubleMinus => "--"
  | PStar => "*"
  | PDoubleStar => "**"
  | PSlash => "/"
  | PPercent => "%"
  | PAmpersand => "&"
  | PDoubleAmpersand => "&&"
  | PPipe => "|"
  | PDoublePipe => "||"
  | PCaret => "^"
  | PExclamation => "!"
  | PTilde => "~"
  | PQuestionMark => "?"
  | PDoubleQuestionMark => "??"
  | PQuestionMarkDot => "?."
  | PColon => ":"
  end%string.
Definition punct_str (p : punct) : str := chars (punct_string p).

(** The variants in declaration order. *)
Definition all_puncts : list punct :=
  [PParenOpen; PParenClose; PBraceOpen; PBraceClose; PBracketOpen; PBracketClose; PDot; PTripleDot; PSemiColon; PComma; PLessThan; PDoubleLessThan; PGreaterThan; PDoubleGreaterThan; PTripleGreaterThan; PEqual; PDoubleEqual; PLessEqual; PDoubleLessEqual; PGreaterEqual; PDoubleGreaterEqual; PTripleGreaterEqual; PEqualGreater; PNotEqual; PPlusEqual; PMinusEqual; PStarEqual; PDoubleStarEqual; PSlashEqual; PPercentEqual; PPipeEqual; PCaretEqual; PAmpersandEqual; PTripleEqual; PExclamationDoubleEqual; PPlus; PDoublePlus; PMinus; PDoubleMinus; PStar; PDoubleStar; PSlash; PPercent; PAmpersand; PDoubleAmpersand; PPipe; PDoublePipe; PCaret; PExclamation; PTilde; PQuestionMark; PDoubleQuestionMark; PQuestionMarkDot; PColon].

Scheme Equality for keyword.
Scheme Equality for punct.

(** macros/src/enum_from_string.rs:17-39: [FromStr for Keyword], the first
    variant whose string equals the argument. *)
Definition keyword_from_str (s : str) : option keyword :=
  find (fun k => str_eqb (keyword_str k) s) all_keywords.

(** macros/src/enum_from_string.rs:17-39: [FromStr for Punctuator]. *)
Definition punct_from_str (s : str) : option punct :=
  find (fun p => str_eqb (punct_str p) s) all_puncts.

(** lexer/src/token.rs:45-53: [bitflags KeywordContext] as one bool per flag. *)
Record kctx := mk_kctx { kc_await : bool; kc_yield : bool; kc_strict : bool }.

(** lexer/src/token.rs:130-158: [Keyword::is_allowed_as_identifier]. *)
Definition is_allowed_as_identifier (k : keyword) (c : kctx) : bool :=
  match k with
  | KAs | KAsync | KFrom | KGet | KOf | KSet | KTarget => true
  | KAwait => negb (kc_await c)
  | KYield => negb (kc_yield c || kc_strict c)
  | KImplements | KInterface | KLet | KPackage | KPrivate | KProtected | KPublic
  | KStatic => negb (kc_strict c)
  | _ => false
  end.

(** Literals a token can carry: the [Literal] variants of ast/src/literal.rs:3-14
    the lexer produces.  [TLTemplate s] stands for
    [Literal::Template(LitTemplate { parts: vec![TemplatePart::String(s)] })]
    (lexer/src/lib.rs:376-378). *)
Inductive tlit : Set :=
| TLString (value : str) (delimiter : N)
| TLNumber (raw : str)
| TLRegexp (s : str)
| TLTemplate (s : str).

(** lexer/src/token.rs:320-329: [enum TokenValue]. *)
Inductive tvalue : Set :=
| VKeyword (k : keyword)
| VIdentifier (s : str)
| VPunct (p : punct)
| VLiteral (l : tlit)
| VTemplateHead (s : str)
| VTemplateMiddle (s : str)
| VTemplateTail (s : str).

(** lexer/src/token.rs:331-336: [struct Token]. *)
Record token := mk_token { t_value : tvalue; t_fol : bool; t_span : span }.

Definition tlit_eq_dec (a b : tlit) : {a = b} + {a <> b}.
Proof. decide equality; solve [apply N.eq_dec | apply (list_eq_dec N.eq_dec)]. Defined.

Definition tvalue_eq_dec (a b : tvalue) : {a = b} + {a <> b}.
Proof.
  decide equality;
    solve [apply keyword_eq_dec | apply punct_eq_dec | apply tlit_eq_dec
          | apply (list_eq_dec N.eq_dec)].
Defined.

Definition span_eq_dec (a b : span) : {a = b} + {a <> b}.
Proof. decide equality; apply Nat.eq_dec. Defined.

Definition token_eq_dec (a b : token) : {a = b} + {a <> b}.
Proof. decide equality; [apply span_eq_dec | apply bool_dec | apply tvalue_eq_dec]. Defined.

(** [token_matches!(t, keyword!(..))], [token_matches!(t, punct!(..))]
    (lexer/src/token.rs:5-43). *)
Definition is_kw (k : keyword) (t : token) : bool :=
  match t_value t with VKeyword k' => keyword_beq k k' | _ => false end.
Definition is_punct (p : punct) (t : token) : bool :=
  match t_value t with VPunct p' => punct_beq p p' | _ => false end.

Definition tstart (t : token) : nat := sp_start (t_span t).
Definition tend (t : token) : nat := sp_end (t_span t).
