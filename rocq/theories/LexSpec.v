(** * LexSpec: what the lexical grammar accepts, declaratively.

    Relations on plain text, independent of the lexer's functions: trivia,
    lexemes, and a token of a source.  The theorems of [PropLexer.v] relate
    the lexer model to these. *)

From Verif Require Import Base Tokens Lexer.
Local Open Scope string_scope.
Local Open Scope list_scope.

(** ** Character classes *)

(** ECMAScript LineTerminator: LF, CR, LS, PS. *)
Definition line_term (c : N) : Prop := In c [0xA; 0xD; 0x2028; 0x2029]%N.

(** ECMAScript WhiteSpace: TAB VT FF SP NBSP ZWNBSP and category Zs. *)
Definition white_space (c : N) : Prop :=
  In c [0x9; 0xB; 0xC; 0x20; 0xA0; 0xFEFF; 0x1680; 0x2000; 0x2001; 0x2002; 0x2003; 0x2004;
        0x2005; 0x2006; 0x2007; 0x2008; 0x2009; 0x200A; 0x202F; 0x205F; 0x3000]%N.

Definition digit (c : N) : Prop := In c (chars "0123456789").
Definition hex_digit (c : N) : Prop := In c (chars "0123456789abcdefABCDEF").
Definition octal_digit (c : N) : Prop := In c (chars "01234567").
Definition binary_digit (c : N) : Prop := In c (chars "01").
Definition letter (c : N) : Prop :=
  In c (chars "abcdefghijklmnopqrstuvwxyzABCDEFGHIJKLMNOPQRSTUVWXYZ").

(** The text starts with a character of class [P]. *)
Definition starts (P : N -> Prop) (s : str) : Prop := exists c s', s = c :: s' /\ P c.
(** The text starts with the literal [p]. *)
Definition prefix (p s : str) : Prop := exists s', s = p ++ s'.

Definition no_line_term (s : str) : Prop := forall c, In c s -> ~ line_term c.
Definition has_line_term (s : str) : Prop := exists c, In c s /\ line_term c.

(** [p] occurs in [s]. *)
Definition occurs (p s : str) : Prop := exists a b, s = a ++ p ++ b.

Section WithPlatform.
Context {PF : Platform}.

Definition id_start_char (c : N) : Prop :=
  letter c \/ c = ch "_" \/ c = ch "$" \/ id_start c = true.
Definition id_part_char (c : N) : Prop :=
  letter c \/ digit c \/ c = ch "_" \/ c = ch "$" \/ c = 0x200C%N \/ c = 0x200D%N \/
  id_continue c = true.

(** ** Trivia *)

(** One piece of trivia.  [piece html f s after f'] : [s], followed in the
    source by [after], is one white space character, one line terminator or
    one comment; [f] and [f'] say whether a line terminator was passed before
    and after it.  [html]: the html-like comments of Annex B are allowed. *)
Inductive piece (html : bool) : bool -> str -> str -> bool -> Prop :=
| piece_space f c after : white_space c -> piece html f [c] after f
| piece_newline f c after : line_term c -> piece html f [c] after true
| piece_line f opener body c after :
    line_comment_open html f opener -> no_line_term body -> line_term c ->
    piece html f (opener ++ body ++ [c]) after true
| piece_line_at_end f opener body :
    line_comment_open html f opener -> no_line_term body ->
    piece html f (opener ++ body) [] true
| piece_block f body after f' :
    (forall a b, body ++ chars "*" = a ++ chars "*/" ++ b -> False) ->
    (f' = true <-> f = true \/ has_line_term body) ->
    piece html f (chars "/*" ++ body ++ chars "*/") after f'
(** What opens a comment that runs to the end of the line: [//] always,
    [<!] and, at the start of a line, [-->] where html-like comments are allowed. *)
with line_comment_open (html : bool) : bool -> str -> Prop :=
| open_slashes f : line_comment_open html f (chars "//")
| open_html f : html = true -> line_comment_open html f (chars "<!")
| open_html_close : html = true -> line_comment_open html true (chars "-->").

Inductive trivia (html : bool) : bool -> str -> str -> bool -> Prop :=
| trivia_nil f after : trivia html f [] after f
| trivia_cons f s1 s2 after f1 f2 :
    piece html f s1 (s2 ++ after) f1 -> trivia html f1 s2 after f2 ->
    trivia html f (s1 ++ s2) after f2.

(** The text starts with something that is, or may be, a comment. *)
Definition starts_comment (s : str) : Prop :=
  prefix (chars "//") s \/ prefix (chars "/*") s \/ prefix (chars "<!") s.

(** ** Lexemes *)

(** *** Punctuators *)

(** Punctuator [q] is spelled by a prefix of [s]; [?.] before a digit is not
    a punctuator. *)
Definition punct_prefix (q : punct) (s : str) : Prop :=
  exists s', s = punct_str q ++ s' /\ ~ (q = PQuestionMarkDot /\ starts digit s').

(** [p] is the longest punctuator at the start of [s]. *)
Definition longest_punct (p : punct) (s : str) : Prop :=
  punct_prefix p s /\
  forall q, punct_prefix q s -> length (punct_str q) <= length (punct_str p).

(** *** Words *)

Definition hex_val (c : N) : N :=
  if N.leb c 57 then (c - 48)%N else if N.leb 97 c then (c - 87)%N else (c - 55)%N.
Fixpoint hex_num (acc : N) (s : str) : N :=
  match s with [] => acc | c :: s' => hex_num (acc * 16 + hex_val c)%N s' end.

Definition scalar_value (n : N) : Prop :=
  (n <= 0xD7FF)%N \/ ((0xE000 <= n)%N /\ (n <= 0x10FFFF)%N).

(** An escape [\uXXXX] or [\u{X...}] denoting the character [c]. *)
Inductive unicode_escape : str -> N -> Prop :=
| ue_4 h :
    length h = 4 -> (forall c, In c h -> hex_digit c) -> scalar_value (hex_num 0 h) ->
    unicode_escape (chars "\u" ++ h) (hex_num 0 h)
| ue_braces h :
    h <> [] -> (forall c, In c h -> hex_digit c) -> scalar_value (hex_num 0 h) ->
    unicode_escape (chars "\u{" ++ h ++ chars "}") (hex_num 0 h).

(** The remaining characters of a word, raw or escaped, and what they denote. *)
Inductive word_tail : str -> str -> Prop :=
| wt_nil : word_tail [] []
| wt_char c w v : id_part_char c -> word_tail w v -> word_tail (c :: w) (c :: v)
| wt_escape e c w v : unicode_escape e c -> id_part_char c -> word_tail w v ->
    word_tail (e ++ w) (c :: v).

(** A word (IdentifierName) and its StringValue. *)
Inductive word : str -> str -> Prop :=
| word_char c w v : id_start_char c -> word_tail w v -> word (c :: w) (c :: v)
| word_escape e c w v : unicode_escape e c -> id_start_char c -> word_tail w v ->
    word (e ++ w) (c :: v).

(** The token value of a word: a keyword exactly when it is one of the spellings. *)
Definition word_value (v : str) (tv : tvalue) : Prop :=
  (exists k, v = keyword_str k /\ tv = VKeyword k) \/
  ((forall k, v <> keyword_str k) /\ tv = VIdentifier v).

(** *** Numbers *)

(** Digits of class [P] with separators: no two adjacent ones, none at the end. *)
Definition digits_sep (P : N -> Prop) (s : str) : Prop :=
  (forall c, In c s -> P c \/ c = ch "_") /\
  ~ occurs (chars "__") s /\
  (forall s', s <> s' ++ chars "_").

Inductive radix_prefix : str -> (N -> Prop) -> Prop :=
| rp_hex x : In x (chars "xX") -> radix_prefix [ch "0"; x] hex_digit
| rp_octal x : In x (chars "oO") -> radix_prefix [ch "0"; x] octal_digit
| rp_binary x : In x (chars "bB") -> radix_prefix [ch "0"; x] binary_digit.

(** Fraction and exponent of a decimal literal (possibly absent, [[]]). *)
Inductive fraction : str -> Prop :=
| fr_none : fraction []
| fr_some s : digits_sep digit s -> fraction (chars "." ++ s).
Inductive exponent : str -> Prop :=
| ex_none : exponent []
| ex_some e sign s : In e (chars "eE") -> In sign [[]; chars "+"; chars "-"] -> s <> [] ->
    digits_sep digit s -> exponent ([e] ++ sign ++ s).

(** [number s after]: [s] is a numeric literal when followed by [after]. *)
Inductive number : str -> str -> Prop :=
| number_radix p P s after :
    radix_prefix p P -> s <> [] -> digits_sep P s ->
    ~ starts P after ->
    number (p ++ s) after
| number_decimal i f e after :
    digits_sep digit i -> fraction f -> exponent e ->
    starts digit i \/ (i = [] /\ exists s, f = chars "." ++ s /\ starts digit s) ->
    (forall s, i = ch "0" :: s -> ~ starts digit s) ->
    ~ starts digit after -> (f = [] -> e = [] -> ~ prefix (chars ".") after) ->
    number (i ++ f ++ e) after.

(** *** Strings, templates, regular expressions *)

(** Between the quotes [q] of a string: raw text and the value stored. *)
Inductive string_body (q : N) : str -> str -> Prop :=
| sb_nil : string_body q [] []
| sb_char c s v : c <> q -> c <> ch "\" -> c <> 0xA%N -> c <> 0xD%N ->
    string_body q s v -> string_body q (c :: s) (c :: v)
| sb_escape c s v : string_body q s v -> string_body q (ch "\" :: c :: s) (c :: v)
| sb_escape_crlf s v : string_body q s v ->
    string_body q (ch "\" :: 0xD%N :: 0xA%N :: s) (0xD%N :: 0xA%N :: v).

(** The characters of a template chunk, followed by [after] (its terminator). *)
Inductive template_body (after : str) : str -> str -> Prop :=
| tb_nil : template_body after [] []
| tb_char c s v : c <> ch "`" -> c <> ch "\" ->
    (c = ch "$" -> ~ prefix (chars "{") (s ++ after)) ->
    template_body after s v -> template_body after (c :: s) (c :: v)
| tb_escape c s v : template_body after s v ->
    template_body after (ch "\" :: c :: s) (c :: v).

(** A chunk with its terminator; [true]: a substitution [${] follows. *)
Inductive template_chunk : str -> str -> bool -> Prop :=
| tc_end s v : template_body (chars "`") s v -> template_chunk (s ++ chars "`") v false
| tc_subst s v : template_body (chars "${") s v -> template_chunk (s ++ chars "${") v true.

(** Inside the brackets of a regexp class. *)
Inductive class_body : str -> Prop :=
| cb_nil : class_body []
| cb_char c s : c <> ch "]" -> c <> ch "\" -> class_body s -> class_body (c :: s)
| cb_escape c s : class_body s -> class_body (ch "\" :: c :: s).

(** Between the slashes of a regexp. *)
Inductive regexp_body : str -> Prop :=
| rb_nil : regexp_body []
| rb_char c s : c <> 0xA%N -> c <> ch "/" -> c <> ch "\" -> c <> ch "[" ->
    regexp_body s -> regexp_body (c :: s)
| rb_escape c s : c <> 0xA%N -> regexp_body s -> regexp_body (ch "\" :: c :: s)
| rb_class k s : class_body k -> regexp_body s ->
    regexp_body (chars "[" ++ k ++ chars "]" ++ s).

(** *** All lexemes *)

(** [lexeme st s after v]: [s], followed by [after], is one lexeme with token
    value [v]; [st] says whether a [/] starts a regular expression. *)
Inductive lexeme (st : lexer_state) : str -> str -> tvalue -> Prop :=
| lexeme_punct p after :
    longest_punct p (punct_str p ++ after) ->
    (p = PDot -> ~ starts digit after /\ ~ prefix (chars ".") after) ->
    (regex_allowed st = true -> p <> PSlash /\ p <> PSlashEqual) ->
    lexeme st (punct_str p) after (VPunct p)
| lexeme_word s v tv after :
    word s v -> word_value v tv ->
    ~ starts id_part_char after -> ~ prefix (chars "\") after ->
    lexeme st s after tv
| lexeme_number s after :
    number s after -> ~ starts id_start_char after ->
    lexeme st s after (VLiteral (TLNumber s))
| lexeme_string q s v after :
    q = 34%N \/ q = 39%N -> string_body q s v ->
    lexeme st ([q] ++ s ++ [q]) after (VLiteral (TLString v q))
| lexeme_template_plain s v after :
    template_chunk s v false ->
    lexeme st (chars "`" ++ s) after (VLiteral (TLTemplate v))
| lexeme_template_head s v after :
    template_chunk s v true ->
    lexeme st (chars "`" ++ s) after (VTemplateHead v)
| lexeme_regexp s flags after :
    regex_allowed st = true -> regexp_body s ->
    (forall c, In c flags -> id_part_char c) -> ~ starts id_part_char after ->
    lexeme st (chars "/" ++ s ++ chars "/" ++ flags) after
      (VLiteral (TLRegexp (chars "/" ++ s ++ chars "/" ++ flags))).

(** The chunk after the [}] of a substitution. *)
Inductive template_continue : str -> tvalue -> Prop :=
| tcont_tail s v : template_chunk s v false ->
    template_continue (chars "}" ++ s) (VTemplateTail v)
| tcont_middle s v : template_chunk s v true ->
    template_continue (chars "}" ++ s) (VTemplateMiddle v).

(** ** Tokens of a source *)

(** The position the reader reports when the text [pre] has been read: the
    byte offset of its last character plus that character's length in UTF-16
    units (for ASCII text simply the offset of the end). *)
Definition rpos (pre : str) : nat :=
  match pre with
  | [] => 0
  | _ => blen (removelast pre) + len16 (last pre 0%N)
  end.

(** [lexed D st pre f t pre' f']: in source [D], after the text [pre] has been
    read (with [f]: a line terminator was passed since the last token), the
    next token is [t], after which [pre'] has been read. *)
Inductive lexed (D : str) (st : lexer_state) (pre : str) (f : bool)
  : token -> str -> bool -> Prop :=
| lexed_intro gap s after v f1 :
    inside_template st = false ->
    D = pre ++ gap ++ s ++ after ->
    trivia (html_comment_allowed st) f gap (s ++ after) f1 ->
    ~ starts_comment (s ++ after) ->
    lexeme st s after v ->
    (f1 = true -> v = VPunct PDoubleMinus -> ~ prefix (chars ">") after) ->
    lexed D st pre f
      (mk_token v f1 (mk_span (rpos (pre ++ gap)) (rpos (pre ++ gap ++ s))))
      (pre ++ gap ++ s) false.

(** Reading the chunk after a substitution, from just before its [}]. *)
Inductive lexed_template (D pre : str) (f : bool) : token -> str -> bool -> Prop :=
| lexed_template_intro s after v :
    D = pre ++ s ++ after -> template_continue s v ->
    lexed_template D pre f (mk_token v false (mk_span (rpos pre) (rpos (pre ++ s))))
      (pre ++ s) f.

(** A whole source read in one state: its tokens, from [pre] on. *)
Inductive tokens_from (D : str) (st : lexer_state) : str -> bool -> list token -> Prop :=
| tf_end pre f gap f' :
    D = pre ++ gap -> trivia (html_comment_allowed st) f gap [] f' ->
    tokens_from D st pre f []
| tf_token pre f t pre' f' ts :
    lexed D st pre f t pre' f' -> tokens_from D st pre' f' ts ->
    tokens_from D st pre f (t :: ts).

End WithPlatform.

(** A concrete platform: ASCII identifiers only. *)
Definition ascii_letter (c : N) : bool := (in_range 65 90 c || in_range 97 122 c)%bool.
Definition ascii_id_part (c : N) : bool :=
  (in_range 48 57 c || in_range 65 90 c || N.eqb c 95 || in_range 97 122 c)%bool.
Definition ascii_alnum (c : N) : bool :=
  (in_range 48 57 c || in_range 65 90 c || in_range 97 122 c)%bool.
Program Definition ascii_platform (debug : bool) : Platform :=
  {| id_start := ascii_letter; id_continue := ascii_id_part; alphanumeric := ascii_alnum;
     debug_assertions := debug |}.
Next Obligation.
  unfold ascii_letter in H. unfold ascii_id_part.
  destruct (in_range 48 57 c), (in_range 65 90 c), (N.eqb c 95), (in_range 97 122 c);
    simpl in *; congruence.
Qed.
Next Obligation.
  simpl in H. repeat (destruct H as [<-|H]; [reflexivity|]). destruct H.
Qed.
