(** * Lexer: the tokenizer, function by function.

    Models lexer/src/lib.rs, number.rs, string.rs, regexp.rs,
    unicode_escape_sequence.rs, code_point.rs and error.rs.

    A method taking [&mut self] is a function [lexer -> lres A * lexer] (the
    state is also returned on errors).  [?] is [bind].  Loops run on fuel
    (the number of remaining characters plus one, at loop entry); running out
    of fuel is the distinct outcome [LNoFuel], excluded by
    [LexerFacts.read_no_abort].  [unwrap], [debug_assert] and slice indexing
    that may panic are the explicit outcome [LPanic]. *)

From Verif Require Import Base Tokens PeekReader CharReader.
Local Open Scope string_scope.
Local Open Scope list_scope.

(** What the model leaves to the platform: the Unicode tables of the
    [unicode_id] crate and of [char::is_alphanumeric], and whether the crate
    was compiled with debug assertions.  The laws are facts about the
    Unicode tables: ID_Continue contains ID_Start; of ASCII, ID_Start has the
    letters only, ID_Continue letters, digits and [_], and the alphanumeric
    characters are the letters and digits; ID_Continue has no white space and
    no line terminator.  [ascii_platform] (LexSpec.v) is a concrete instance. *)
Class Platform := {
  id_start : N -> bool;          (* UnicodeID::is_id_start *)
  id_continue : N -> bool;       (* UnicodeID::is_id_continue *)
  alphanumeric : N -> bool;      (* char::is_alphanumeric *)
  debug_assertions : bool;       (* cfg(debug_assertions) *)
  id_start_continue : forall c, id_start c = true -> id_continue c = true;
  id_continue_table : forall c, (c < 128)%N ->
    id_continue c = (in_range 48 57 c || in_range 65 90 c || N.eqb c 95 || in_range 97 122 c)%bool;
  id_start_table : forall c, (c < 128)%N ->
    id_start c = (in_range 65 90 c || in_range 97 122 c)%bool;
  alphanumeric_table : forall c, (c < 128)%N ->
    alphanumeric c = (in_range 48 57 c || in_range 65 90 c || in_range 97 122 c)%bool;
  id_continue_blank : forall c,
    In c [0xA0; 0xFEFF; 0x1680; 0x2000; 0x2001; 0x2002; 0x2003; 0x2004; 0x2005; 0x2006; 0x2007;
          0x2008; 0x2009; 0x200A; 0x202F; 0x205F; 0x3000; 0x2028; 0x2029]%N -> id_continue c = false
}.

Lemma id_continue_ascii `{PF : Platform} c : (c < 128)%N -> id_continue c = true ->
  (in_range 48 57 c || in_range 65 90 c || N.eqb c 95 || in_range 97 122 c)%bool = true.
Proof. intros H. now rewrite (id_continue_table c H). Qed.

Lemma id_start_ascii `{PF : Platform} c : (c < 128)%N -> id_start c = true ->
  (in_range 65 90 c || in_range 97 122 c)%bool = true.
Proof. intros H. now rewrite (id_start_table c H). Qed.

(** ** Errors (lexer/src/error.rs) *)

(** lexer/src/error.rs:18-27: [enum ErrorKind].  [ForbiddenIdentifier] is
    never constructed by the lexer or the parser. *)
Inductive lex_error_kind : Set :=
| EKInvalidOrUnexpectedToken (t : token)
| EKUnrecognizedCodePoint (c : N)
| EKSyntaxError (msg : string)
| EKUnexpectedEndOfStream
| EKEndOfStream.

(** lexer/src/error.rs:12-16: [struct Error]. *)
Record lex_error := mk_lex_error { le_span : span; le_kind : lex_error_kind }.

(** lexer/src/error.rs:30-64: the constructors. *)
Definition end_of_stream : lex_error := mk_lex_error span_empty EKEndOfStream.
Definition unexpected_end_of_stream : lex_error :=
  mk_lex_error span_empty EKUnexpectedEndOfStream.
Definition invalid_or_unexpected_token (t : token) : lex_error :=
  mk_lex_error (t_span t) (EKInvalidOrUnexpectedToken t).
Definition unrecognized_code_point (c : N) (a b : nat) : lex_error :=
  mk_lex_error (mk_span a b) (EKUnrecognizedCodePoint c).
Definition lex_syntax_error (msg : string) (a b : nat) : lex_error :=
  mk_lex_error (mk_span a b) (EKSyntaxError msg).

(** How a lexer function can fail: an [Err], a panic, or the model's fuel. *)
Inductive lfail : Set :=
| LFail (e : lex_error)
| LPanic
| LNoFuel.
Definition lres (A : Type) := result A lfail.

(** ** State *)

(** lexer/src/lib.rs:461-465: [struct LexerState]. *)
Record lexer_state := mk_ls {
  html_comment_allowed : bool; regex_allowed : bool; inside_template : bool }.

(** lexer/src/lib.rs:490-498: [Default for LexerState]. *)
Definition ls_default : lexer_state := mk_ls true false false.
(** lexer/src/lib.rs:468-473. *)
Definition ls_with_html_comments_allowed (s : lexer_state) (b : bool) : lexer_state :=
  mk_ls b (regex_allowed s) (inside_template s).
(** lexer/src/lib.rs:475-480: note the other flags come from the default. *)
Definition ls_regex_allowed : lexer_state := mk_ls true true false.
(** lexer/src/lib.rs:482-487. *)
Definition ls_inside_template : lexer_state := mk_ls true false true.

(** lexer/src/lib.rs:68-73: [struct Lexer]. *)
Record lexer := mk_lexer {
  lx_data : str; lx_state : lexer_state; lx_rd : creader; lx_fol : bool }.

(** lexer/src/lib.rs:76-84: [Lexer::new] (the [?] is on a constructor that
    always returns [Ok], common/src/io.rs:80-92). *)
Definition lexer_new (data : str) : lexer :=
  mk_lexer data ls_default (cr_at data 0) true.

Definition set_rd (r : creader) (L : lexer) : lexer :=
  mk_lexer (lx_data L) (lx_state L) r (lx_fol L).
Definition set_fol_ (b : bool) (L : lexer) : lexer :=
  mk_lexer (lx_data L) (lx_state L) (lx_rd L) b.
(** lexer/src/lib.rs:86-88: [set_state]. *)
Definition lexer_set_state (s : lexer_state) (L : lexer) : lexer :=
  mk_lexer (lx_data L) s (lx_rd L) (lx_fol L).

Definition lx_rest (L : lexer) : str := rd_rest (lx_rd L).

(** ** The [&mut self] / [Result] monad *)

Definition lm (A : Type) := lexer -> lres A * lexer.
Definition ret {A} (a : A) : lm A := fun L => (Ok a, L).
Definition bind {A B} (m : lm A) (f : A -> lm B) : lm B :=
  fun L => match m L with
           | (Ok a, L') => f a L'
           | (Err e, L') => (Err e, L')
           end.
Definition lfail_ {A} (e : lex_error) : lm A := fun L => (Err (LFail e), L).
Definition lpanic {A} : lm A := fun L => (Err LPanic, L).

Declare Scope lm_scope.
Delimit Scope lm_scope with lm.
Notation "'let!' x := m 'in' k" := (bind m (fun x => k))
  (at level 200, x name, m at level 100, k at level 200) : lm_scope.
Notation "m ;; k" := (bind m (fun _ => k)) (at level 100, k at level 200, right associativity)
  : lm_scope.
Local Open Scope lm_scope.

(** [self.reader.position()] *)
Definition position : lm nat := fun L => (Ok (rd_pos (lx_rd L)), L).
(** [self.reader.current().ok()] *)
Definition current_ok : lm (option N) := fun L => (Ok (cr_current (lx_rd L)), L).
(** [self.reader.peek().ok()] *)
Definition peek_ok : lm (option N) := fun L => (Ok (cr_peek (lx_rd L)), L).
(** [self.reader.current()?]; lexer/src/error.rs:99-115 turns the reader's
    [EndOfStream] into [UnexpectedEndOfStream]. *)
Definition current : lm N := fun L =>
  match cr_current (lx_rd L) with
  | Some c => (Ok c, L)
  | None => (Err (LFail unexpected_end_of_stream), L)
  end.
(** [self.reader.consume()?] *)
Definition consume : lm N := fun L =>
  match cr_consume (lx_rd L) with
  | (Some c, r) => (Ok c, set_rd r L)
  | (None, r) => (Err (LFail unexpected_end_of_stream), set_rd r L)
  end.
(** [self.reader.consume().unwrap()] *)
Definition consume_unwrap : lm N := fun L =>
  match cr_consume (lx_rd L) with
  | (Some c, r) => (Ok c, set_rd r L)
  | (None, r) => (Err LPanic, set_rd r L)
  end.
Definition set_fol (b : bool) : lm unit := fun L => (Ok tt, set_fol_ b L).
Definition get_state : lm lexer_state := fun L => (Ok (lx_state L), L).
Definition get_fol : lm bool := fun L => (Ok (lx_fol L), L).

(** [loop { .. }]: [step] returns [inl] to continue and [inr] to leave. *)
Fixpoint loop_ {S A} (fuel : nat) (step : S -> lm (S + A)) (s : S) : lm A :=
  match fuel with
  | O => fun L => (Err LNoFuel, L)
  | Datatypes.S n =>
    fun L => match step s L with
             | (Ok (inl s'), L') => loop_ n step s' L'
             | (Ok (inr a), L') => (Ok a, L')
             | (Err e, L') => (Err e, L')
             end
  end.
Definition loop {S A} (step : S -> lm (S + A)) (s : S) : lm A :=
  fun L => loop_ (Datatypes.S (length (lx_rest L))) step s L.

Definition opt_is (c : N) (o : option N) : bool :=
  match o with Some c' => N.eqb c c' | None => false end.

Section WithPlatform.
Context {PF : Platform}.

Definition debug_assert (b : bool) : lm unit :=
  if (debug_assertions && negb b)%bool then lpanic else ret tt.

(** ** Character classes (lexer/src/code_point.rs) *)

(** lexer/src/code_point.rs:12-20. *)
Definition is_ecma_whitespace (c : N) : bool :=
  (N.eqb c 0x9 || N.eqb c 0xB || N.eqb c 0xC || N.eqb c 0x20 || N.eqb c 0xA0 ||
   N.eqb c 0xFEFF || N.eqb c 0x1680 || in_range 0x2000 0x200A c || N.eqb c 0x202F ||
   N.eqb c 0x205F || N.eqb c 0x3000)%bool.

(** lexer/src/code_point.rs:22-24. *)
Definition is_ecma_line_terminator (c : N) : bool :=
  (N.eqb c 0xA || N.eqb c 0xD || N.eqb c 0x2028 || N.eqb c 0x2029)%bool.

Definition is_digit (c : N) : bool := in_range (ch "0") (ch "9") c.
Definition is_letter (c : N) : bool :=
  (in_range (ch "A") (ch "Z") c || in_range (ch "a") (ch "z") c)%bool.

(** lexer/src/code_point.rs:26-28. *)
Definition is_start_of_identifier (c : N) : bool :=
  (is_letter c || N.eqb c (ch "_") || N.eqb c (ch "$") || id_start c)%bool.

(** lexer/src/code_point.rs:30-33. *)
Definition is_part_of_identifier (c : N) : bool :=
  (is_digit c || is_letter c || N.eqb c (ch "_") || N.eqb c (ch "$") ||
   N.eqb c 0x200C || N.eqb c 0x200D || id_continue c)%bool.

(** [char::is_ascii_hexdigit] *)
Definition is_hex_digit (c : N) : bool :=
  (is_digit c || in_range (ch "a") (ch "f") c || in_range (ch "A") (ch "F") c)%bool.

(** common/src/io/char_reader.rs:15-31: [read_while]. *)
Definition read_while (check : N -> bool) : lm str :=
  loop (fun acc : str =>
    let! o := current_ok in
    match o with
    | Some c => if check c then let! c' := consume in ret (inl (acc ++ [c'])) else ret (inr acc)
    | None => ret (inr acc)
    end) [].

(** lexer/src/lib.rs:455-458. *)
Definition is_end : lm bool := let! o := current_ok in
  ret (match o with Some _ => false | None => true end).

(** ** Trivia *)

(** lexer/src/lib.rs:432-453. *)
Definition skip_whitespaces : lm unit :=
  loop (fun _ : unit =>
    let! e := is_end in
    if e then ret (inr tt) else
    let! c := current in
    if is_ecma_line_terminator c then set_fol true;; consume;; ret (inl tt)
    else if is_ecma_whitespace c then consume;; ret (inl tt)
    else ret (inr tt)) tt.

(** lexer/src/lib.rs:297-305. *)
Definition skip_rest_of_line : lm unit :=
  read_while (fun c => negb (is_ecma_line_terminator c));;
  let! o := current_ok in
  match o with Some _ => consume_unwrap;; ret tt | None => ret tt end.

(** lexer/src/lib.rs:290-295. *)
Definition skip_single_line_comment : lm unit :=
  consume_unwrap;; consume_unwrap;; skip_rest_of_line.

(** lexer/src/lib.rs:308-336 (the [content] buffer is never read). *)
Definition skip_multi_line_comment : lm unit :=
  let! span_start := position in
  consume;; consume;;
  loop (fun _ : unit =>
    let! c := current_ok in
    let! p := peek_ok in
    if (opt_is (ch "*") c && opt_is (ch "/") p)%bool then consume;; consume;; ret (inr tt)
    else match c with
    | None => lfail_ (lex_syntax_error "Unterminated comment" span_start (span_start + 2))
    | Some _ =>
      let! c' := consume in
      if is_ecma_line_terminator c' then set_fol true;; ret (inl tt) else ret (inl tt)
    end) tt.

Definition html_message : string := "HTML comments are not allowed in this context".

(** lexer/src/lib.rs:258-288. *)
Definition skip_comments_and_white_spaces : lm unit :=
  loop (fun _ : unit =>
    skip_whitespaces;;
    let! c := current_ok in
    let! p := peek_ok in
    if (opt_is (ch "/") c && opt_is (ch "/") p)%bool then
      skip_single_line_comment;; set_fol true;; ret (inl tt)
    else if (opt_is (ch "<") c && opt_is (ch "!") p)%bool then
      let! st := get_state in
      if html_comment_allowed st then
        skip_single_line_comment;; set_fol true;; ret (inl tt)
      else
        let! pos := position in
        lfail_ (lex_syntax_error html_message pos (pos + 2))
    else if (opt_is (ch "/") c && opt_is (ch "*") p)%bool then
      skip_multi_line_comment;; ret (inl tt)
    else ret (inr tt)) tt;;
  skip_whitespaces.

(** ** Identifiers (lexer/src/unicode_escape_sequence.rs, lib.rs) *)

Definition esc_message : string := "Invalid escape sequence".

(** lexer/src/unicode_escape_sequence.rs:98-109. *)
Definition read_hex_char (span_start : nat) : lm N :=
  let! c := consume in
  if is_hex_digit c then ret c
  else let! span_end := position in lfail_ (lex_syntax_error esc_message span_start span_end).

(** [u32::from_str_radix(s, 16)], on strings of hex digits. *)
Definition hex_value (c : N) : N :=
  if is_digit c then (c - ch "0")%N
  else if in_range (ch "a") (ch "f") c then (c - ch "a" + 10)%N
  else (c - ch "A" + 10)%N.
Definition hex_number (s : str) : N := fold_left (fun a c => (a * 16 + hex_value c)%N) s 0%N.

(** lexer/src/unicode_escape_sequence.rs:61-85.  A value above [u32::MAX] makes
    [from_str_radix] fail and takes the same branch as one above 0x10FFFF. *)
Definition read_code_point (span_start : nat) : lm N :=
  let! b := consume in
  debug_assert (N.eqb b (ch "{"));;
  let! hex := loop (fun acc : str =>
    let! h := read_hex_char span_start in
    let! c := current in
    if N.eqb c (ch "}") then consume;; ret (inr (acc ++ [h])) else ret (inl (acc ++ [h]))) [] in
  if N.leb (hex_number hex) 0x10FFFF then ret (hex_number hex)
  else let! span_end := position in lfail_ (lex_syntax_error esc_message span_start span_end).

(** lexer/src/unicode_escape_sequence.rs:87-96. *)
Definition read_4digit_hex (span_start : nat) : lm N :=
  let! a := read_hex_char span_start in
  let! b := read_hex_char span_start in
  let! c := read_hex_char span_start in
  let! d := read_hex_char span_start in
  ret (hex_number [a; b; c; d]).

(** [char::try_from(u32)] succeeds exactly on Unicode scalar values. *)
Definition is_scalar_value (n : N) : bool :=
  (N.leb n 0xD7FF || in_range 0xE000 0x10FFFF n)%bool.

(** lexer/src/unicode_escape_sequence.rs:31-59. *)
Definition read_unicode_escape_sequence : lm N :=
  let! span_start := position in
  let! slash := consume in
  debug_assert (N.eqb slash (ch "\"));;
  let! u := consume in
  if negb (N.eqb u (ch "u")) then
    let! span_end := position in lfail_ (lex_syntax_error esc_message span_start span_end)
  else
    let! c := current in
    let! code_point :=
      (if N.eqb c (ch "{") then read_code_point span_start else read_4digit_hex span_start) in
    if is_scalar_value code_point then ret code_point
    else let! pos := position in lfail_ (unrecognized_code_point code_point pos pos).

(** lexer/src/unicode_escape_sequence.rs:8-29. *)
Definition read_and_expand_unicode_escape_sequence (is_start : bool) : lm N :=
  let! span_start := position in
  let! c := read_unicode_escape_sequence in
  if (if is_start then is_start_of_identifier c else is_part_of_identifier c) then ret c
  else let! span_end := position in lfail_ (lex_syntax_error esc_message span_start span_end).

Definition is_empty (s : str) : bool := match s with [] => true | _ => false end.

(** lexer/src/lib.rs:349-364. *)
Definition read_identifier_or_keyword_expand_unicode : lm str :=
  loop (fun word : str =>
    let! o := current_ok in
    match o with
    | Some c =>
      if is_part_of_identifier c then let! c' := consume in ret (inl (word ++ [c']))
      else if N.eqb c (ch "\") then
        let! c' := read_and_expand_unicode_escape_sequence (is_empty word) in
        ret (inl (word ++ [c']))
      else ret (inr word)
    | None => ret (inr word)
    end) [].

(** lexer/src/lib.rs:338-347. *)
Definition read_identifier_or_keyword : lm tvalue :=
  let! word := read_identifier_or_keyword_expand_unicode in
  ret (match keyword_from_str word with
       | Some k => VKeyword k
       | None => VIdentifier word
       end).

(** ** Templates *)

(** What ended a template part: "`" or "${" (lexer/src/lib.rs:410). *)
Inductive template_ending : Set := TEBacktick | TEDollarBrace.

(** lexer/src/lib.rs:410-430; the loop state is ([result], [escape]). *)
Definition read_until_end_of_template_literal_part : lm (str * template_ending) :=
  loop (fun s : str * bool =>
    let '(result, escape) := s in
    let! c := consume in
    if (negb escape && N.eqb c (ch "`"))%bool then ret (inr (result, TEBacktick)) else
    let! dollar :=
      (if (negb escape && N.eqb c (ch "$"))%bool
       then let! n := current in ret (N.eqb n (ch "{")) else ret false) in
    if (dollar : bool) then consume;; ret (inr (result, TEDollarBrace))
    else
      let escape' := (N.eqb c (ch "\") && negb escape)%bool in
      ret (inl (if escape' then result else result ++ [c], escape'))) ([], false).

(** lexer/src/lib.rs:366-380. *)
Definition read_template_literal_head : lm tvalue :=
  let! delimiter := consume in
  debug_assert (N.eqb delimiter (ch "`"));;
  let! p := read_until_end_of_template_literal_part in
  match p with
  | (value, TEDollarBrace) => ret (VTemplateHead value)
  | (value, TEBacktick) => ret (VLiteral (TLTemplate value))
  end.

(** lexer/src/lib.rs:382-407. *)
Definition read_template_literal_middle_or_tail : lm token :=
  let! span_start := position in
  let! start := consume in
  if negb (N.eqb start (ch "}")) then
    lfail_ (lex_syntax_error "Expected '}' in template expression" span_start (span_start + 1))
  else
    let! p := read_until_end_of_template_literal_part in
    let! span_end := position in
    ret (mk_token (match p with
                   | (value, TEDollarBrace) => VTemplateMiddle value
                   | (value, TEBacktick) => VTemplateTail value
                   end) false (mk_span span_start span_end)).

(** ** Numbers (lexer/src/number.rs) *)

(** [str::contains("__")] *)
Fixpoint contains_double_underscore (s : str) : bool :=
  match s with
  | a :: ((b :: _) as s') =>
    ((N.eqb a (ch "_") && N.eqb b (ch "_")) || contains_double_underscore s')%bool
  | _ => false
  end.
(** [str::ends_with('_')] *)
Definition ends_with_underscore (s : str) : bool :=
  match s with [] => false | _ => N.eqb (last s 0%N) (ch "_") end.

(** lexer/src/number.rs:129-153. *)
Definition read_number_string (span_start : nat) (check : N -> bool) : lm str :=
  let! s := read_while (fun c => (check c || N.eqb c (ch "_"))%bool) in
  if contains_double_underscore s then
    let! span_end := position in
    lfail_ (lex_syntax_error "Number cannot contain multiple adjacent underscores" span_start span_end)
  else if ends_with_underscore s then
    let! span_end := position in
    lfail_ (lex_syntax_error "Number cannot end with underscore" span_start span_end)
  else ret s.

(** lexer/src/number.rs:111-127. *)
Definition expect_read_number_string (span_start : nat) (check : N -> bool) : lm str :=
  let! s := read_number_string span_start check in
  if is_empty s then
    let! pos := position in lfail_ (lex_syntax_error "Expected number" pos pos)
  else ret s.

(** lexer/src/number.rs:42-79: [read_hex_string], [read_octal_string] and
    [read_binary_string], which differ in the digit test only. *)
Definition read_prefixed_string (check : N -> bool) : lm str :=
  let! span_start := position in
  let! a := consume in
  let! b := consume in
  let! s := expect_read_number_string span_start check in
  ret (a :: b :: s).

Definition is_octal_digit (c : N) : bool := in_range (ch "0") (ch "7") c.
Definition is_binary_digit (c : N) : bool := (N.eqb c (ch "0") || N.eqb c (ch "1"))%bool.

(** lexer/src/number.rs:81-109. *)
Definition read_decimal_string : lm str :=
  let! span_start := position in
  let! integer_part := read_number_string span_start is_digit in
  let! o := current_ok in
  let! with_fraction :=
    (if opt_is (ch ".") o then
       let! dot := consume in
       let! fractional_part := read_number_string span_start is_digit in
       ret (integer_part ++ [dot] ++ fractional_part)
     else ret integer_part) in
  let! o := current_ok in
  if (opt_is (ch "e") o || opt_is (ch "E") o)%bool then
    let! e := consume in
    let! o := current_ok in
    let! sign :=
      (if (opt_is (ch "-") o || opt_is (ch "+") o)%bool then let! s := consume in ret [s]
       else ret []) in
    let! exponential_part := expect_read_number_string span_start is_digit in
    ret (with_fraction ++ [e] ++ sign ++ exponential_part)
  else ret with_fraction.

Definition opt_digit (o : option N) : bool :=
  match o with Some c => is_digit c | None => false end.

(** lexer/src/number.rs:8-40. *)
Definition read_number_literal : lm tvalue :=
  let! c := current in
  let! p := peek_ok in
  let zero := N.eqb c (ch "0") in
  let! number_string :=
    (if ((opt_is (ch "x") p || opt_is (ch "X") p) && zero)%bool then
       read_prefixed_string is_hex_digit
     else if ((opt_is (ch "o") p || opt_is (ch "O") p) && zero)%bool then
       read_prefixed_string is_octal_digit
     else if ((opt_is (ch "b") p || opt_is (ch "B") p) && zero)%bool then
       read_prefixed_string is_binary_digit
     else if (opt_digit p && zero)%bool then
       let! pos := position in
       lfail_ (lex_syntax_error "Zero prefixed numbers are deprecated and not supported" pos (pos + 1))
     else read_decimal_string) in
  let! o := current_ok in
  if (match o with Some c => is_start_of_identifier c | None => false end) then
    let! pos := position in
    lfail_ (lex_syntax_error "Number cannot be followed by identifier without separation" pos pos)
  else ret (VLiteral (TLNumber number_string)).

(** ** Strings (lexer/src/string.rs) *)

(** lexer/src/string.rs:41-50; returns the characters pushed to [result]. *)
Definition read_escape_sequence : lm str :=
  let! c := consume in
  let! o := current_ok in
  if (N.eqb c 0xD && opt_is 0xA o)%bool then let! n := consume in ret [c; n]
  else ret [c].

(** lexer/src/string.rs:52-61; [position] is at least 1 here, as a character
    was just consumed. *)
Definition validate_character (c : N) : lm unit :=
  if (N.eqb c 0xD || N.eqb c 0xA)%bool then
    let! pos := position in
    lfail_ (lex_syntax_error "String contained unescaped new line" (pos - 1) (pos - 1))
  else ret tt.

(** lexer/src/string.rs:19-39. *)
Definition read_until_unescaped_delimiter (delimiter : N) : lm str :=
  loop (fun result : str =>
    let! c := consume in
    if N.eqb c (ch "\") then let! e := read_escape_sequence in ret (inl (result ++ e))
    else if N.eqb c delimiter then ret (inr result)
    else validate_character c;; ret (inl (result ++ [c]))) [].

(** lexer/src/string.rs:5-16. *)
Definition read_string_literal : lm tvalue :=
  let! delimiter := consume in
  debug_assert (N.eqb delimiter 34 || N.eqb delimiter 39);;
  let! value := read_until_unescaped_delimiter delimiter in
  ret (VLiteral (TLString value delimiter)).

(** ** Regular expressions (lexer/src/regexp.rs) *)

(** lexer/src/regexp.rs:43-57. *)
Definition read_regexp_group_body : lm str :=
  loop (fun result : str =>
    let! c := consume in
    if N.eqb c (ch "]") then ret (inr (result ++ [c]))
    else if N.eqb c (ch "\") then let! e := consume in ret (inl (result ++ [c; e]))
    else ret (inl (result ++ [c]))) [].

(** lexer/src/regexp.rs:8-41. *)
Definition read_regexp_literal : lm tvalue :=
  let! span_start := position in
  let! regexp_start := consume in
  debug_assert (N.eqb regexp_start (ch "/"));;
  let! body := loop (fun result : str =>
    let! c := consume in
    let result := result ++ [c] in
    if N.eqb c 0xA then
      let! span_end := position in
      lfail_ (lex_syntax_error "Unterminated regular expression literal" span_start (span_end - 1))
    else if N.eqb c (ch "/") then ret (inr result)
    else if N.eqb c (ch "\") then
      let! n := current in
      if is_ecma_line_terminator n then ret (inl result)
      else let! e := consume in ret (inl (result ++ [e]))
    else if N.eqb c (ch "[") then
      let! g := read_regexp_group_body in ret (inl (result ++ g))
    else ret (inl result)) [regexp_start] in
  let! flags := read_while is_part_of_identifier in
  ret (VLiteral (TLRegexp (body ++ flags))).

(** ** The main dispatch *)

(** lexer/src/lib.rs:41-64: [produce!(self, n, punct)]. *)
Definition produce1 (p : punct) : lm tvalue := consume;; ret (VPunct p).
Definition produce2 (p : punct) : lm tvalue := consume;; consume;; ret (VPunct p).
(** lexer/src/lib.rs:57-63: [produce!(self, peek: c ? p1 ; p2)]. *)
Definition produce_peek (c : N) (p1 p2 : punct) : lm tvalue :=
  let! p := peek_ok in if opt_is c p then produce2 p1 else produce1 p2.

(** lexer/src/lib.rs:119-235: the [match current], in source order. *)
Definition read_value (start : nat) (c : N) : lm tvalue :=
  let! st := get_state in
  let! p := peek_ok in
  let is s := N.eqb c (ch s) in
  let next s := opt_is (ch s) p in
  if (is "/" && regex_allowed st)%bool then read_regexp_literal
  else if ((is "/" || is "*" || is "%" || is "+" || is "-" || is "|" || is "^" || is "&" ||
            is "<" || is ">" || is "=") && next "=")%bool then
    if is "/" then produce2 PSlashEqual
    else if is "*" then produce2 PStarEqual
    else if is "%" then produce2 PPercentEqual
    else if is "+" then produce2 PPlusEqual
    else if is "-" then produce2 PMinusEqual
    else if is "|" then produce2 PPipeEqual
    else if is "^" then produce2 PCaretEqual
    else if is "&" then produce2 PAmpersandEqual
    else if is "<" then produce2 PLessEqual
    else if is ">" then produce2 PGreaterEqual
    else consume;; produce_peek (ch "=") PTripleEqual PDoubleEqual
  else if (is "<" && next "<")%bool then
    consume;; produce_peek (ch "=") PDoubleLessEqual PDoubleLessThan
  else if (is ">" && next ">")%bool then
    consume;;
    let! q := peek_ok in
    if opt_is (ch ">") q then
      consume;; produce_peek (ch "=") PTripleGreaterEqual PTripleGreaterThan
    else if opt_is (ch "=") q then produce2 PDoubleGreaterEqual
    else produce1 PDoubleGreaterThan
  else if (is "!" && next "=")%bool then
    consume;; produce_peek (ch "=") PExclamationDoubleEqual PNotEqual
  else if is "=" then produce_peek (ch ">") PEqualGreater PEqual
  else if is "<" then produce1 PLessThan
  else if is ">" then produce1 PGreaterThan
  else if is "^" then produce1 PCaret
  else if is "%" then produce1 PPercent
  else if is ";" then produce1 PSemiColon
  else if is "{" then produce1 PBracketOpen
  else if is "}" then produce1 PBracketClose
  else if is "," then produce1 PComma
  else if is "[" then produce1 PBraceOpen
  else if is "]" then produce1 PBraceClose
  else if is "(" then produce1 PParenOpen
  else if is ")" then produce1 PParenClose
  else if is "~" then produce1 PTilde
  else if is ":" then produce1 PColon
  else if is "!" then produce1 PExclamation
  else if is "&" then produce_peek (ch "&") PDoubleAmpersand PAmpersand
  else if is "|" then produce_peek (ch "|") PDoublePipe PPipe
  else if is "+" then produce_peek (ch "+") PDoublePlus PPlus
  else if is "-" then produce_peek (ch "-") PDoubleMinus PMinus
  else if is "?" then
    consume;;
    let! c2 := current_ok in
    let! p2 := peek_ok in
    if (opt_is (ch ".") c2 && negb (opt_digit p2))%bool then
      consume;; ret (VPunct PQuestionMarkDot)
    else if opt_is (ch "?") c2 then consume;; ret (VPunct PDoubleQuestionMark)
    else ret (VPunct PQuestionMark)
  else if is "*" then
    if next "*" then consume;; produce_peek (ch "=") PDoubleStarEqual PDoubleStar
    else produce1 PStar
  else if is "." then
    if next "." then
      consume;;
      let! q := peek_ok in
      if opt_is (ch ".") q then produce2 PTripleDot
      else
        let! e := position in
        let! f := get_fol in
        lfail_ (invalid_or_unexpected_token (mk_token (VPunct PDot) f (mk_span start e)))
    else if opt_digit p then read_number_literal
    else produce1 PDot
  else if is "/" then produce1 PSlash
  else if is_digit c then read_number_literal
  else if (N.eqb c 34 || N.eqb c 39)%bool then read_string_literal
  else if is "`" then read_template_literal_head
  else if is_start_of_identifier c then read_identifier_or_keyword
  else if is "\" then read_identifier_or_keyword
  else
    let! c' := consume in
    lfail_ (unrecognized_code_point c' start (start + len8 c')).

(** [value == punct!("--")] *)
Definition is_minus_minus (v : tvalue) : bool :=
  match v with VPunct PDoubleMinus => true | _ => false end.

(** lexer/src/lib.rs:108-256: [Lexer::read]; the recursion is the
    [return self.read()] after an html end comment. *)
Fixpoint read_fuel (fuel : nat) : lm token :=
  match fuel with
  | O => fun L => (Err LNoFuel, L)
  | S n =>
    let! st := get_state in
    if inside_template st then read_template_literal_middle_or_tail else
    skip_comments_and_white_spaces;;
    let! e := is_end in
    if e then lfail_ end_of_stream else
    let! c := current in
    let! start := position in
    let! value := read_value start c in
    let! end_ := position in
    let! f := get_fol in
    let! c2 := current_ok in
    if (f && is_minus_minus value && opt_is (ch ">") c2)%bool then
      if negb (html_comment_allowed st) then
        lfail_ (lex_syntax_error html_message start (start + 3))
      else
        skip_rest_of_line;; set_fol true;; read_fuel n
    else
      set_fol false;;
      ret (mk_token value f (mk_span start end_))
  end.

Definition read : lm token := fun L => read_fuel (S (length (lx_rest L))) L.

(** lexer/src/lib.rs:570-577: [PeekRead<Token> for Lexer]. *)
Definition lexer_next (L : lexer) : lres (nat * token) * lexer :=
  match read L with
  | (Ok t, L') => (Ok (sp_end (t_span t), t), L')
  | (Err e, L') => (Err e, L')
  end.

(** lexer/src/lib.rs:90-106: [read_all]. *)
Fixpoint read_all_fuel (fuel : nat) (L : lexer) : lres (list token) * lexer :=
  match fuel with
  | O => (Err LNoFuel, L)
  | S n =>
    match read L with
    | (Ok t, L') =>
      match read_all_fuel n L' with
      | (Ok ts, L'') => (Ok (t :: ts), L'')
      | (Err e, L'') => (Err e, L'')
      end
    | (Err (LFail e), L') =>
      match le_kind e with
      | EKEndOfStream => (Ok [], L')
      | _ => (Err (LFail e), L')
      end
    | (Err f, L') => (Err f, L')
    end
  end.
Definition read_all (L : lexer) : lres (list token) * lexer :=
  read_all_fuel (S (length (lx_rest L))) L.

(** ** Seeking *)

(** The slice [data[offset..]]: [None] is the panic of Rust's string slicing
    when [offset] is not on a character boundary or out of range. *)
Fixpoint slice_from (data : str) (offset : nat) : option str :=
  match offset with
  | O => Some data
  | S _ =>
    match data with
    | [] => None
    | c :: data' =>
      if Nat.leb (len8 c) offset then slice_from data' (offset - len8 c) else None
    end
  end.

(** lexer/src/lib.rs:503-515: [Seek::seek] with [SeekFrom::Start], the only
    variant used ([rewind_before]). *)
Definition lexer_seek (pos : nat) (L : lexer) : option lexer :=
  match slice_from (lx_data L) pos with
  | None => None
  | Some rest => Some (mk_lexer (lx_data L) (lx_state L) (cr_at rest pos) true)
  end.

(** lexer/src/lib.rs:523-526: [rewind_before]. *)
Definition lexer_rewind_before (t : token) (L : lexer) : option lexer :=
  match lexer_seek (sp_start (t_span t)) L with
  | None => None
  | Some L' => Some (set_fol_ (t_fol t) L')
  end.

(** lexer/src/lib.rs:558-568: [read_with_state]; on an error the [?] returns
    before the old state is swapped back. *)
Definition lexer_read_with_state (s : lexer_state) (L : lexer) : lres (nat * token) * lexer :=
  match lexer_next (lexer_set_state s L) with
  | (Ok r, L') => (Ok r, lexer_set_state (lx_state L) L')
  | (Err e, L') => (Err e, L')
  end.

End WithPlatform.
