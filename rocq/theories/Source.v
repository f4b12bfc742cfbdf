(** * Source: the tokens of a source, with regular expressions and templates.

    The lexer reads a [/] as an operator and a [}] as a bracket unless the parser
    asks for a regular expression, or for the rest of a template.  So a source
    may be divided into tokens in more than one way; the grammar (Written.v)
    says which one is meant.

    A regular expression is listed as two tokens, the [/] or [/=] it starts with
    and the whole expression (which is how the parser meets it: it sees a [/] and
    then asks for the expression); the rest of a template is listed as
    a [}] and the whole rest. *)

From Verif Require Import Base Tokens CharReader Lexer LexSpec.
Local Open Scope string_scope.
Local Open Scope list_scope.

(** What a regular expression starts with. *)
Definition slash_of (s : str) : punct :=
  match s with _ :: c :: _ => if N.eqb c (ch "=") then PSlashEqual else PSlash | _ => PSlash end.

Section Source.
Context {PF : Platform}.

(** [source_tokens D st pre f ts]: in the source [D], after the text [pre], the
    text is divided into the tokens [ts] ([f]: a line terminator was passed since
    the last token).  After the rest of a template, the next token counts as first on its
    line if the [}] was (lexer/src/lib.rs:
    [read_template_literal_middle_or_tail] does not reset the flag). *)
Inductive source_tokens (D : str) (st : lexer_state) : str -> bool -> list token -> Prop :=
| so_end pre f gap f' :
    D = pre ++ gap -> trivia (html_comment_allowed st) f gap [] f' ->
    source_tokens D st pre f []
| so_token pre f t pre' f' ts :
    lexed D st pre f t pre' f' -> source_tokens D st pre' f' ts ->
    source_tokens D st pre f (t :: ts)
| so_regexp pre f gap s after f1 ts :
    D = pre ++ gap ++ s ++ after -> trivia (html_comment_allowed st) f gap (s ++ after) f1 ->
    ~ starts_comment (s ++ after) -> lexeme ls_regex_allowed s after (VLiteral (TLRegexp s)) ->
    source_tokens D st (pre ++ gap ++ s) false ts ->
    source_tokens D st pre f
      (mk_token (VPunct (slash_of s)) f1
         (mk_span (rpos (pre ++ gap)) (rpos (pre ++ gap) + length (punct_str (slash_of s)))) ::
       mk_token (VLiteral (TLRegexp s)) f1 (mk_span (rpos (pre ++ gap)) (rpos (pre ++ gap ++ s))) :: ts)
| so_template pre f gap s after v f1 ts :
    D = pre ++ gap ++ s ++ after -> trivia (html_comment_allowed st) f gap (s ++ after) f1 ->
    template_continue s v ->
    source_tokens D st (pre ++ gap ++ s) f1 ts ->
    source_tokens D st pre f
      (mk_token (VPunct PBracketClose) f1 (mk_span (rpos (pre ++ gap)) (rpos (pre ++ gap) + 1)) ::
       mk_token v false (mk_span (rpos (pre ++ gap)) (rpos (pre ++ gap ++ s))) :: ts).

Lemma tokens_source D st pre f ts : tokens_from D st pre f ts -> source_tokens D st pre f ts.
Proof. induction 1; [eapply so_end|eapply so_token]; eauto. Qed.

End Source.

(** A token that is read only on demand, and the tokens it can come after. *)
Definition special (v : tvalue) : bool :=
  match v with VLiteral (TLRegexp _) | VTemplateMiddle _ | VTemplateTail _ => true | _ => false end.
Definition opener (v : tvalue) : bool :=
  match v with VPunct PSlash | VPunct PSlashEqual | VPunct PBracketClose => true | _ => false end.
Definition ordinary (t : token) : Prop := special (t_value t) = false.
Definition ord_hd (ts : list token) : Prop := match ts with t :: _ => ordinary t | [] => True end.

Lemma ord_app ts us : ord_hd ts -> ord_hd us -> ord_hd (ts ++ us).
Proof. destruct ts; auto. Qed.
Lemma ord_cons t ts v : t_value t = v -> special v = false -> ord_hd (t :: ts).
Proof. intros <- H. exact H. Qed.
