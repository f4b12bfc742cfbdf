(** * PropErrors: what a syntax error says is so (C44).

    Vocabulary: [ParseRuns.v] ([rejects]: the parser returns this error),
    [Prog.v] ([perr], the errors), [TokChain.v] ([chain D [] true ts pre f]: the
    source [D] begins with the text [pre], whose tokens are [ts]; [eos_at]: only
    trivia follows), [Layout.v] ([fits]: the tokens are the tree, written out,
    with its spans). *)

From Verif Require Import Base Tokens PeekReader CharReader Lexer LexSpec LexerFacts LexProps PropLexer Ast Prog
  TokChain ParseState Parser Grammar GrammarFacts Contract AllOk ParLib ParseRuns Layout LayoutSound AstSpec StaticSem AstSound PropParser Emitter PropEmitter.
Local Open Scope string_scope.
Local Open Scope list_scope.

(** The source begins with tokens, the last of which has this value and stands
    at this place. *)
Definition token_here {PF : Platform} (D : str) (v : tvalue) (sp : span) : Prop :=
  exists before t pre f, chain D [] true (before ++ [t]) pre f /\ t_value t = v /\ t_span t = sp.

Section Errors.
Context {PF : Platform}.

Lemma found_here D v sp : found D v sp -> token_here D v sp.
Proof. intros (l & t & (pre & f & H) & Hv & Hs). exists l, t, pre, f. auto. Qed.

Lemma rejects_says tg m D e : rejects tg m D e -> says D m e (arrow_at D e).
Proof. intros H. now apply rejects_inv in H. Qed.

(** An unexpected token is the token at the place the error points to, after
    which a division of the source into tokens has come; and it is not the
    token the error says was expected. *)
Theorem C44_unexpected_token tg m D e v x : rejects tg m D e -> pe_kind e = PUnexpectedToken v x ->
  token_here D v (pe_span e) /\ x <> Some v.
Proof.
  intros H E. apply rejects_says in H. unfold says in H. rewrite E in H. destruct H as [H1 H2].
  split; [now apply found_here|]. intros ->. now apply (H2 v eq_refl).
Qed.

(** Where an identifier is expected there is another token: neither an
    identifier nor a word of the language. *)
Theorem C44_expected_identifier tg m D e v : rejects tg m D e -> pe_kind e = PExpectedIdentifier v ->
  token_here D v (pe_span e) /\ (forall x, v <> VIdentifier x) /\ (forall k, v <> VKeyword k).
Proof.
  intros H E. apply rejects_says in H. unfold says in H. rewrite E in H. destruct H as (H1 & H2 & H3).
  split; [now apply found_here|]. auto.
Qed.

(** A forbidden identifier is a word that stands there and that is reserved, at
    least in some code (async, strict, ..). *)
Theorem C44_forbidden_identifier tg m D e x : rejects tg m D e -> pe_kind e = PForbiddenIdentifier x ->
  exists k, token_here D (VKeyword k) (pe_span e) /\ x = keyword_str k /\
    exists kc, is_allowed_as_identifier k kc = false.
Proof.
  intros H E. apply rejects_says in H. unfold says in H. rewrite E in H. destruct H as (k & H1 & H2 & H3).
  exists k. split; [now apply found_here|]. auto.
Qed.

(** An unexpected identifier has the name and the place of a token. *)
Theorem C44_unexpected_identifier tg m D e i : rejects tg m D e -> pe_kind e = PUnexpectedIdent i ->
  id_span i = pe_span e /\
  exists v, token_here D v (pe_span e) /\
    (v = VIdentifier (id_name i) \/ exists k, v = VKeyword k /\ id_name i = keyword_str k).
Proof.
  intros H E. apply rejects_says in H. unfold says in H. rewrite E in H. destruct H as (H1 & v & H2 & H3).
  split; [exact H1|]. exists v. split; [now apply found_here|exact H3].
Qed.

(** The end of the input is reported only if the whole source divides into
    tokens. *)
Theorem C44_end_of_input tg m D e : rejects tg m D e -> pe_kind e = PEndOfStream ->
  exists ts pre f, chain D [] true ts pre f /\ eos_at D pre f.
Proof. intros H E. apply rejects_says in H. unfold says in H. rewrite E in H. exact H. Qed.

(** A lexical error is reported only if the lexer gets stuck: after tokens, the
    last of which ends before the text that cannot be read, and perhaps trivia,
    there is in some lexer state neither a token of the lexical grammar nor the
    end of the source. *)
Theorem C44_lexical tg m D e le : rejects tg m D e -> pe_kind e = PLexerError le ->
  le_span le = pe_span e /\ exists ts pre f, chain D [] true ts pre f /\ stuck D pre f.
Proof. intros H E. apply rejects_says in H. unfold says in H. rewrite E in H. exact H. Qed.

(** [ts] are tokens of the source, with other tokens before them. *)
Definition tokens_here {PF : Platform} (D : str) (before ts : list token) : Prop :=
  exists pre f, chain D [] true (before ++ ts) pre f.

Lemma rejects_syntax tg m D e msg arg : rejects tg m D e -> pe_kind e = PSyntaxError msg arg ->
  word_says D m msg (pe_span e) /\ node_says D msg arg (pe_span e).
Proof. intros H E. apply rejects_says in H. unfold says in H. rewrite E in H. exact (proj1 H). Qed.

(** A lexical error may also be reported as a syntax error, with one of these
    messages: the same holds. *)
Theorem C44_lexical_message tg m D e msg arg : rejects tg m D e -> pe_kind e = PSyntaxError msg arg ->
  In msg ["Unterminated comment"; "HTML comments are not allowed in this context"; "Invalid escape sequence";
    "Expected '}' in template expression"; "Number cannot contain multiple adjacent underscores";
    "Number cannot end with underscore"; "Expected number"; "Zero prefixed numbers are deprecated and not supported";
    "Number cannot be followed by identifier without separation"; "String contained unescaped new line";
    "Unterminated regular expression literal"] ->
  exists ts pre f, chain D [] true ts pre f /\ stuck D pre f.
Proof. intros H E Hm. destruct (rejects_syntax _ _ _ _ _ _ H E) as [H1 _]. apply H1. exact Hm. Qed.

(** [import] and [export] are refused as such only in scripts, where they stand. *)
Theorem C44_import_export tg m D e msg arg : rejects tg m D e -> pe_kind e = PSyntaxError msg arg ->
  (msg = "Cannot use `import` statement outside a module" -> m = false /\ token_here D (VKeyword KImport) (pe_span e)) /\
  (msg = "Cannot use `export` statement outside a module" -> m = false /\ token_here D (VKeyword KExport) (pe_span e)).
Proof.
  intros H E. destruct (rejects_syntax _ _ _ _ _ _ H E) as [(_ & H1 & H2 & _) _].
  split; intros Hm; [destruct (H1 Hm)|destruct (H2 Hm)]; split; auto using found_here.
Qed.

(** A [throw] is refused for a line break only if the token after it is the
    first of its line. *)
Theorem C44_throw tg m D e arg : rejects tg m D e -> pe_kind e = PSyntaxError "Illegal newline after throw" arg ->
  exists before u t, tokens_here D before [u; t] /\ t_value u = VKeyword KThrow /\ t_span u = pe_span e /\
    t_fol t = true.
Proof.
  intros H E. destruct (rejects_syntax _ _ _ _ _ _ H E) as [(_ & _ & _ & H1 & _) _].
  destruct (H1 eq_refl) as (l & u & t & Hl & H2). exists l, u, t. split; [exact Hl|exact H2].
Qed.

(** A [return], [try] or [super] is refused where tokens stand that begin so. *)
Theorem C44_statement tg m D e msg arg : rejects tg m D e -> pe_kind e = PSyntaxError msg arg ->
  forall v, In (msg, v)
    [("Illegal return statement", KReturn); ("Missing catch or finally after try", KTry);
     ("`super` keyword not expected here", KSuper); ("`super` property access only valid inside methods", KSuper);
     ("super() now allowed here", KSuper)] ->
  exists before t ts, tokens_here D before (t :: ts) /\ t_value t = VKeyword v /\ span_of (t :: ts) = pe_span e.
Proof.
  intros H E v Hv. destruct (rejects_syntax _ _ _ _ _ _ H E) as [(_ & _ & _ & _ & H1 & H2 & H3 & _) _].
  assert (X : begins D (VKeyword v) (pe_span e)).
  { cbn [In] in Hv. destruct Hv as [Hv|[Hv|[Hv|[Hv|[Hv|[]]]]]]; injection Hv as <- <-; auto. }
  destruct X as (l & t & ts & Hl & H4). exists l, t, ts. split; [exact Hl|exact H4].
Qed.

(** A rest element is refused where it is written, with or without its [...]. *)
Theorem C44_rest tg m D e arg : rejects tg m D e -> pe_kind e = PSyntaxError "Rest element must be last element" arg ->
  exists before t ts, tokens_here D before (t :: ts) /\ t_value t = VPunct PTripleDot /\
    (span_of ts = pe_span e \/ span_of (t :: ts) = pe_span e).
Proof.
  intros H E. destruct (rejects_syntax _ _ _ _ _ _ H E) as [(_ & _ & _ & _ & _ & _ & _ & H1 & _) _].
  destruct (H1 eq_refl) as (l & t & ts & Hl & H4). exists l, t, ts. split; [exact Hl|exact H4].
Qed.

(** At [sp] stand tokens of the source that are the tree [n], written out. *)
Definition tree_here {PF : Platform} (D : str) (n : node) (sp : span) : Prop :=
  node_span n = sp /\ exists before ts, tokens_here D before ts /\ ts <> [] /\ span_of ts = sp /\
    fits 0 ts (lay n) (sp_end sp).

Lemma spanned_lay s : spanned s = true -> lay1 s = lay.
Proof. destruct s; cbn [spanned lay1]; intros H; first [reflexivity|discriminate H]. Qed.

Lemma written_tree D P sp : written D P sp ->
  exists s c n ts, tree_here D n sp /\ der D s c (I n) ts /\ P s c n.
Proof.
  intros (l & ts & s & c & n & (pre & f & Hc) & Hne & Hd & Hs & Hn & Hsp & HP).
  exists s, c, n, ts. split; [|auto]. split; [exact Hn|]. exists l, ts. split; [now exists pre, f|].
  split; [exact Hne|]. split; [exact Hsp|].
  apply chain_split in Hc. destruct Hc as (pre1 & f1 & _ & Hc).
  pose proof (chain_ordered _ _ _ _ _ _ Hc) as Ho. pose proof (der_fits _ _ _ _ _ Hd) as Hf.
  unfold LayoutSound.F in Hf. specialize (Hf Ho 0). cbn [lay_item] in Hf. rewrite (spanned_lay _ Hs) in Hf.
  rewrite <- Hsp. exact Hf.
Qed.

(** A variable or a property access, possibly in parentheses. *)
Fixpoint assignable (n : node) : Prop :=
  match n with
  | EIdentRef _ | EMember _ _ _ => True
  | EParenthesized _ n' => assignable n'
  | _ => False
  end.

Lemma not_assignable c n : is_assignment_target_type_simple c n = Ok false -> ~ assignable n.
Proof.
  induction n; cbn [is_assignment_target_type_simple assignable]; intros H Ha; try contradiction; try discriminate H.
  - destruct (_ && _)%bool; discriminate H.
  - now apply IHn.
Qed.

(** What cannot be assigned to is written there, and is neither a variable nor a
    property access. *)
Theorem C44_target tg m D e msg arg : rejects tg m D e -> pe_kind e = PSyntaxError msg arg ->
  In msg ["Invalid left-hand side assignment"; "Invalid update expression argument";
    "Invalid destructuring assignment target"] ->
  exists n, tree_here D n (pe_span e) /\ ~ assignable n.
Proof.
  intros H E Hm. destruct (rejects_syntax _ _ _ _ _ _ H E) as [_ [H1 _]].
  destruct (written_tree _ _ _ (H1 Hm)) as (s & c & n & ts & Hn & _ & HP). exists n. split; [exact Hn|].
  eapply not_assignable; exact HP.
Qed.

(** The token is the word [x]: an identifier, or a keyword used as one. *)
Definition word_here {PF : Platform} (D : str) (x : str) (sp : span) : Prop :=
  token_here D (VIdentifier x) sp \/ exists k, x = keyword_str k /\ token_here D (VKeyword k) sp.

Lemma found_word D x v sp : found D v sp -> Contract.named x v -> word_here D x sp.
Proof. intros H [->|(k & -> & ->)]; [left|right; exists k; split; [reflexivity|]]; now apply found_here. Qed.

(** [eval] and [arguments] are refused, and identifiers after [delete], where
    they stand. *)
Theorem C44_strict tg m D e msg arg : rejects tg m D e -> pe_kind e = PSyntaxError msg arg ->
  (msg = "Unexpected `eval` or `arguments` in strict mode" ->
     word_here D (chars "eval") (pe_span e) \/ word_here D (chars "arguments") (pe_span e)) /\
  (msg = "Delete of an unqualified identifier in strict mode" -> exists x, word_here D x (pe_span e)).
Proof.
  intros H E. destruct (rejects_syntax _ _ _ _ _ _ H E) as [_ (_ & H1 & H2 & _)]. split; intros Hm.
  - destruct (H1 Hm) as (x & v & [->| ->] & Hf & Hn); [left|right]; eapply found_word; eassumption.
  - destruct (H2 Hm) as (x & v & Hf & Hn). exists x. eapply found_word; eassumption.
Qed.

(** A template is refused in an optional chain where it begins. *)
Theorem C44_template tg m D e arg : rejects tg m D e ->
  pe_kind e = PSyntaxError "Invalid tagged template on optional chain" arg ->
  exists x, token_here D (VTemplateHead x) (pe_span e) \/ token_here D (VLiteral (TLTemplate x)) (pe_span e).
Proof.
  intros H E. destruct (rejects_syntax _ _ _ _ _ _ H E) as [_ (_ & _ & _ & H1 & _)].
  destruct (H1 eq_refl) as (v & Hf & Hv). destruct v; try contradiction.
  - destruct l; try contradiction. eexists. right. apply found_here. exact Hf.
  - eexists. left. apply found_here. exact Hf.
Qed.

(** An initializer is missed only after an object or array pattern. *)
Theorem C44_missing_initializer tg m D e arg : rejects tg m D e ->
  pe_kind e = PSyntaxError "Missing initializer in destructuring declaration" arg ->
  exists n, tree_here D n (pe_span e) /\
    ((exists sp ps r, n = BindObject sp ps r) \/ (exists sp es r, n = BindArray sp es r)).
Proof.
  intros H E. destruct (rejects_syntax _ _ _ _ _ _ H E) as [_ (_ & _ & _ & _ & H1 & _)].
  destruct (written_tree _ _ _ (H1 eq_refl)) as (s & c & n & ts & Hn & Hd & -> & HP). exists n. split; [exact Hn|].
  apply inv_pat in Hd. destruct n; try contradiction; [discriminate HP|right|left]; eauto.
Qed.

(** Parameters are refused where they are written, and there are as many, or
    with default values, patterns or equal names, as the error says. *)
Theorem C44_parameters tg m D e msg arg : rejects tg m D e -> pe_kind e = PSyntaxError msg arg ->
  In msg ["Only name parameters allowed in method with ""use strict"""; "Getter must not have any formal parameters";
    "Setter function parameter must not be a rest parameter"; "Setter must have exactly one parameter";
    "Found duplicate parameter '{}', duplicates not allowed here"] ->
  exists psp l r, tree_here D (FormalParameters psp l r) (pe_span e) /\
    (msg = "Only name parameters allowed in method with ""use strict""" -> ~ simple_params (FormalParameters psp l r)) /\
    (msg = "Getter must not have any formal parameters" -> l <> [] \/ r <> None) /\
    (msg = "Setter function parameter must not be a rest parameter" -> r <> None) /\
    (msg = "Setter must have exactly one parameter" -> length l <> 1) /\
    (msg = "Found duplicate parameter '{}', duplicates not allowed here" ->
       2 <= count_occ (list_eq_dec N.eq_dec) (params_names (FormalParameters psp l r)) arg).
Proof.
  intros H E Hm. destruct (rejects_syntax _ _ _ _ _ _ H E) as [_ (_ & _ & _ & _ & _ & H1 & H2 & H3 & H4 & H5)].
  assert (X : forall P : node -> Prop, written D (fun s c n => s = YParams /\ P n) (pe_span e) ->
    exists psp l r, tree_here D (FormalParameters psp l r) (pe_span e) /\ params_shape (FormalParameters psp l r) /\
      P (FormalParameters psp l r)).
  { intros P Hw. destruct (written_tree _ _ _ Hw) as (s & c & n & ts & Hn & Hd & -> & HP). apply inv_params in Hd.
    destruct n; try contradiction. eauto 8. }
  cbn [In] in Hm. destruct Hm as [<-|[<-|[<-|[<-|[<-|[]]]]]].
  - destruct (X _ (H1 eq_refl)) as (psp & l & r & Ht & Hs & HP). exists psp, l, r. split; [exact Ht|].
    repeat (split; [intros Hx; try discriminate Hx|]); [|intros Hx; discriminate Hx].
    intros Hy. apply (is_simple_spec _ Hs) in Hy. congruence.
  - destruct (X _ (H2 eq_refl)) as (psp & l & r & Ht & Hs & HP). exists psp, l, r. split; [exact Ht|].
    repeat (split; [intros Hx; try discriminate Hx|]); [exact HP|intros Hx; discriminate Hx].
  - destruct (X _ (H3 eq_refl)) as (psp & l & r & Ht & Hs & HP). exists psp, l, r. split; [exact Ht|].
    repeat (split; [intros Hx; try discriminate Hx|]); [exact HP|intros Hx; discriminate Hx].
  - destruct (X _ (H4 eq_refl)) as (psp & l & r & Ht & Hs & HP). exists psp, l, r. split; [exact Ht|].
    repeat (split; [intros Hx; try discriminate Hx|]); [exact HP|intros Hx; discriminate Hx].
  - destruct (X _ (H5 eq_refl)) as (psp & l & r & Ht & Hs & HP). exists psp, l, r. split; [exact Ht|].
    repeat (split; [intros Hx; try discriminate Hx|]). intros _. rewrite <- (bound_names_spec _ Hs). exact HP.
Qed.

(** Loops over [in], and loops with semicolons, are refused after [for await],
    from there on. *)
Theorem C44_for_await tg m D e arg : rejects tg m D e ->
  pe_kind e = PSyntaxError "'for await' loops must be used with 'of'" arg ->
  exists before t u ts, tokens_here D before (t :: u :: ts) /\ t_value t = VKeyword KFor /\ t_value u = VKeyword KAwait /\
    span_of (t :: u :: ts) = pe_span e.
Proof.
  intros H E. destruct (rejects_syntax _ _ _ _ _ _ H E) as [(_ & _ & _ & _ & _ & _ & _ & _ & H1 & _) _].
  destruct (H1 eq_refl) as (l & t & u & ts & Hl & H4). exists l, t, u, ts. split; [exact Hl|exact H4].
Qed.

(** A declaration is missed only after [export] or [default]; the error points
    from the start of the next token back to the end of that word. *)
Theorem C44_expected_statement tg m D e arg : rejects tg m D e -> pe_kind e = PSyntaxError "Expected statement" arg ->
  exists before u t, tokens_here D before [u; t] /\ (t_value u = VKeyword KExport \/ t_value u = VKeyword KDefault) /\
    pe_span e = mk_span (sp_start (t_span t)) (sp_end (t_span u)).
Proof.
  intros H E. destruct (rejects_syntax _ _ _ _ _ _ H E) as [(_ & _ & _ & _ & _ & _ & _ & _ & _ & H1) _].
  destruct (H1 eq_refl) as (l & u & t & Hl & H4). exists l, u, t. split; [exact Hl|exact H4].
Qed.

(** Every syntax error has one of these texts, so the theorems above speak of
    all of them. *)
Theorem C44_messages tg m D e msg arg : rejects tg m D e -> pe_kind e = PSyntaxError msg arg ->
  In msg ["Unterminated comment"; "HTML comments are not allowed in this context"; "Invalid escape sequence";
    "Expected '}' in template expression"; "Number cannot contain multiple adjacent underscores";
    "Number cannot end with underscore"; "Expected number"; "Zero prefixed numbers are deprecated and not supported";
    "Number cannot be followed by identifier without separation"; "String contained unescaped new line";
    "Unterminated regular expression literal";
    "Cannot use `import` statement outside a module"; "Cannot use `export` statement outside a module";
    "Illegal newline after throw"; "Illegal return statement"; "Missing catch or finally after try";
    "`super` keyword not expected here"; "`super` property access only valid inside methods";
    "super() now allowed here"; "Rest element must be last element"; "'for await' loops must be used with 'of'";
    "Expected statement";
    "Invalid left-hand side assignment"; "Invalid update expression argument"; "Invalid destructuring assignment target";
    "Unexpected `eval` or `arguments` in strict mode"; "Delete of an unqualified identifier in strict mode";
    "Invalid tagged template on optional chain"; "Missing initializer in destructuring declaration";
    "Only name parameters allowed in method with ""use strict"""; "Getter must not have any formal parameters";
    "Setter function parameter must not be a rest parameter"; "Setter must have exactly one parameter";
    "Found duplicate parameter '{}', duplicates not allowed here"].
Proof. intros H E. apply rejects_says in H. unfold says in H. rewrite E in H. exact (proj2 H). Qed.

(** An initializer that is not allowed begins with the [=] that stands there. *)
Theorem C44_initializer tg m D e : rejects tg m D e -> pe_kind e = PInitializedNameNotAllowed ->
  token_here D (VPunct PEqual) (pe_span e).
Proof. intros H E. apply rejects_says in H. unfold says in H. rewrite E in H. now apply found_here. Qed.

(** An arrow function that is not allowed is written there. *)
Theorem C44_arrow_function tg m D e n : rejects tg m D e -> pe_kind e = PArrowFunctionNotAllowed n ->
  (exists sp a b p bd, n = EArrow sp a b p bd) /\ pe_span e = node_span n /\
  exists before ts pre f, chain D [] true (before ++ ts) pre f /\ fits 0 ts (lay n) (sp_end (node_span n)).
Proof.
  intros H E. apply rejects_says in H. unfold says in H. rewrite E in H.
  destruct H as (n' & c & l & ts & E' & (pre & f & Hc) & Hne & Hd & Hs).
  rewrite E in E'. injection E' as <-.
  pose proof (der_span _ _ _ _ _ Hd eq_refl) as Hsp.
  split; [eapply der_arrow_shape; exact Hd|]. split; [congruence|].
  exists l, ts, pre, f. split; [exact Hc|].
  apply chain_split in Hc. destruct Hc as (pre1 & f1 & _ & Hc).
  pose proof (chain_ordered _ _ _ _ _ _ Hc) as Ho. pose proof (der_fits _ _ _ _ _ Hd) as Hf.
  unfold LayoutSound.F in Hf. specialize (Hf Ho 0). cbn [lay_item lay1] in Hf.
  rewrite Hsp. exact Hf.
Qed.

End Errors.

(** ** The text of tokens *)

(** The text [s] of the source stands at [sp] (in ASCII sources [rpos] is the
    length). *)
Definition text_at {PF : Platform} (D s : str) (sp : span) : Prop :=
  exists before after, D = before ++ s ++ after /\ sp = mk_span (rpos before) (rpos (before ++ s)).

Lemma unescaped_tail {PF : Platform} s v : word_tail s v -> ~ In (ch "\") s -> s = v.
Proof.
  induction 1 as [|c s v H1 H2 IH|e c s v H1 H2 H3 IH]; intros Hn; [reflexivity| |].
  - rewrite IH; [reflexivity|]. intros Hi. apply Hn. now right.
  - exfalso. apply Hn. inversion H1; subst; now left.
Qed.

Lemma unescaped {PF : Platform} s v : word s v -> ~ In (ch "\") s -> s = v.
Proof.
  intros [c s' v' H1 H2|e c s' v' H1 H2 H3] Hn.
  - f_equal. apply unescaped_tail; [exact H2|]. intros Hi. apply Hn. now right.
  - exfalso. apply Hn. inversion H1; subst; now left.
Qed.

(** Where the theorems above say that a token stands, its spelling is in the
    source, from the start of the span to its end: signs and numbers always,
    words unless they are written with escapes. *)
Theorem C44_token_text {PF : Platform} D v sp : token_here D v sp ->
  exists s, text_at D s sp /\ s <> [] /\
    (forall p, v = VPunct p -> s = chars (punct_string p)) /\
    (forall k, v = VKeyword k -> ~ In (ch "\") s -> s = keyword_str k) /\
    (forall x, v = VIdentifier x -> ~ In (ch "\") s -> s = x) /\
    (forall x, v = VLiteral (TLNumber x) -> s = x).
Proof.
  intros (before & t & pre & f & Hc & <- & <-). apply chain_split in Hc. destruct Hc as (pre1 & f1 & _ & Hc).
  inversion Hc as [|? ? ? pre2 f2 ? ? ? Ht Hc2]; subst. clear Hc Hc2.
  inversion Ht as [html st gap s after v g b ED Htr Hcm Hl Hb1 Hb2 Et|html gap s after v g b ED Htr Hl Hb Et]; subst t;
    cbn [t_value t_span]; exists s; (split; [exists (pre1 ++ gap), after; split; [now rewrite <- app_assoc|now rewrite <- app_assoc]|]).
  - split; [eapply lexeme_nonempty; exact Hl|].
    inversion Hl as [p ? _ _ _|s' w tv ? Hw Hv _ _|s' ? _ _|q s' w ? _ _|s' w ? _|s' w ? _|s' fl ? _ _ _ _]; subst;
      (refine (conj _ (conj _ (conj _ _))); intros y Hy; try discriminate Hy).
    + now injection Hy as <-.
    + destruct Hv as [(k & _ & Hk)|[_ Hk]]; rewrite Hk in Hy; discriminate Hy.
    + destruct Hv as [(k & -> & Hk)|[_ Hk]]; rewrite Hk in Hy; [|discriminate Hy]. injection Hy as <-. now apply unescaped.
    + destruct Hv as [(k & _ & Hk)|[_ Hk]]; rewrite Hk in Hy; [discriminate Hy|]. injection Hy as <-. now apply unescaped.
    + destruct Hv as [(k & _ & Hk)|[_ Hk]]; rewrite Hk in Hy; discriminate Hy.
    + now injection Hy as <-.
  - split; [inversion Hl; discriminate|].
    inversion Hl; subst; (refine (conj _ (conj _ (conj _ _))); intros y Hy; discriminate Hy).
Qed.

(** So the report of a token that was not expected ends with the text that
    stands at its place, and begins with the same sign or word (unless it is
    written with escapes). *)
Theorem C31_expected_token {PF : Platform} debug file tg m D e v x w : ascii_str D = true -> rejects tg m D e ->
  pe_kind e = PUnexpectedToken v (Some x) -> spelt x w ->
  exists s middle, text_at D s (pe_span e) /\ (forall u, spelt v u -> ~ In (ch "\") s -> s = u) /\
    (forall u, spelt v u -> display debug e = chars "Syntax error: Unexpected token `" ++ u ++ chars "`") /\
    emit debug file D e =
    Some (display debug e ++ [newline] ++ middle ++
      chars " Unexpected token, found `" ++ s ++ chars "`, expected `" ++ w ++ chars "`" ++ [newline]).
Proof.
  intros A H K W. destruct (C44_unexpected_token _ _ _ _ _ _ H K) as [Ht _].
  destruct (C44_token_text _ _ _ Ht) as (s & Hs & Hne & Hp & Hk & _).
  pose proof Hs as (b & a & ED & ES).
  destruct (last_line b) as (above & before & Eb & Hb & Ha). destruct (first_line a) as (after & below & Ea & Hc & Hd).
  assert (PL : placed D above before s after below).
  { constructor; auto. subst. now rewrite <- !app_assoc. }
  rewrite ED, !ascii_str_app, !andb_true_iff in A. destruct A as (Ab & As & _).
  assert (S : pe_span e = mk_span (blen (above ++ before)) (blen (above ++ before ++ s))).
  { rewrite ES, app_assoc, <- Eb, !rpos_ascii, !blen_ascii; auto; rewrite ascii_str_app, Ab, As; reflexivity. }
  assert (NE : above ++ before ++ s <> []).
  { intros E. apply app_eq_nil in E. destruct E as [_ E]. apply app_eq_nil in E. tauto. }
  destruct (C31_unexpected_token debug file D above before s after below e v x w PL S NE K W) as (middle & E & Hf).
  exists s, middle. split; [exact Hs|]. split; [|split; [exact Hf|exact E]].
  intros u Hu Hn. destruct v; try contradiction; cbn [spelt] in Hu; subst u; auto.
Qed.

(** ** Every kind of error occurs *)

(** The source is rejected, with this error. *)
Definition says_at (m : bool) (src : string) (k : perr_kind) (a b : nat) : Prop :=
  exists e, @rejects ap TProgram m (chars src) e /\ pe_kind e = k /\ pe_span e = mk_span a b.

Lemma some_says m src k a b :
  match failed TProgram m (chars src) with
  | Some e => pe_kind e = k /\ pe_span e = mk_span a b
  | None => False
  end -> says_at m src k a b.
Proof. destruct (failed TProgram m (chars src)) as [e|] eqn:E; [|contradiction]. intros H. exists e. split; [now apply failed_rejects|exact H]. Qed.

Theorem C44_instances :
  says_at false "f(a, b c)" (PUnexpectedToken (VIdentifier (chars "c")) (Some (VPunct PComma))) 7 8 /\
  says_at false "if (a) { b ]" (PUnexpectedToken (VPunct PBraceClose) None) 11 12 /\
  says_at false "while a" (PUnexpectedToken (VIdentifier (chars "a")) (Some (VPunct PParenOpen))) 6 7 /\
  says_at false "function f(1) {}" (PExpectedIdentifier (VLiteral (TLNumber (chars "1")))) 11 12 /\
  says_at false "var a, if" (PForbiddenIdentifier (chars "if")) 7 9 /\
  says_at false "function f() { new.abc }" (PUnexpectedIdent (mk_ident (mk_span 19 22) (chars "abc"))) 19 22 /\
  says_at false "a = {" PEndOfStream 0 0 /\
  says_at false "f({a = 1})" PInitializedNameNotAllowed 5 6.
Proof. repeat split; apply some_says; vm_compute; split; reflexivity. Qed.

Theorem C44_instance_arrow :
  exists e n, @rejects ap TProgram false (chars "1 + (a) => a") e /\ pe_kind e = PArrowFunctionNotAllowed n /\
    node_span n = mk_span 4 12.
Proof.
  destruct (failed TProgram false (chars "1 + (a) => a")) as [e|] eqn:E; [|vm_compute in E; discriminate E].
  exists e. pose proof (failed_rejects _ _ _ _ E) as H.
  vm_compute in E. injection E as <-. eexists. split; [exact H|]. split; reflexivity.
Qed.

(** Stuck in a string that never ends, and at a character no token begins with. *)
Theorem C44_instance_lexical :
  says_at false "a = 'bc" (PLexerError unexpected_end_of_stream) 0 0 /\
  says_at false "a = b # c" (PLexerError (mk_lex_error (mk_span 6 7) (EKUnrecognizedCodePoint 35))) 6 7.
Proof. repeat split; apply some_says; vm_compute; split; reflexivity. Qed.

(** Every syntax error of these theorems occurs. *)
Theorem C44_instances_syntax :
  says_at false "a = 3in b" (PSyntaxError "Number cannot be followed by identifier without separation" []) 5 5 /\
  says_at false "f(); import a" (PSyntaxError "Cannot use `import` statement outside a module" []) 5 11 /\
  says_at false "export a" (PSyntaxError "Cannot use `export` statement outside a module" []) 0 6 /\
  says_at false "while (a) return b" (PSyntaxError "Illegal return statement" []) 10 16 /\
  says_at false "try { a } f()" (PSyntaxError "Missing catch or finally after try" []) 0 9 /\
  says_at false "a(super)" (PSyntaxError "`super` keyword not expected here" []) 2 7 /\
  says_at false "a(super.b)" (PSyntaxError "`super` property access only valid inside methods" []) 2 7 /\
  says_at false "super(a)" (PSyntaxError "super() now allowed here" []) 0 8 /\
  says_at false "throw
a" (PSyntaxError "Illegal newline after throw" []) 0 5 /\
  says_at false "[...a, b] = c" (PSyntaxError "Rest element must be last element" []) 4 5.
Proof. repeat split; apply some_says; vm_compute; split; reflexivity. Qed.

Theorem C44_instances_early :
  says_at false "b(); 1 = a" (PSyntaxError "Invalid left-hand side assignment" []) 5 6 /\
  says_at false "b(); a()++" (PSyntaxError "Invalid update expression argument" []) 5 8 /\
  says_at false "[a, b()] = c" (PSyntaxError "Invalid destructuring assignment target" []) 4 7 /\
  says_at false """use strict""; eval = 1" (PSyntaxError "Unexpected `eval` or `arguments` in strict mode" []) 14 18 /\
  says_at false """use strict""; delete (a)" (PSyntaxError "Delete of an unqualified identifier in strict mode" []) 22 23 /\
  says_at false "a?.b`c`" (PSyntaxError "Invalid tagged template on optional chain" []) 4 7 /\
  says_at false "let a, [b];" (PSyntaxError "Missing initializer in destructuring declaration" []) 7 10 /\
  says_at false "({a(b, [c]) {""use strict""}})" (PSyntaxError "Only name parameters allowed in method with ""use strict""" []) 3 11 /\
  says_at false "({get a(b) {}})" (PSyntaxError "Getter must not have any formal parameters" []) 7 10 /\
  says_at false "({set a(b, c) {}})" (PSyntaxError "Setter must have exactly one parameter" []) 7 13 /\
  says_at false "({set a(...b) {}})" (PSyntaxError "Setter function parameter must not be a rest parameter" []) 7 13 /\
  says_at false "({a(b, c, b) {}})" (PSyntaxError "Found duplicate parameter '{}', duplicates not allowed here" (chars "b")) 3 12 /\
  says_at false "async function f() { for await (a in b); }" (PSyntaxError "'for await' loops must be used with 'of'" []) 21 33 /\
  says_at false "async function f() { for await (a; b; c); }" (PSyntaxError "'for await' loops must be used with 'of'" []) 21 34 /\
  says_at true "export let 5" (PSyntaxError "Expected statement" []) 7 6.
Proof. repeat split; apply some_says; vm_compute; split; reflexivity. Qed.

(** One check for all theorems of this file. *)
Definition error_theorems :=
  (@C44_unexpected_token, @C44_expected_identifier, @C44_forbidden_identifier, @C44_unexpected_identifier,
   @C44_end_of_input, @C44_lexical, @C44_initializer, @C44_arrow_function, C44_instances, C44_instance_arrow,
   C44_instance_lexical, @C44_lexical_message, @C44_import_export, @C44_throw, @C44_statement, @C44_rest,
   C44_instances_syntax, @C44_target, @C44_strict, @C44_template, @C44_missing_initializer, @C44_parameters,
   C44_instances_early, @C44_for_await, @C44_expected_statement, @C44_messages, @C44_token_text, @C31_expected_token).
Print Assumptions error_theorems.
