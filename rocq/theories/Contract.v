(** * Contract: what every parser method promises.

    Used by the proofs only; the theorems about [parse] in [PropParser.v] do
    not mention it. *)

From Verif Require Import Base Tokens PeekReader CharReader Lexer LexSpec LexerFacts LexProps Ast Prog
  TokChain ParseState Parser Grammar GrammarFacts.
Local Open Scope string_scope.
Local Open Scope list_scope.

Section Contract.
Context {PF : Platform}.
Variable D : str.
Variable m : bool.

Notation der := (der D).

Definition curv (s : pst) (v : tvalue) : Prop := exists t, cur s = Ok t /\ t_value t = v.

(** ** States reached by consuming tokens *)

Definition Back (s0 : pst) (toks : list token) (s : pst) : Prop :=
  clean D s0 /\ clean D s /\ log s = log s0 ++ toks /\
  match toks with
  | [] => forall t, cur s = Ok t -> exists t0, cur s0 = Ok t0 /\ hd_rel t0 t
  | t :: _ => exists t0, cur s0 = Ok t0 /\ hd_rel t0 t
  end.

Definition Reach (s0 : pst) (toks : list token) (s : pst) : Prop :=
  Back s0 toks s /\ (toks = [] -> s = s0) /\ (toks <> [] -> pos s = tfin toks).

Definition posof (s : pst) : nat :=
  match cur s with Ok t => tstart t | Err _ => pos s end.

(** [te] are the last tokens consumed before [s], and start at [start]. *)
Definition Left (s : pst) (start : nat) (te : list token) : Prop :=
  te <> [] /\ start = tsta te /\ pos s = tfin te /\ exists l, log s = l ++ te.

(** ** Errors *)

Definition span_ok (sp : span) : Prop := sp_start sp <= sp_end sp /\ sp_end sp <= blen D.

Definition arrow_clause (ac : option ctx) (s0 : pst) (toks : list token) (s : pst) (e : perr) : Prop :=
  match pe_kind e with
  | PArrowFunctionNotAllowed n =>
    pe_span e = node_span n /\
    exists t0, cur s0 = Ok t0 /\
      (tstart t0 < sp_start (pe_span e) \/
       (tstart t0 = sp_start (pe_span e) /\ isp PParenOpen t0 /\
        exists c, ac = Some c /\ Reach s0 toks s /\ toks <> [] /\ der YArrow c (I n) toks))
  | _ => True
  end.

(** The error for [export let] without a declaration: its span goes from the
    start of the [let] back to the end of the [export]. *)
Definition expected_statement (e : perr) : Prop :=
  m = true /\ pe_kind e = PSyntaxError "Expected statement" [] /\
  sp_end (pe_span e) <= sp_start (pe_span e) /\ sp_start (pe_span e) <= blen D.

(** The source begins with tokens of which the last has the value [v] and the
    span [sp]. *)
Definition found (v : tvalue) (sp : span) : Prop :=
  exists l t, is_log D (l ++ [t]) /\ t_value t = v /\ t_span t = sp.

(** Tokens of the source that stand at [sp], the first of which has the value [v]. *)
Definition begins (v : tvalue) (sp : span) : Prop :=
  exists l t ts, is_log D (l ++ t :: ts) /\ t_value t = v /\ span_of (t :: ts) = sp.

(** What a syntax error is about: words. *)
Definition word_says (msg : string) (sp : span) : Prop :=
  (In msg lexer_messages -> exists l pre f, chain D [] true l pre f /\ stuck D pre f) /\
  (msg = "Cannot use `import` statement outside a module"%string -> m = false /\ found (VKeyword KImport) sp) /\
  (msg = "Cannot use `export` statement outside a module"%string -> m = false /\ found (VKeyword KExport) sp) /\
  (msg = "Illegal newline after throw"%string -> exists l u t, is_log D (l ++ [u; t]) /\
     t_value u = VKeyword KThrow /\ t_span u = sp /\ t_fol t = true) /\
  (msg = "Illegal return statement"%string -> begins (VKeyword KReturn) sp) /\
  (msg = "Missing catch or finally after try"%string -> begins (VKeyword KTry) sp) /\
  (msg = "`super` keyword not expected here"%string \/ msg = "`super` property access only valid inside methods"%string \/
   msg = "super() now allowed here"%string -> begins (VKeyword KSuper) sp) /\
  (msg = "Rest element must be last element"%string -> exists l u ts, is_log D (l ++ u :: ts) /\
     t_value u = VPunct PTripleDot /\ (span_of ts = sp \/ span_of (u :: ts) = sp)) /\
  (msg = "'for await' loops must be used with 'of'"%string -> exists l t u ts, is_log D (l ++ t :: u :: ts) /\
     t_value t = VKeyword KFor /\ t_value u = VKeyword KAwait /\ span_of (t :: u :: ts) = sp) /\
  (msg = "Expected statement"%string -> exists l u t, is_log D (l ++ [u; t]) /\
     (t_value u = VKeyword KExport \/ t_value u = VKeyword KDefault) /\ sp = mk_span (tstart t) (tend u)).

(** Tokens of the source that stand at [sp] are written for the node [n]. *)
Definition written (P : sort -> ctx -> node -> Prop) (sp : span) : Prop :=
  exists l ts s c n, is_log D (l ++ ts) /\ ts <> [] /\ der s c (I n) ts /\ spanned s = true /\
  node_span n = sp /\ span_of ts = sp /\ P s c n.

(** The token is written [x]. *)
Definition named (x : str) (v : tvalue) : Prop :=
  v = VIdentifier x \/ exists k, v = VKeyword k /\ x = keyword_str k.

(** What a syntax error is about: what is written there. *)
Definition node_says (msg : string) (arg : str) (sp : span) : Prop :=
  (In msg ["Invalid left-hand side assignment"; "Invalid update expression argument"; "Invalid destructuring assignment target"]%string ->
     written (fun s c n => is_assignment_target_type_simple c n = Ok false) sp) /\
  (msg = "Unexpected `eval` or `arguments` in strict mode"%string -> exists x v,
     (x = chars "eval" \/ x = chars "arguments") /\ found v sp /\ named x v) /\
  (msg = "Delete of an unqualified identifier in strict mode"%string -> exists x v, found v sp /\ named x v) /\
  (msg = "Invalid tagged template on optional chain"%string -> exists v, found v sp /\
     match v with VTemplateHead _ | VLiteral (TLTemplate _) => True | _ => False end) /\
  (msg = "Missing initializer in destructuring declaration"%string ->
     written (fun s c n => s = YPat /\ is_bind_ident n = false) sp) /\
  (msg = "Only name parameters allowed in method with ""use strict"""%string ->
     written (fun s c n => s = YParams /\ is_simple n = false) sp) /\
  (msg = "Getter must not have any formal parameters"%string ->
     written (fun s c n => s = YParams /\ (params_bindings n <> [] \/ params_rest n <> None)) sp) /\
  (msg = "Setter function parameter must not be a rest parameter"%string ->
     written (fun s c n => s = YParams /\ params_rest n <> None) sp) /\
  (msg = "Setter must have exactly one parameter"%string ->
     written (fun s c n => s = YParams /\ length (params_bindings n) <> 1) sp) /\
  (msg = "Found duplicate parameter '{}', duplicates not allowed here"%string ->
     written (fun s c n => s = YParams /\ 2 <= count_occ (list_eq_dec N.eq_dec) (bound_names n) arg) sp).

Definition node_messages : list string :=
  ["Invalid left-hand side assignment"; "Invalid update expression argument"; "Invalid destructuring assignment target";
   "Unexpected `eval` or `arguments` in strict mode"; "Delete of an unqualified identifier in strict mode";
   "Invalid tagged template on optional chain"; "Missing initializer in destructuring declaration";
   "Only name parameters allowed in method with ""use strict"""; "Getter must not have any formal parameters";
   "Setter function parameter must not be a rest parameter"; "Setter must have exactly one parameter";
   "Found duplicate parameter '{}', duplicates not allowed here"]%string.

Lemma not_listed msg l : existsb (String.eqb msg) l = false -> ~ In msg l.
Proof.
  intros H Hi. apply not_true_iff_false in H. apply H. apply existsb_exists. exists msg.
  split; [exact Hi|apply String.eqb_refl].
Qed.

Lemma no_node_says msg arg sp : existsb (String.eqb msg) node_messages = false -> node_says msg arg sp.
Proof.
  intros H. apply not_listed in H.
  refine (conj _ (conj _ (conj _ (conj _ (conj _ (conj _ (conj _ (conj _ (conj _ _)))))))));
    intros Hm; exfalso; apply H; clear H;
    [destruct Hm as [<-|[<-|[<-|[]]]]|rewrite Hm..]; repeat (first [left; reflexivity|right]).
Qed.

Definition word_messages : list string :=
  ["Cannot use `import` statement outside a module"; "Cannot use `export` statement outside a module";
   "Illegal newline after throw"; "Illegal return statement"; "Missing catch or finally after try";
   "`super` keyword not expected here"; "`super` property access only valid inside methods";
   "super() now allowed here"; "Rest element must be last element"; "'for await' loops must be used with 'of'";
   "Expected statement"]%string.

Definition syntax_says (msg : string) (arg : str) (sp : span) : Prop :=
  (word_says msg sp /\ node_says msg arg sp) /\ In msg (lexer_messages ++ word_messages ++ node_messages).

Lemma no_word_says msg sp : existsb (String.eqb msg) (lexer_messages ++ word_messages) = false -> word_says msg sp.
Proof.
  intros Hp. apply not_listed in Hp. rename Hp into H. unfold word_messages in H.
  rewrite in_app_iff in H.
  refine (conj _ (conj _ (conj _ (conj _ (conj _ (conj _ (conj _ (conj _ (conj _ _)))))))));
    intros Hm; exfalso; apply H; [left; exact Hm|right; cbn [In]; intuition auto..].
Qed.

Lemma some_message msg : existsb (String.eqb msg) (lexer_messages ++ word_messages ++ node_messages) = true ->
  In msg (lexer_messages ++ word_messages ++ node_messages).
Proof. intros H. apply existsb_exists in H. destruct H as (x & Hx & E). apply String.eqb_eq in E. now subst. Qed.

Lemma lexer_says msg sp : In msg lexer_messages ->
  (exists l pre f, chain D [] true l pre f /\ stuck D pre f) -> syntax_says msg [] sp.
Proof.
  intros H Hs. split; [|apply in_or_app; left; exact H].
  split; [|apply no_node_says; cbn [lexer_messages In] in H; repeat (destruct H as [<-|H]; [reflexivity|]); contradiction].
  split; [auto|].
  cbn [lexer_messages In] in H.
  refine (conj _ (conj _ (conj _ (conj _ (conj _ (conj _ (conj _ (conj _ _))))))));
    intros Hm; exfalso; revert H; try (destruct Hm as [Hm|[Hm|Hm]]); rewrite Hm;
    intuition discriminate.
Qed.

Local Ltac syn_says :=
  split; [|apply some_message; reflexivity];
  split; [|apply no_node_says; reflexivity];
  refine (conj _ (conj _ (conj _ (conj _ (conj _ (conj _ (conj _ (conj _ (conj _ _)))))))));
  intros Hm;
  [exfalso; revert Hm; refine (not_listed _ _ _); reflexivity|..];
  try discriminate Hm; try solve [destruct Hm as [Hm|[Hm|Hm]]; discriminate Hm]; clear Hm.

Lemma says_import sp : m = false -> found (VKeyword KImport) sp ->
  syntax_says "Cannot use `import` statement outside a module" [] sp.
Proof. intros H1 H2. syn_says. auto. Qed.
Lemma says_export sp : m = false -> found (VKeyword KExport) sp ->
  syntax_says "Cannot use `export` statement outside a module" [] sp.
Proof. intros H1 H2. syn_says. auto. Qed.
Lemma says_throw sp l u t : is_log D (l ++ [u; t]) -> t_value u = VKeyword KThrow -> t_span u = sp -> t_fol t = true ->
  syntax_says "Illegal newline after throw" [] sp.
Proof. intros. syn_says. eauto 8. Qed.
Lemma says_return sp : begins (VKeyword KReturn) sp -> syntax_says "Illegal return statement" [] sp.
Proof. intros H. syn_says. exact H. Qed.
Lemma says_try sp : begins (VKeyword KTry) sp -> syntax_says "Missing catch or finally after try" [] sp.
Proof. intros H. syn_says. exact H. Qed.
Lemma says_super msg sp : begins (VKeyword KSuper) sp ->
  In msg ["`super` keyword not expected here"; "`super` property access only valid inside methods"; "super() now allowed here"]%string ->
  syntax_says msg [] sp.
Proof. intros H [<-|[<-|[<-|[]]]]; syn_says; exact H. Qed.
Lemma says_rest sp l u ts : is_log D (l ++ u :: ts) -> t_value u = VPunct PTripleDot ->
  span_of ts = sp \/ span_of (u :: ts) = sp -> syntax_says "Rest element must be last element" [] sp.
Proof. intros. syn_says. eauto 8. Qed.
Lemma says_for_await sp l t u ts : is_log D (l ++ t :: u :: ts) -> t_value t = VKeyword KFor ->
  t_value u = VKeyword KAwait -> span_of (t :: u :: ts) = sp -> syntax_says msg_for_await [] sp.
Proof. intros. syn_says. eauto 10. Qed.
Lemma says_expected sp l u t : is_log D (l ++ [u; t]) -> t_value u = VKeyword KExport \/ t_value u = VKeyword KDefault ->
  sp = mk_span (tstart t) (tend u) -> syntax_says "Expected statement" [] sp.
Proof. intros. syn_says. eauto 10. Qed.


Local Ltac node_tac :=
  split; [|apply some_message; reflexivity];
  split; [apply no_word_says; reflexivity|];
  refine (conj _ (conj _ (conj _ (conj _ (conj _ (conj _ (conj _ (conj _ (conj _ _)))))))));
  intros Hm;
  [try (exfalso; revert Hm; refine (not_listed _ _ _); reflexivity)|..];
  try discriminate Hm; clear Hm.

Definition target_messages : list string :=
  ["Invalid left-hand side assignment"; "Invalid update expression argument"; "Invalid destructuring assignment target"]%string.

Lemma says_target msg arg sp : In msg target_messages ->
  written (fun s c n => is_assignment_target_type_simple c n = Ok false) sp -> syntax_says msg arg sp.
Proof. intros [<-|[<-|[<-|[]]]] H; node_tac; exact H. Qed.
Lemma says_eval arg sp x v : x = chars "eval" \/ x = chars "arguments" -> found v sp -> named x v ->
  syntax_says msg_eval arg sp.
Proof. intros. unfold msg_eval. node_tac. eauto 8. Qed.
Lemma says_delete arg sp x v : found v sp -> named x v ->
  syntax_says "Delete of an unqualified identifier in strict mode" arg sp.
Proof. intros. node_tac. eauto 8. Qed.
Lemma says_template arg sp v : found v sp -> match v with VTemplateHead _ | VLiteral (TLTemplate _) => True | _ => False end ->
  syntax_says "Invalid tagged template on optional chain" arg sp.
Proof. intros. node_tac. eauto 8. Qed.
Lemma says_missing arg sp : written (fun s c n => s = YPat /\ is_bind_ident n = false) sp ->
  syntax_says "Missing initializer in destructuring declaration" arg sp.
Proof. intros. node_tac. assumption. Qed.
Lemma says_use_strict arg sp : written (fun s c n => s = YParams /\ is_simple n = false) sp ->
  syntax_says "Only name parameters allowed in method with ""use strict""" arg sp.
Proof. intros. node_tac. assumption. Qed.
Lemma says_getter arg sp : written (fun s c n => s = YParams /\ (params_bindings n <> [] \/ params_rest n <> None)) sp ->
  syntax_says "Getter must not have any formal parameters" arg sp.
Proof. intros. node_tac. assumption. Qed.
Lemma says_setter_rest arg sp : written (fun s c n => s = YParams /\ params_rest n <> None) sp ->
  syntax_says "Setter function parameter must not be a rest parameter" arg sp.
Proof. intros. node_tac. assumption. Qed.
Lemma says_setter arg sp : written (fun s c n => s = YParams /\ length (params_bindings n) <> 1) sp ->
  syntax_says "Setter must have exactly one parameter" arg sp.
Proof. intros. node_tac. assumption. Qed.
Lemma says_duplicate arg sp :
  written (fun s c n => s = YParams /\ 2 <= count_occ (list_eq_dec N.eq_dec) (bound_names n) arg) sp ->
  syntax_says "Found duplicate parameter '{}', duplicates not allowed here" arg sp.
Proof. intros. node_tac. assumption. Qed.

(** What the error says is so; [arrow]: what is said of an arrow function. *)
Definition says (e : perr) (arrow : Prop) : Prop :=
  match pe_kind e with
  | PEndOfStream => exists l pre f, chain D [] true l pre f /\ eos_at D pre f
  | PUnexpectedToken v x => found v (pe_span e) /\ forall y, x = Some y -> v <> y
  | PExpectedIdentifier v => found v (pe_span e) /\ (forall x, v <> VIdentifier x) /\ forall k, v <> VKeyword k
  | PForbiddenIdentifier x => exists k, found (VKeyword k) (pe_span e) /\ x = keyword_str k /\
    exists kc, is_allowed_as_identifier k kc = false
  | PUnexpectedIdent i => id_span i = pe_span e /\
    exists v, found v (pe_span e) /\ (v = VIdentifier (id_name i) \/ exists k, v = VKeyword k /\ id_name i = keyword_str k)
  | PInitializedNameNotAllowed => found (VPunct PEqual) (pe_span e)
  | PArrowFunctionNotAllowed _ => arrow
  | PLexerError le => le_span le = pe_span e /\ exists l pre f, chain D [] true l pre f /\ stuck D pre f
  | PSyntaxError msg arg => syntax_says msg arg (pe_span e)
  end.

Definition arrow_at (e : perr) : Prop :=
  exists n c l toks, pe_kind e = PArrowFunctionNotAllowed n /\ is_log D (l ++ toks) /\ toks <> [] /\
    der YArrow c (I n) toks /\ pe_span e = span_of toks.

Definition ErrPost (ac : option ctx) (s0 s : pst) (e : perr) : Prop :=
  wf D s /\ exists toks, log s = log s0 ++ toks /\
    (forall t, In t toks -> exists t0, cur s0 = Ok t0 /\ tstart t0 <= tstart t) /\
    ((expected_statement e \/ span_ok (pe_span e)) /\ says e (arrow_at e)) /\
    arrow_clause ac s0 toks s e.

(** In the source a [from] is followed by a literal that is not a string. *)
Definition bad_specifier : Prop :=
  exists ts t l, is_log D (ts ++ [t]) /\ (exists ts' u, ts = ts' ++ [u] /\ isk KFrom u) /\
    t_value t = VLiteral l /\ forall v d, l <> TLString v d.

(** In the source [async] is followed by [function] on a later line. *)
Definition split_async : Prop :=
  exists ts u t, is_log D (ts ++ [u; t]) /\ isk KAsync u /\ isk KFunction t /\ t_fol t = true.

Definition PanicOK : Prop :=
  ascii_str D = false \/ (debug_assertions = true /\ split_async) \/ (m = true /\ bad_specifier).

(** A token has just been consumed. *)
Definition consumed (s : pst) : Prop := exists l t, log s = l ++ [t] /\ pos s = tend t.
(** The last token consumed is [export] or [default], and a token follows. *)
Definition exported (s : pst) : Prop := exists l u t, log s = l ++ [u] /\ pos s = tend u /\
  (isk KExport u \/ isk KDefault u) /\ cur s = Ok t.

(** ** Tables *)

Definition level_index (l : level) : nat :=
  match l with
  | LvCoalesce => 11 | LvOr => 10 | LvAnd => 9 | LvBitOr => 8 | LvBitXor => 7 | LvBitAnd => 6
  | LvEquality => 5 | LvRelational => 4 | LvShift => 3 | LvAdditive => 2 | LvMultiplicative => 1
  | LvExponent => 0
  end.

(** A method calls only methods of lower rank before it has consumed a token. *)
Definition rank {B : Set} (n : nt B) : nat :=
  match n with
  | NIdentifier _ | NIdentifierName | NModuleSpecifier => 0
  | NArrowParameters _ => 2 | NArrow _ _ _ => 3 | NArrowExpr _ => 4
  | NCoverParen _ => 5 | NTemplateExpr _ => 2 | NPrimary _ => 6 | NMemberTerminal _ => 7
  | NNewOrMember _ => 8 | NLeftHandSide _ => 9 | NUpdate _ => 10 | NUnary _ => 11
  | NBinary _ l => 12 + level_index l
  | NConditional _ => 24 | NConditionalOrArrow _ => 25 | NAsgPattern _ => 2
  | NCoverAsync _ => 2 | NAssignmentAsync _ => 26 | NAssignment _ => 27 | NExpr _ => 28
  | NExprStmt _ => 29 | NStmt _ => 30 | NDeclaration _ => 2 | NDeclOrStmt _ => 31
  | NAllStmts _ _ | NBodyStmts _ _ | NBlockLoop _ _ | NCaseStmts _ _ | NDirectives _ _ => 32
  | NProgram _ => 33
  | NUnaryOp _ _ _ | NPrefixUpdate _ _ _ => 12 | NAssignRight _ _ _ _ => 28
  | NArgument _ | NArrayElement _ => 28 | NArgumentsLoop _ _ | NArrayLoop _ _ => 29
  | NTemplateParts _ _ => 29
  | NMethodDefinition _ | NComputedDefinition _ => 2 | NPropertyDefinition _ => 3 | NObjectLoop _ _ => 4
  | NMemberProperty _ => 2 | NMemberRight _ _ _ => 3 | NTaggedTemplate _ _ _ => 2 | NCallExpr _ _ _ => 2
  | NRecursiveCall _ _ _ | NNewOrMemberLoop _ _ _ => 4
  | NOptionalMemberProperty _ => 2 | NOptionalMember _ _ _ => 3 | NOptionalCall _ _ _ => 2
  | NOptionalExpr _ _ _ => 4 | NOptionalArguments _ => 2
  | NAsgTarget _ => 10 | NAsgElement _ => 11 | NArrayAsgLoop _ _ => 12
  | NNamedAsg _ => 2 | NObjectAsgLoop _ _ => 3
  | NBindPattern _ => 2 | NNamedBind _ => 2 | NBindElement _ => 3
  | NFormalLoop _ _ | NObjectBindLoop _ _ | NArrayBindLoop _ _ => 4
  | NConciseBody _ => 28 | NFunctionContent _ _ | NFunctionDeclContent _ _ _ => 2
  | NClassTail _ => 2 | NClassElement _ _ => 3 | NClassBodyLoop _ _ _ => 4
  | NMethod _ _ _ _ _ => 2 | NVariableDecl _ => 3 | NVariableDecls _ => 4
  | NForDeclaration _ => 10 | NForInOf _ _ _ => 11 | NForInit _ => 29 | NForInitDecl _ _ _ => 5
  | NOptionalForInit _ => 30
  | NVarExport _ _ => 2 | NRequiredDecl _ => 3 | NDeclExport _ _ | NDeclDefaultExport _ _ => 4
  | NNamedExport _ => 2 | NImportClause _ => 2 | NNamedImportsLoop _ _ => 2
  | NNamedExportsLoop _ => 2 | NCaseBlockLoop _ _ => 2
  | _ => 1
  end.

Definition KR : nat := 40.

Lemma rank_lt {B : Set} (n : nt B) : rank n < KR.
Proof. unfold KR. destruct n; cbn; try lia. destruct l; cbn; lia. Qed.

(** Methods that may succeed without consuming a token. *)
Definition emp {B : Set} (n : nt B) : bool :=
  match n with
  | NDirectives _ _ | NProgram _ | NSequence _ _ _ | NRecursiveCall _ _ _ | NNewOrMemberLoop _ _ _
  | NBinaryLoop _ _ _ _ | NOptionalExpr _ _ _ | NOptionalArguments _ | NVariableDeclsLoop _ _
  | NAllStmts _ _ | NDeclaration _ | NFunctionIdentifier _ | NClassIdentifier _
  | NCaseBlockLoop _ _ | NCaseStmts _ _ | NOptionalForInit _ => true
  | _ => false
  end.

(** Methods that may report an arrow function that starts where they start. *)
Definition actx {B : Set} (n : nt B) : option ctx :=
  match n with
  | NConditional c | NBinary c _ | NUnary c | NUpdate c | NLeftHandSide c | NNewOrMember c
  | NMemberTerminal c | NPrimary c | NCoverParen c | NAsgTarget c | NAsgElement c
  | NArrayAsgLoop c _ | NForDeclaration c | NForInOf c _ _
  | NUnaryOp c _ _ | NPrefixUpdate c _ _ => Some c
  | _ => None
  end.

Definition ctx_of {B : Set} (n : nt B) : option ctx :=
  match n with
  | NIdentifier c | NPropertyName c | NDirectives c _ | NProgram c | NCoverParen c | NCoverAsync c
  | NCoveredCall c | NExpr c | NSequence c _ _ | NAssignment c | NConditionalOrArrow c
  | NAssignmentAsync c | NAssignRight c _ _ _ | NParenthesized c | NYield c | NConditional c
  | NUnary c | NUnaryOp c _ _ | NAwait c | NUpdate c | NPrefixUpdate c _ _ | NLeftHandSide c
  | NRecursiveCall c _ _ | NCallExpr c _ _ | NSuperCall c | NImportCall c | NImportArgument c
  | NNewOrMember c | NNewOrMemberLoop c _ _ | NTaggedTemplate c _ _ | NMemberTerminal c
  | NNewExpr c | NSuperProperty c | NImportMeta c | NNewTarget c | NArguments c
  | NArgumentsLoop c _ | NArgument c | NOptionalArguments c | NPrimary c | NInitializer c
  | NBinary c _ | NBinaryLoop c _ _ _ | NTemplateExpr c | NTemplate c | NTemplateParts c _
  | NArrayLiteral c | NArrayLoop c _ | NArrayElement c | NObjectLiteral c | NObjectLoop c _
  | NPropertyDefinition c | NComputedDefinition c | NNamedDefinition c _ _ | NMemberRight c _ _
  | NOptionalExpr c _ _ | NOptionalCall c _ _ | NOptionalMember c _ _
  | NOptionalMemberProperty c | NMemberProperty c | NComputedProperty c | NAsgPattern c
  | NArrayAsg c | NArrayAsgLoop c _ | NAsgElement c | NAsgTarget c | NObjectAsg c
  | NObjectAsgLoop c _ | NNamedAsg c | NSingleAsg c | NBindPattern c | NObjectBind c
  | NObjectBindLoop c _ | NSingleBind c | NNamedBind c | NArrayBind c | NArrayBindLoop c _
  | NBindElement c | NBindRest c | NRestBind c _ | NArrowExpr c | NAsyncArrowExpr c
  | NArrow c _ _ | NArrowParameters c | NConciseBody c | NArrowIdent c | NFunctionExpr c
  | NAsyncFunctionExpr c | NFunctionContent c _ | NFunctionDecl c | NAsyncFunctionDecl c
  | NFunctionDeclContent c _ _ | NFunctionIdentifier c | NFormalParameters c | NFormalLoop c _
  | NFunctionBody c | NBodyStmts c _ | NClassDecl c | NClassIdentifier c | NClassExpr c
  | NClassTail c | NClassBody c _ | NClassBodyLoop c _ _ | NClassElement c _
  | NMethodDefinition c | NGeneratorMethod c _ | NAccessor c _ _ | NAsyncMethod c _
  | NMethod c _ _ _ _ | NVariableStmt c _ | NVariableDecls c | NVariableDeclsLoop c _
  | NVariableDecl c | NAllStmts c _ | NDeclOrStmt c | NStmt c | NDeclaration c | NBlock c
  | NBlockLoop c _ | NExprStmt c | NLabeled c | NBreak c | NContinue c | NReturn c | NThrow c
  | NIf c | NWith c | NTry c | NCatch c | NSwitch c | NCaseBlock c | NCaseBlockLoop c _
  | NCaseClause c | NCaseStmts c _ | NDoWhile c | NWhile c | NFor c | NForInOf c _ _
  | NForIn c _ _ | NForOf c _ _ _ | NForDeclaration c | NOptionalForInit c | NForInit c
  | NForInitDecl c _ _ | NExportDecl c | NDefaultExport c _ | NVarExport c _ | NDeclExport c _
  | NDeclDefaultExport c _ | NRequiredDecl c | NImportDecl c | NImportClause c
  | NNamespaceImport c | NNamedImports c | NNamedImportsLoop c _ | NImportSpecifier c => Some c
  | _ => None
  end.

Definition kind_kw (k : variable_kind) : keyword :=
  match k with VKVar => KVar | VKLet => KLet | VKConst => KConst end.

(** What a caller must establish besides a clean state. *)
Definition PreX {B : Set} (n : nt B) (s : pst) : Prop :=
  match ctx_of n with Some c => c_module c = m | None => True end /\
  match n with
  | NProgram _ => pos s = 0 /\ log s = []
  | NYield c => c_yield c = true
  | NAwait c => c_await c = true
  | NCoverParen _ => curv s (VPunct PParenOpen)
  | NCoverAsync _ | NCoveredCall _ | NAssignmentAsync _ => curv s (VKeyword KAsync)
  | NImportCall _ => curv s (VKeyword KImport)
  | NNewExpr _ => curv s (VKeyword KNew)
  | NSuperProperty _ => curv s (VKeyword KSuper)
  | NImportMeta _ => curv s (VKeyword KImport) /\ exists t, nxt s = Ok t /\ isp PDot t
  | NNewTarget _ => curv s (VKeyword KNew) /\ exists t, nxt s = Ok t /\ isp PDot t
  | NMemberRight _ _ _ | NMemberProperty _ => curv s (VPunct PDot) \/ curv s (VPunct PBraceOpen)
  | NOptionalMember _ _ _ | NOptionalMemberProperty _ =>
    curv s (VPunct PDot) \/ curv s (VPunct PBraceOpen) \/ curv s (VPunct PQuestionMarkDot)
  | NComputedDefinition _ => curv s (VPunct PBraceOpen)
  | NAsgPattern _ =>
    forall t, cur s = Ok t -> t_value t = VPunct PBraceOpen \/ t_value t = VPunct PBracketOpen
  | NAccessor _ _ k =>
    (k = MKGet /\ curv s (VKeyword KGet)) \/ (k = MKSet /\ curv s (VKeyword KSet))
  | NVariableStmt _ k => curv s (VKeyword (kind_kw k))
  | NForInOf _ start asy => (forall t, cur s = Ok t -> start <= tstart t) /\
    (asy = true -> exists l t u ts, log s = l ++ t :: u :: ts /\ isk KFor t /\ isk KAwait u /\ tstart t = start)
  | NDeclExport _ _ | NRequiredDecl _ => m = true /\ exported s
  | NDeclDefaultExport _ _ =>
    (m = true /\ exported s) /\ (curv s (VKeyword KClass) \/ curv s (VKeyword KFunction) \/
                 (curv s (VKeyword KAsync) /\ value_is (VKeyword KFunction) (rok (nxt s)) = true))
  | NVarExport _ _ => m = true /\ curv s (VKeyword KVar)
  | NModuleSpecifier =>
    m = true /\ ((exists l t, log s = l ++ [t] /\ isk KFrom t) \/ is_string_literal (rok (cur s)) = true)
  | NModuleImport _ => m = true /\ is_string_literal (rok (cur s)) = true
  | NExportDecl _ | NImportDecl _ | NDefaultExport _ _
  | NNamespaceExport _ | NNamedExport _ => m = true
  | _ => True
  end.

Definition decl_shape (d : node) : Prop :=
  match d with
  | SVariable _ _ _ | SFunctionDecl _ _ _ _ _ _ | SClassDecl _ _ _ _ => True
  | _ => False
  end.
Definition fnclass_shape (d : node) : Prop :=
  match d with
  | SFunctionDecl _ _ _ _ _ _ | SClassDecl _ _ _ _ => True
  | _ => False
  end.

(** What a successful call gives: [a] is the result, [toks] the tokens consumed. *)
Definition G {B : Set} (n : nt B) (s : pst) (a : B) (toks : list token) (s' : pst) : Prop :=
  match n in nt B return B -> Prop with
  | NIdentifier c => fun a => exists t, toks = [t] /\ ident_tok c t a
  | NIdentifierName => fun a => exists t, toks = [t] /\ name_tok t a
  | NPropertyName c => fun a => der YName c (I a) toks
  | NDirectives c acc => fun a => exists ds dl, a = acc ++ ds /\ der (YMany YItem) c (L dl) toks /\
      map directive_of dl = map Some ds
  | NProgram c => fun a => der YProgram c (I a) toks /\ cur s' = Err end_of_stream
  | NCoverParen c => fun a => der YPrimary c (I a) toks
  | NCoverAsync c => fun a => der YAssign c (I a) toks
  | NCoveredCall c => fun a => exists t i ta args, toks = t :: ta /\ isk KAsync t /\ ident_tok c t i /\
      der YArgs c (L args) ta /\ a = ECall (span_of toks) (EIdentRef i) (span_of ta) args
  | NExpr c => fun a => der YExpr c (I a) toks
  | NSequence c start acc => fun a => forall te, Left s start te -> der (YSep YAssign) c (L acc) te ->
      (curv s (VPunct PComma) \/ 2 <= length acc) -> der YExpr c (I a) (te ++ toks)
  | NAssignment c => fun a => der YAssign c (I a) toks
  | NConditionalOrArrow c => fun a => der YCond c (I a) toks \/ der YArrow c (I a) toks
  | NAssignmentAsync c => fun a => der YAssign c (I a) toks
  | NAssignRight c start lhs o => fun a => exists r, der YAssign c (I r) toks /\
      a = EAssign (mk_span start (pos s')) o lhs r
  | NParenthesized c => fun a => der YPrimary c (I a) toks
  | NYield c => fun a => der YAssign c (I a) toks
  | NConditional c => fun a => der YCond c (I a) toks
  | NUnary c => fun a => der YUnary c (I a) toks
  | NUnaryOp c start o => fun a => exists e, der YUnary c (I e) toks /\
      (o = UDelete -> c_strict c = true -> deletable e) /\ a = EUnary (mk_span start (pos s')) o e
  | NAwait c => fun a => der YUnary c (I a) toks
  | NUpdate c => fun a => der YUpdate c (I a) toks
  | NPrefixUpdate c start o => fun a => exists e, der YUnary c (I e) toks /\ simple_target c e /\
      a = EUpdate (mk_span start (pos s')) o true e
  | NLeftHandSide c => fun a => der YLhs c (I a) toks
  | NRecursiveCall c start e => fun a => forall te, Left s start te -> der YRec c (I e) te ->
      der YRec c (I a) (te ++ toks)
  | NCallExpr c start callee => fun a => exists args, der YArgs c (L args) toks /\
      a = ECall (mk_span start (pos s')) callee (span_of toks) args
  | NSuperCall c => fun a => der YLhs0 c (I a) toks
  | NImportCall c => fun a => der YLhs0 c (I a) toks
  | NImportArgument c => fun a => exists t1 e te t2, toks = t1 :: te ++ [t2] /\ isp PParenOpen t1 /\
      der YAssign c (I e) te /\ isp PParenClose t2 /\ a = (span_of toks, [ArgExpr e])
  | NNewOrMember c => fun a => der YMember c (I a) toks
  | NNewOrMemberLoop c start e => fun a => forall te, Left s start te -> der YMember c (I e) te ->
      der YMember c (I a) (te ++ toks)
  | NTaggedTemplate c start callee => fun a => exists p, der YTemplate c (I p) toks /\
      a = ETaggedTemplate (mk_span start (pos s')) callee p
  | NMemberTerminal c => fun a => der YTerm c (I a) toks
  | NNewExpr c => fun a => der YTerm c (I a) toks
  | NSuperProperty c => fun a => der YTerm c (I a) toks
  | NImportMeta c => fun a => der YTerm c (I a) toks
  | NNewTarget c => fun a => der YTerm c (I a) toks
  | NArguments c => fun a => exists l, a = (span_of toks, l) /\ der YArgs c (L l) toks
  | NArgumentsLoop c acc => fun a => exists l, a = acc ++ l /\
      der (YList YArg PParenClose) (with_in true c) (L l) toks /\ (curv s (VPunct PParenClose) -> l = [])
  | NArgument c => fun a => der YArg c (I a) toks
  | NOptionalArguments c => fun a =>
      (toks = [] /\ a = (None, [])) \/
      (toks <> [] /\ exists l, a = (Some (span_of toks), l) /\ der YArgs c (L l) toks)
  | NPrimary c => fun a => der YPrimary c (I a) toks
  | NInitializer c => fun a => der YInit c (O (Some a)) toks
  | NBinary c l => fun a => der (YBin l) c (I a) toks
  | NBinaryLoop c l start e => fun a => forall te, Left s start te -> der (YBin l) c (I e) te ->
      der (YBin l) c (I a) (te ++ toks)
  | NTemplateExpr c => fun a => der YPrimary c (I a) toks
  | NTemplate c => fun a => der YTemplate c (I a) toks
  | NTemplateParts c acc => fun a => exists ps, a = acc ++ ps /\ der YTpl c (L ps) toks
  | NArrayLiteral c => fun a => der YPrimary c (I a) toks
  | NArrayLoop c acc => fun a => exists l, a = acc ++ l /\ der YArr c (L l) toks /\
      (curv s (VPunct PBraceClose) -> l = [])
  | NArrayElement c => fun a =>
      (a = ElemElision /\ exists t, toks = [t] /\ isp PComma t) \/
      (is_elision a = false /\ der YElem c (I a) toks)
  | NObjectLiteral c => fun a => der YPrimary c (I a) toks
  | NObjectLoop c acc => fun a => exists l, a = acc ++ l /\
      der (YList YPropDef PBracketClose) c (L l) toks /\ (curv s (VPunct PBracketClose) -> l = [])
  | NPropertyDefinition c => fun a => der YPropDef c (I a) toks
  | NComputedDefinition c => fun a => der YPropDef c (I a) toks
  | NNamedDefinition c start name => fun a => exists t e te, toks = t :: te /\ isp PColon t /\
      der YAssign c (I e) te /\ a = DefNamed (mk_span start (pos s')) name e
  | NMemberRight c start lhs => fun a => exists p, der YProp c (I p) toks /\
      a = EMember (mk_span start (pos s')) lhs p
  | NOptionalExpr c start object => fun a => forall te, Left s start te ->
      (der YOpt c (I object) te \/
       (der YLhs0 c (I object) te /\ is_nested_new object = false /\ curv s (VPunct PQuestionMarkDot))) ->
      der YOpt c (I a) (te ++ toks)
  | NOptionalCall c start callee => fun a => exists args ta, der YArgs c (L args) ta /\
      ((curv s (VPunct PQuestionMarkDot) /\ exists t, toks = t :: ta /\ isp PQuestionMarkDot t /\
          a = EOptionalCall (mk_span start (pos s')) callee (span_of ta) args true) \/
       (~ curv s (VPunct PQuestionMarkDot) /\ toks = ta /\
          a = EOptionalCall (mk_span start (pos s')) callee (span_of ta) args false))
  | NOptionalMember c start object => fun a => exists p b, der (YOptProp b) c (I p) toks /\
      (curv s (VPunct PQuestionMarkDot) -> b = true) /\
      a = EOptionalMember (mk_span start (pos s')) object p b
  | NOptionalMemberProperty c => fun a => exists b, der (YOptProp b) c (I a) toks /\
      (curv s (VPunct PQuestionMarkDot) -> b = true) /\
      (~ curv s (VPunct PQuestionMarkDot) -> b = false)
  | NMemberProperty c => fun a => der YProp c (I a) toks
  | NComputedProperty c => fun a => exists t te t1, toks = t :: te ++ [t1] /\ isp PBraceOpen t /\
      der YExpr c (I a) te /\ isp PBraceClose t1
  | NAsgPattern c => fun a => der YAsg c (I a) toks
  | NArrayAsg c => fun a => der YAsg c (I a) toks
  | NArrayAsgLoop c acc => fun a => exists l r, a = (acc ++ l, r) /\ der YAsgArr c (RO l r) toks
  | NAsgElement c => fun a => exists sp x tx o to, a = AsgElement sp x o /\ toks = tx ++ to /\
      der YAsgTarget c (I x) tx /\ der YInit (with_in true c) (O o) to /\ sp = span_of toks
  | NAsgTarget c => fun a => der YAsgTarget c (I a) toks
  | NObjectAsg c => fun a => der YAsg c (I a) toks
  | NObjectAsgLoop c acc => fun a => exists l r, a = (acc ++ l, r) /\
      der (YRList YAsgProp YAsgTarget PBracketClose) c (R l r) toks /\
      (curv s (VPunct PBracketClose) -> l = [] /\ r = None)
  | NNamedAsg c => fun a => der YAsgProp c (I a) toks
  | NSingleAsg c => fun a => der YAsgProp c (I a) toks
  | NBindPattern c => fun a => der YPat c (I a) toks
  | NObjectBind c => fun a => der YPat c (I a) toks
  | NObjectBindLoop c acc => fun a => exists l r, a = (acc ++ l, r) /\
      der (YRList YBindProp YPat PBracketClose) c (R l r) toks /\
      (curv s (VPunct PBracketClose) -> l = [] /\ r = None)
  | NSingleBind c => fun a => der YBindProp c (I a) toks
  | NNamedBind c => fun a => der YBindProp c (I a) toks
  | NArrayBind c => fun a => der YPat c (I a) toks
  | NArrayBindLoop c acc => fun a => exists l r, a = (acc ++ l, r) /\ der YBindArr c (RO l r) toks /\
      (curv s (VPunct PBraceClose) -> l = [] /\ r = None)
  | NBindElement c => fun a => der YBindElem c (I a) toks
  | NBindRest c => fun a => exists t tx, toks = t :: tx /\ isp PTripleDot t /\ der YPat c (I a) tx
  | NRestBind c p => fun a => exists t tx t1, toks = t :: tx ++ [t1] /\ isp PTripleDot t /\
      der YPat c (I a) tx /\ isp p t1
  | NArrowExpr c => fun a => der YArrow c (I a) toks
  | NAsyncArrowExpr c => fun a => der YArrow c (I a) toks
  | NArrow c start asy => fun a => forall pre, async_prefix asy pre -> start = tsta (pre ++ toks) ->
      der YArrow c (I a) (pre ++ toks)
  | NArrowParameters c => fun a =>
      (fst a = true /\ exists t i, toks = [t] /\ ident_tok c t i /\
         snd a = FormalParameters (span_of [t]) [BindElement (span_of [t]) (BindIdent i) None] None) \/
      (fst a = false /\ der YParams c (I (snd a)) toks)
  | NConciseBody c => fun a => der YConcise c (I a) toks
  | NArrowIdent c => fun a => exists t i, toks = [t] /\ ident_tok c t i /\
      a = FormalParameters (span_of [t]) [BindElement (span_of [t]) (BindIdent i) None] None
  | NFunctionExpr c => fun a => der YFunction c (I a) toks
  | NAsyncFunctionExpr c => fun a => der YFunction c (I a) toks
  | NFunctionContent c start => fun a => exists o to p tp b tb, toks = to ++ tp ++ tb /\
      opt_name c o to /\ der YParams c (I p) tp /\ der YBody c (I b) tb /\
      a = EFunction (mk_span start (pos s')) (c_await c) (c_yield c) o p b
  | NFunctionDecl c => fun a => der YDecl c (I a) toks /\ fnclass_shape a
  | NAsyncFunctionDecl c => fun a => der YDecl c (I a) toks /\ fnclass_shape a
  | NFunctionDeclContent c start i => fun a => exists p tp b tb, toks = tp ++ tb /\ tp <> [] /\
      der YParams c (I p) tp /\ der YBody c (I b) tb /\
      a = SFunctionDecl (mk_span start (pos s')) (c_await c) (c_yield c) i p b
  | NFunctionIdentifier c => fun a =>
      (exists t, toks = [t] /\ ident_tok c t a) \/
      (toks = [] /\ c_default c = true /\ a = ident_dummy (posof s))
  | NFormalParameters c => fun a => der YParams c (I a) toks
  | NFormalLoop c acc => fun a => exists l r, a = (acc ++ l, r) /\
      der (YRList YBindElem YPat PParenClose) c (R l r) toks /\
      (curv s (VPunct PParenClose) -> l = [] /\ r = None)
  | NFunctionBody c => fun a => der YBody c (I a) toks
  | NBodyStmts c acc => fun a => exists l tl t1, a = acc ++ l /\ toks = tl ++ [t1] /\
      der (YMany YItem) c (L l) tl /\ isp PBracketClose t1
  | NClassDecl c' => fun a => forall c, c' = with_strict true c -> der YDecl c (I a) toks /\ fnclass_shape a
  | NClassIdentifier c => fun a =>
      (exists t, toks = [t] /\ ident_tok c t a) \/
      (toks = [] /\ c_default c = true /\ a = ident_dummy (posof s))
  | NClassExpr c => fun a => der YClass c (I a) toks
  | NClassTail c => fun a => exists th t1 tl, toks = th ++ t1 :: tl /\ der YHeritage c (O (fst a)) th /\
      isp PBracketOpen t1 /\ der (YClassBody (is_some (fst a))) c (L (snd a)) tl
  | NClassBody c hs => fun a => exists t1 tl, toks = t1 :: tl /\ isp PBracketOpen t1 /\
      der (YClassBody hs) c (L a) tl
  | NClassBodyLoop c hs acc => fun a => exists l, a = acc ++ l /\ der (YClassBody hs) c (L l) toks
  | NClassElement c hs => fun a => der (YClassElem hs) c (I a) toks
  | NMethodDefinition c => fun a => der YMethod c (I a) toks
  | NGeneratorMethod c st => fun a => forall tst, static_prefix c st tst -> der YMethod c (I a) (tst ++ toks)
  | NAccessor c st k => fun a => forall tst, static_prefix c st tst -> der YMethod c (I a) (tst ++ toks)
  | NAsyncMethod c st => fun a => forall tst, static_prefix c st tst -> der YMethod c (I a) (tst ++ toks)
  | NMethod c start st name k => fun a => exists p tp b tb, toks = tp ++ tb /\
      der YParams (with_yield false c) (I p) tp /\ der YBody c (I b) tb /\ method_checks k p b /\
      a = Method (mk_span start (pos s')) name k p b (c_yield c) (c_await c) st
  | NVariableStmt c k => fun a =>
      der (match k with VKVar => YStmt | _ => YDecl end) c (I a) toks /\ exists sp l, a = SVariable sp k l
  | NVariableDecls c => fun a => der (YSep YVarDecl) c (L a) toks
  | NVariableDeclsLoop c acc => fun a => forall te, der (YSep YVarDecl) c (L acc) te ->
      der (YSep YVarDecl) c (L a) (te ++ toks)
  | NVariableDecl c => fun a => der YVarDecl c (I a) toks
  | NAllStmts c acc => fun a => exists l, a = acc ++ l /\ der (YMany YItem) c (L l) toks /\
      cur s' = Err end_of_stream
  | NDeclOrStmt c => fun a => der YItem c (I a) toks
  | NStmt c => fun a => der YStmt c (I a) toks
  | NDeclaration c => fun a =>
      match a with
      | None => toks = []
      | Some d => toks <> [] /\ der YDecl c (I d) toks /\
          (~ curv s (VKeyword KImport) -> ~ curv s (VKeyword KExport) -> decl_shape d) /\
          (curv s (VKeyword KClass) \/ curv s (VKeyword KFunction) \/ curv s (VKeyword KAsync) ->
           fnclass_shape d)
      end
  | NBlock c => fun a => der YBlock c (I a) toks
  | NBlockLoop c acc => fun a => exists l tl t1, a = acc ++ l /\ toks = tl ++ [t1] /\
      der (YMany YItem) c (L l) tl /\ isp PBracketClose t1
  | NExprStmt c' => fun a => forall c, with_in true c' = with_in true c -> der YStmt c (I a) toks
  | NLabeled c => fun a => der YStmt c (I a) toks
  | NEmptyStmt => fun a => forall c, der YStmt c (I a) toks
  | NBreak c => fun a => der YStmt c (I a) toks
  | NContinue c => fun a => der YStmt c (I a) toks
  | NReturn c => fun a => der YStmt c (I a) toks
  | NThrow c => fun a => der YStmt c (I a) toks
  | NDebugger => fun a => forall c, der YStmt c (I a) toks
  | NIf c => fun a => der YStmt c (I a) toks
  | NWith c => fun a => der YStmt c (I a) toks
  | NTry c => fun a => der YStmt c (I a) toks
  | NCatch c => fun a => der YCatch c (I a) toks
  | NSwitch c => fun a => der YStmt c (I a) toks
  | NCaseBlock c => fun a => exists t3 tl t4, toks = t3 :: tl ++ [t4] /\ isp PBracketOpen t3 /\
      der (YMany YCase) c (L a) tl /\ isp PBracketClose t4
  | NCaseBlockLoop c acc => fun a => exists l, a = acc ++ l /\ der (YMany YCase) c (L l) toks
  | NCaseClause c => fun a => der YCase c (I a) toks
  | NCaseStmts c acc => fun a => exists l, a = acc ++ l /\ der (YMany YItem) c (L l) toks
  | NDoWhile c => fun a => der YStmt c (I a) toks
  | NWhile c => fun a => der YStmt c (I a) toks
  | NFor c => fun a => der YStmt c (I a) toks
  | NForInOf c start asy => fun a => exists x tx t2 e te t3 b tb,
      toks = tx ++ t2 :: te ++ t3 :: tb /\ der YForDecl c (I x) tx /\
      der YExpr (with_in true c) (I e) te /\ isp PParenClose t3 /\ der YStmt c (I b) tb /\
      ((isk KIn t2 /\ asy = false /\ a = SForIn (mk_span start (pos s')) x e b) \/
       (isk KOf t2 /\ a = SForOf (mk_span start (pos s')) x e b asy))
  | NForIn c start x => fun a => exists t2 e te t3 b tb,
      toks = t2 :: te ++ t3 :: tb /\ isk KIn t2 /\
      der YExpr (with_in true c) (I e) te /\ isp PParenClose t3 /\ der YStmt c (I b) tb /\
      a = SForIn (mk_span start (pos s')) x e b
  | NForOf c start x asy => fun a => exists t2 e te t3 b tb,
      toks = t2 :: te ++ t3 :: tb /\ isk KOf t2 /\
      der YExpr (with_in true c) (I e) te /\ isp PParenClose t3 /\ der YStmt c (I b) tb /\
      a = SForOf (mk_span start (pos s')) x e b asy
  | NForDeclaration c => fun a => der YForDecl c (I a) toks
  | NOptionalForInit c => fun a => der YForInit c (O a) toks
  | NForInit c => fun a => der YForInit c (O (Some a)) toks
  | NForInitDecl c start k => fun a => exists l, der (YSep YVarDecl) (with_in false c) (L l) toks /\
      a = SVariable (mk_span start (pos s')) k l
  | NExportDecl c => fun a => der YDecl c (I a) toks
  | NDefaultExport c start => fun a => forall t, isk KExport t -> start = tstart t ->
      der YDecl c (I a) (t :: toks)
  | NVarExport c start => fun a => exists d, der YStmt c (I d) toks /\
      (exists sp l, d = SVariable sp VKVar l) /\ a = XDecl (mk_span start (pos s')) d
  | NDeclExport c start => fun a => exists d, der YDecl c (I d) toks /\
      (~ curv s (VKeyword KImport) -> ~ curv s (VKeyword KExport) -> decl_shape d) /\
      a = XDecl (mk_span start (pos s')) d
  | NDeclDefaultExport c start => fun a => exists d, der YDecl c (I d) toks /\ fnclass_shape d /\
      a = XDefaultDecl (mk_span start (pos s')) d
  | NRequiredDecl c => fun d => der YDecl c (I d) toks /\
      (~ curv s (VKeyword KImport) -> ~ curv s (VKeyword KExport) -> decl_shape d) /\
      (curv s (VKeyword KClass) \/ curv s (VKeyword KFunction) \/ curv s (VKeyword KAsync) ->
       fnclass_shape d)
  | NNamespaceExport start => fun a => forall c t, c_module c = true -> isk KExport t ->
      start = tstart t -> der YDecl c (I a) (t :: toks)
  | NNamedExport start => fun a => forall c t, c_module c = true -> isk KExport t ->
      start = tstart t -> der YDecl c (I a) (t :: toks)
  | NImportDecl c => fun a => der YDecl c (I a) toks
  | NImportClause c => fun a =>
      der YImportClause c (Im (ic_default a) (ic_namespace a) (ic_named a)) toks
  | NModuleImport start => fun a => forall c t, c_module c = true -> isk KImport t ->
      start = tstart t -> der YDecl c (I a) (t :: toks)
  | NModuleSpecifier => fun a => exists t, toks = [t] /\ str_tok t a
  | NNamespaceImport c => fun a => exists t t1 t2, toks = [t; t1; t2] /\ isp PStar t /\ isk KAs t1 /\
      ident_tok c t2 a
  | NNamedImports c => fun a => exists t tl, toks = t :: tl /\ isp PBracketOpen t /\
      der (YList YImportSpec PBracketClose) c (L a) tl
  | NNamedImportsLoop c acc => fun a => exists l, a = acc ++ l /\
      der (YList YImportSpec PBracketClose) c (L l) toks /\ (curv s (VPunct PBracketClose) -> l = [])
  | NImportSpecifier c => fun a => der YImportSpec c (I a) toks
  | NNamedExports => fun a => exists t tl, toks = t :: tl /\ isp PBracketOpen t /\
      forall c, der (YList YExportSpec PBracketClose) c (L a) tl
  | NNamedExportsLoop acc => fun a => exists l, a = acc ++ l /\
      (forall c, der (YList YExportSpec PBracketClose) c (L l) toks) /\
      (curv s (VPunct PBracketClose) -> l = [])
  | NExportSpecifier => fun a => forall c, der YExportSpec c (I a) toks
  end a.

(** Extra knowledge about failures. *)
Definition EX {B : Set} (n : nt B) (s : pst) : Prop :=
  match n with
  | NIdentifier c => is_identifier_token (rok (cur s)) (keyword_context c) = false
  | _ => True
  end.

(** After directives the state may have been rewound. *)
Definition weak {B : Set} (n : nt B) : bool :=
  match n with NDirectives _ _ => true | _ => false end.

Definition Pre {B : Set} (n : nt B) (s : pst) : Prop := clean D s /\ PreX n s.

Definition OkPost {B : Set} (n : nt B) (s : pst) (a : B) (s' : pst) : Prop :=
  exists toks,
    (Reach s toks s' \/ (weak n = true /\ Back s toks s' /\ not_eos (cur s'))) /\
    (emp n = false -> toks <> []) /\ G n s a toks s'.

Definition Post {B : Set} (n : nt B) (s : pst) (r : result B perr) (s' : pst) : Prop :=
  match r with
  | Ok a => OkPost n s a s'
  | Err e => ErrPost (actx n) s s' e /\ EX n s
  end.

Definition mu {B : Set} (n : nt B) (s : pst) : nat := KR * rem D s + rank n.

(** ** Weakest preconditions *)

Fixpoint wp {A : Set} (b : nat) (p : prg A) (s : pst) (Q : result A perr -> pst -> Prop) {struct p} : Prop :=
  match p with
  | Ret r => Q r s
  | Panic => PanicOK
  | Op o k =>
    match step o s with
    | SDone x s' => wp b (k x) s' Q
    | SPanic => PanicOK
    | SFuel => False
    end
  | Call n k => Pre n s /\ mu n s < b /\ forall r s', Post n s r s' -> wp b (k r) s' Q
  end.

Definition method_ok {B : Set} (n : nt B) : Prop :=
  forall s, Pre n s -> wp (mu n s) (body B n) s (Post n s).

(** If all methods keep their promise, so does every run. *)
Theorem run_sound :
  (forall (B : Set) (n : nt B), method_ok n) ->
  forall fuel (B : Set) (n : nt B) s, Pre n s -> mu n s < fuel ->
  match run body fuel B n s with
  | ODone r s' => Post n s r s'
  | OPanic => PanicOK
  | OFuel => False
  end.
Proof.
  intros Hall. induction fuel as [|f IH]; intros B n s HP Hf; [lia|].
  cbn [run]. pose proof (Hall B n s HP) as Hw.
  enough (Hg : forall (A : Set) (p : prg A) s0 Q, wp (mu n s) p s0 Q ->
    match exec (run body f) p s0 with
    | ODone r s' => Q r s'
    | OPanic => PanicOK
    | OFuel => False
    end) by (apply Hg; exact Hw).
  intros A p. induction p as [r| |B0 o k IHk|B0 n0 k IHk]; intros s0 Q; cbn [wp exec].
  - auto.
  - auto.
  - destruct (step o s0) as [x s1| |]; auto. intros H. apply IHk. exact H.
  - intros (HP0 & Hm & Hk). specialize (IH B0 n0 s0 HP0 ltac:(lia)).
    destruct (run body f B0 n0 s0) as [r s1| |]; auto. apply IHk. auto.
Qed.

End Contract.

#[export] Hint Extern 1 (In _ target_messages) => cbn; tauto : core.
