(** * GrammarFacts: consequences of the grammar rules used by the parser proof. *)

From Verif Require Import Base Tokens PeekReader CharReader Lexer LexSpec LexerFacts LexProps Ast Prog
  TokChain ParseState Parser Grammar.
Local Open Scope string_scope.
Local Open Scope list_scope.

Section Facts.
Context {PF : Platform}.
Variable D : str.
Notation der := (der D).

(** Sorts whose phrases have at least one token. *)
Fixpoint solid (s : sort) : bool :=
  match s with
  | YMany _ | YInit | YHeritage | YOptStmt | YOptExpr | YForInit | YOptCatch | YFinally | YProgram => false
  | YSep s => solid s
  | _ => true
  end.

Lemma cons_ne {A} (x : A) l : x :: l <> [].
Proof. discriminate. Qed.
Lemma app_ne_l {A} (a b : list A) : a <> [] -> a ++ b <> [].
Proof. destruct a; [congruence|discriminate]. Qed.
Lemma app_ne_r {A} (a b : list A) : b <> [] -> a ++ b <> [].
Proof. destruct a; [auto|discriminate]. Qed.

Lemma solid_next l : solid (next_sort l) = true.
Proof. destruct l; reflexivity. Qed.

Theorem der_nonempty s c it ts : der s c it ts -> solid s = true -> ts <> [].
Proof.
  induction 1; cbn [solid]; intros Hs; subst; try discriminate Hs;
    try (rewrite solid_next in * );
    repeat first
      [ apply cons_ne
      | solve [auto]
      | match goal with |- ?a ++ _ :: _ <> [] => apply app_ne_r end
      | match goal with IH : solid _ = true -> ?a <> [] |- ?a ++ _ <> [] => apply app_ne_l; apply IH; reflexivity end
      | apply app_ne_r ].
Qed.

Definition spanned (s : sort) : bool :=
  match s with
  | YExpr | YAssign | YArrow | YConcise | YCond | YBin _ | YUnary | YUpdate | YLhs | YLhs0 | YOpt | YRec
  | YMember | YTerm | YPrimary | YParams | YBody | YFunction | YClass | YPat | YBindElem
  | YBindProp | YAsg | YAsgTarget | YAsgElem | YAsgProp | YVarDecl | YForDecl | YItem | YDecl | YStmt
  | YBlock | YCatch | YCase | YImportSpec | YExportSpec | YProgram => true
  | _ => false
  end.

Lemma span_one t : span_of [t] = t_span t.
Proof. unfold span_of, tsta, tfin. cbn. unfold tstart, tend. destruct (t_span t); reflexivity. Qed.

Lemma node_span_create sp a b o : node_span (create_expr sp a b o) = sp.
Proof. destruct o; reflexivity. Qed.

Lemma spanned_next l : spanned (next_sort l) = true.
Proof. destruct l; reflexivity. Qed.

Theorem der_span s c n ts : der s c (I n) ts -> spanned s = true -> node_span n = span_of ts.
Proof.
  enough (H : forall it, der s c it ts -> spanned s = true ->
    match it with I n => node_span n = span_of ts | _ => True end) by (intros; eapply (H (I n)); eauto).
  clear n. intros it.
  induction 1; cbn [spanned]; intros Hs; try discriminate Hs; cbn [node_span];
    try rewrite node_span_create;
    try first [ exact Logic.I | reflexivity | assumption | solve [auto] | solve [symmetry; apply span_one]
          | solve [subst; symmetry; apply span_one] ].
  - apply IHder. apply spanned_next.
  - unfold ident_tok in H. destruct H as [-> _]. symmetry. apply span_one.
  - unfold ident_tok in H. destruct H as [-> _]. symmetry. apply span_one.
  - destruct (c_module c); cbn; auto.
Qed.

(** The identifier inside any number of parentheses. *)
Fixpoint paren_ident (e : node) : option ident :=
  match e with
  | EIdentRef i => Some i
  | EParenthesized _ e' => paren_ident e'
  | _ => None
  end.

Lemma paren_create sp a b o : paren_ident (create_expr sp a b o) = None.
Proof. destruct o; reflexivity. Qed.

Theorem der_paren_ident s c n ts i :
  der s c (I n) ts -> paren_ident n = Some i -> exists t, In t ts /\ id_span i = t_span t /\
    (t_value t = VIdentifier (id_name i) \/ exists k, t_value t = VKeyword k /\ id_name i = keyword_str k).
Proof.
  enough (H : forall it, der s c it ts ->
    match it with
    | I n => paren_ident n = Some i -> exists t, In t ts /\ id_span i = t_span t /\
        (t_value t = VIdentifier (id_name i) \/ exists k, t_value t = VKeyword k /\ id_name i = keyword_str k)
    | _ => True end) by (intros; eapply (H (I n)); eauto).
  clear n. intros it.
  induction 1; cbn [paren_ident]; try rewrite paren_create;
    try first [ exact Logic.I | intros Hx; discriminate Hx | assumption ].
  - intros [= <-]. exists t. split; [simpl; auto|]. destruct H as [H1 H2]. split; [exact H1|].
    destruct H2 as [H2|(k & H2 & _ & H3)]; eauto.
  - intros Hx. destruct (IHder Hx) as (u & Hu & E). exists u. split; auto. subst. simpl. right.
    apply in_or_app. auto.
  - destruct (c_module c); discriminate.
Qed.

Lemma check_simple_ok msg c e x : check_simple msg c e = Ok x -> simple_target c e.
Proof.
  unfold check_simple. destruct (is_assignment_target_type_simple c e) as [[|]|] eqn:E; try discriminate.
  intros _. revert E. induction e; cbn [is_assignment_target_type_simple simple_target];
    intros E; try discriminate; auto.
  match goal with _ : context [id_name ?x] |- _ => rename x into i end.
  intros Hs. rewrite Hs in E. cbn [andb] in E.
  destruct (str_eqb (id_name i) (chars "arguments")) eqn:E1; [discriminate|].
  destruct (str_eqb (id_name i) (chars "eval")) eqn:E2; [discriminate|].
  split; intros Hx; rewrite Hx in *.
  - assert (str_eqb (chars "arguments") (chars "arguments") = true) by reflexivity. congruence.
  - assert (str_eqb (chars "eval") (chars "eval") = true) by reflexivity. congruence.
Qed.

Lemma check_simple_err msg c e err : check_simple msg c e = Err err ->
  (err = syntax_error msg (node_span e) /\ is_assignment_target_type_simple c e = Ok false) \/
  exists i, paren_ident e = Some i /\ err = syntax_error msg_eval (id_span i) /\
    (id_name i = chars "eval" \/ id_name i = chars "arguments").
Proof.
  unfold check_simple. destruct (is_assignment_target_type_simple c e) as [[|]|x] eqn:E; try discriminate.
  - intros [= <-]. eauto.
  - intros [= ->]. right. revert E. induction e; cbn [is_assignment_target_type_simple paren_ident];
      intros E; try discriminate; auto.
    destruct (_ && _)%bool eqn:Eb; [|discriminate]. injection E as <-. apply andb_true_iff in Eb. destruct Eb as [_ Eb].
    apply orb_true_iff in Eb. rewrite !str_eqb_eq in Eb. eexists. split; [reflexivity|]. split; [reflexivity|]. tauto.
Qed.

Lemma delete_ok c e x : early_errors_unary_delete c e = Ok x -> c_strict c = true -> deletable e.
Proof.
  intros E Hs. revert E. induction e; cbn [early_errors_unary_delete deletable]; rewrite Hs; cbn [negb];
    try discriminate; auto.
Qed.

Lemma delete_err c e err : early_errors_unary_delete c e = Err err ->
  exists i, paren_ident e = Some i /\ err = syntax_error "Delete of an unqualified identifier in strict mode" (id_span i).
Proof.
  induction e; cbn [early_errors_unary_delete paren_ident]; destruct (c_strict c); cbn [negb];
    try discriminate; auto.
  intros [= <-]. eauto.
Qed.

End Facts.
