(** * PropComplete: written programs are accepted, with the tree they stand for (C41). *)

From Verif Require Import Base Tokens PeekReader CharReader Lexer LexSpec LexerFacts LexSound3 LexComplete6 Ast Prog TokChain ParseState Parser
  ParseRuns Source Stream AstSpec StaticSem Layout Bare Written Starts Forward Fwd1 Fwd7 Complete PropLexer PropParser.
Local Open Scope string_scope.
Local Open Scope list_scope.

(** The state the parser starts the lexer in: comments written [<!--] are for scripts. *)
Definition start_state (m : bool) : lexer_state := mk_ls (negb m) false false.

Section Claims.
Context {PF : Platform}.

Lemma run_entry tg m D ts a :
  ascii_str D = true -> source_tokens D (start_state m) [] true ts ->
  (setting D (start_state m) ts -> wpt D (start_state m) ts (body _ (entry tg m)) ts (okq (isb a) [])) ->
  exists a', accepts tg m D a' /\ bare a' = a.
Proof.
  intros HA HT H.
  assert (HS : setting D (start_state m) ts) by (repeat split; auto).
  destruct (at_new D (start_state m) eq_refl eq_refl HA ts HT m) as (s & En & Hat & _); [now destruct m|].
  destruct (H HS (ex_intro _ [] eq_refl) s Hat) as (r & s' & ts' & (f & Ef) & _ & _ & (-> & x & -> & Hx)).
  exists x. split; [|exact Hx]. exists (S f), s'. unfold parse_fuel. rewrite En. exact Ef.
Qed.

(** Every program the grammar allows is accepted, as the tree it stands for. *)
Theorem C41_program_partial m D ts a :
  ascii_str D = true -> source_tokens D (start_state m) [] true ts ->
  G CProgram (ctx_default m) ts (N a) ->
  exists a', accepts TProgram m D a' /\ bare a' = a.
Proof. intros HA HT H. eapply run_entry; eauto. intros HS. exact (G_complete D _ ts HS _ _ _ _ H). Qed.

(** The same for [parse::<Expr>] .. *)
Theorem C41_expression_partial m D ts a :
  ascii_str D = true -> source_tokens D (start_state m) [] true ts ->
  G (CE 0) (with_in true (ctx_default m)) ts (N a) ->
  exists a', accepts TExpr m D a' /\ bare a' = a.
Proof.
  intros HA HT H. eapply run_entry; eauto. intros HS. pose proof (G_complete D _ ts HS _ _ _ _ H) as HM.
  cbn [M Fwd2.ME] in HM. specialize (HM [] Logic.I). rewrite app_nil_r in HM. exact HM.
Qed.

(** .. and [parse::<Stmt>]. *)
Theorem C41_statement_partial m D ts a :
  ascii_str D = true -> source_tokens D (start_state m) [] true ts ->
  G (CTop None) (ctx_default m) ts (N a) ->
  exists a', accepts TStmt m D a' /\ bare a' = a.
Proof.
  intros HA HT H. eapply run_entry; eauto. intros HS. pose proof (G_complete D _ ts HS _ _ _ _ H) as HM.
  cbn [M] in HM. specialize (HM [] (conj eq_refl Logic.I)). rewrite app_nil_r in HM. exact HM.
Qed.

(** So the grammar gives a text at most one meaning, however the text is
    divided into tokens. *)
Theorem C41_unambiguous m D ts us a b :
  ascii_str D = true -> source_tokens D (start_state m) [] true ts -> source_tokens D (start_state m) [] true us ->
  G CProgram (ctx_default m) ts (N a) -> G CProgram (ctx_default m) us (N b) -> a = b.
Proof.
  intros HA HT HU Ha Hb.
  destruct (C41_program_partial m D ts a HA HT Ha) as (x & (f & s & Ex) & <-).
  destruct (C41_program_partial m D us b HA HU Hb) as (y & (g & s' & Ey) & <-).
  f_equal. pose proof (parse_fuel_det f g TProgram D m) as E. rewrite Ex, Ey in E. specialize (E ltac:(discriminate) ltac:(discriminate)). congruence.
Qed.

End Claims.

(** ** An instance *)

Definition toks (D : str) : list token :=
  match @read_all ap (lexer_new D) with (Ok ts, _) => ts | _ => [] end.

Lemma toks_from D : is_some (match @read_all ap (lexer_new D) with (Ok _, _) => Some tt | _ => None end) = true ->
  @tokens_from ap D (start_state false) [] true (toks D).
Proof.
  unfold toks. intros H. destruct (@read_all ap (lexer_new D)) as [[ts|] L] eqn:E; [|discriminate H].
  apply (@read_all_spec ap D (start_state false) [] D true ts); [reflexivity|reflexivity|]. exists L. exact E.
Qed.

Definition written : str := chars
  "function f(a, b) { if (a < b) return a; else { return b * (a + 1); } } var g = (x, y) => f(x, [1, ...y]); class C extends D { static m() { return super.m; } } g(2).h = !c ? {k: 'v'} : d".

Lemma as_list cc c ts ts' r : G cc c ts' r -> ts = ts' -> G cc c ts r.
Proof. now intros H ->. Qed.

Ltac shelve_ := try lazymatch goal with |- G _ _ _ _ => fail | |- _ => shelve end.
Ltac side := try lazymatch goal with
  | |- dname _ _ _ => left; eexists; split; [reflexivity|]
  | |- star _ _ => exact (eq_refl : star false [])
  end.
Ltac semi := try lazymatch goal with
  | |- ends_expr _ _ => left; eexists; split; [reflexivity|]
  end.
Tactic Notation "g" uconstr(R) := eapply R; side; semi; shelve_.
Tactic Notation "up" integer(n) := do n (g g_up).
Ltac prim := g g_lhs; g g_lhs_new; g g_member; g g_primary.

Example written_tree : exists a, G CProgram (ctx_default false) (toks written) (N a).
Proof.
  eexists. eapply as_list.
  - g g_program. g g_dirs_end. g g_nodir.
    g g_tops. g g_top. g g_item_lex. g g_lex_hoist. g g_function_decl.
    g g_params_more. g g_bind. g g_pat_ident. g g_init_none. g g_params_last. g g_bind. g g_pat_ident. g g_init_none.
    g g_body. g g_dirs_end. g g_nodir. g g_items. g g_stmt. g g_if_else.
    up 10. g (g_binary _ BLessThan). up 6. prim. g g_ident. up 5. prim. g g_ident.
    g g_return_value. up 16. prim. g g_ident.
    g g_block_stmt. g g_block. g g_items. g g_stmt. g g_return_value.
    up 13. g (g_binary _ BMultiplication). up 3. prim. g g_ident. up 2. prim. g g_paren. up 12.
    g (g_binary _ BPlus). up 4. prim. g g_ident. up 3. prim. g g_number.
    g g_items_end. g g_items_end.
    g g_tops. g g_top. g g_stmt. g g_var_stmt. g g_var. g g_decls_one. g g_decl. g g_pat_ident. g g_init.
    g g_arrow. g g_sequence. up 15. prim. g g_ident. g g_seq_one. up 15. prim. g g_ident.
    g as_list. g g_params_more. g g_bind. g g_pat_ident. g g_init_none. g g_params_last. g g_bind. g g_pat_ident. g g_init_none.
    g g_concise. up 15. g g_lhs. g g_lhs_call. g g_call. g g_primary. g g_ident.
    g g_args_more. g g_arg. up 15. prim. g g_ident. g g_args_last. g g_arg. up 15. prim. g g_array.
    g g_elems_more. g g_elem. up 15. prim. g g_number. g g_elems_last. g g_elem_spread. up 15. prim. g g_ident.
    g g_tops. g g_top. g g_item_lex. g g_lex_hoist. g g_class_decl. g g_heritage. g g_lhs_new. g g_member. g g_primary. g g_ident.
    g g_members_static. g g_method. g g_name_ident. g g_params_end.
    g g_body. g g_dirs_end. g g_nodir. g g_items. g g_stmt. g g_return_value. up 16. g g_lhs. g g_lhs_new. g g_member. g g_super_dot.
    g g_items_end. g g_members_end.
    g g_tops. g g_top. g g_stmt. eapply (g_expr_stmt _ _ _ _ []); shelve_. up 1. g (g_assign _ AAssign).
    g g_lhs_call. g g_call_dot. g g_call. g g_primary. g g_ident. g g_args_last. g g_arg. up 15. prim. g g_number.
    up 1. g g_conditional. up 12. g (g_unary _ _ _ _ UNot). up 1. prim. g g_ident. up 15. prim. g g_object.
    g g_props_last. g g_prop_named. g g_name_ident. up 15. prim. g g_string. up 15. prim. g g_ident.
    g g_tops_end.
  - vm_compute. cbn [app first]. reflexivity.
    Unshelve.
    all: try (lazymatch goal with |- name _ _ _ => idtac | |- anyname _ _ => idtac end; left; reflexivity).
    all: try (lazymatch goal with |- _ < _ => idtac end; cbn; lia).
    all: try (lazymatch goal with |- symbol _ _ => idtac end; left; eexists; split; reflexivity).
    all: try (lazymatch goal with |- str_tok _ _ => idtac end; now instantiate (1 := mk_lit_string _ _)).
    all: try discriminate.
    all: try reflexivity.
    all: try (intros ? E; vm_compute in E; injection E as <-; first [reflexivity|discriminate]).
    all: try (intros E; discriminate E).
    all: try (cbn [not_first In]; vm_compute; intuition discriminate).
    all: try (eexists _, _; vm_compute; reflexivity).
    all: try (left; eexists; vm_compute; reflexivity).
    + split; [constructor|discriminate].
    + intros t u vs E [Ht _]. vm_compute in E. injection E as <- _. discriminate Ht.
Qed.

(** The parser's tree of [written] is the one the grammar gives it. *)
Example C41_instance : exists a a', G CProgram (ctx_default false) (toks written) (N a) /\
  @accepts ap TProgram false written a' /\ bare a' = a.
Proof.
  destruct written_tree as [a H]. exists a.
  destruct (@C41_program_partial ap false written (toks written) a) as (a' & H1 & H2).
  - vm_compute. reflexivity.
  - apply tokens_source, toks_from. vm_compute. reflexivity.
  - exact H.
  - eauto.
Qed.

(** *** With assignment patterns *)

Definition written3 : str := chars
  "[a, b.c = 1, ...[d]] = x; ({e, f: g = 2, ...h} = x); y = ({i = 1}, j) => i;".

Example written3_tree : exists a, G CProgram (ctx_default false) (toks written3) (N a).
Proof.
  eexists. eapply as_list.
  - g g_program. g g_dirs_end. g g_nodir.
    g g_tops. g g_top. g g_stmt. g g_expr_stmt. up 1. g g_assign_pattern. g g_asg_array.
    g g_asgs_more. g g_asg_elem. g g_target. g g_lhs_new. g g_member. g g_primary. g g_ident. g g_init_none. g g_init_none.
    g g_asgs_more. g g_asg_elem. g g_target. g g_lhs_new. g g_member. g g_dot. g g_primary. g g_ident.
    g g_init. up 15. prim. g g_number. g g_init. up 15. prim. g g_number.
    g g_asgs_rest. g g_target_pattern. g g_asg_array. g g_asgs_last. g g_asg_elem. g g_target. g g_lhs_new. g g_member. g g_primary. g g_ident.
    g g_init_none. g g_init_none. up 15. prim. g g_ident.
    g g_tops. g g_top. g g_stmt. g g_expr_stmt. up 16. prim. g g_paren. up 1. g g_assign_pattern. g g_asg_object.
    g g_asgprops_more. g g_asgprop_single. g g_init_none.
    g g_asgprops_more. g g_asgprop_named. g g_name_ident. g g_asg_elem. g g_target. g g_lhs_new. g g_member. g g_primary. g g_ident.
    g g_init. up 15. prim. g g_number. g g_init. up 15. prim. g g_number.
    g g_asgprops_rest. g g_target. g g_lhs_new. g g_member. g g_primary. g g_ident. up 15. prim. g g_ident.
    g g_tops. g g_top. g g_stmt. g g_expr_stmt. up 1. g (g_assign _ AAssign). g g_lhs_new. g g_member. g g_primary. g g_ident.
    g g_arrow_cover. g g_asgseq_more. g g_asg_elem. g g_target_pattern. g g_asg_object. g g_asgprops_last. g g_asgprop_single.
    g g_init. up 15. prim. g g_number. g g_init_none. g g_init_none.
    g g_asgseq_one. g g_asg_elem. g g_target. g g_lhs_new. g g_member. g g_primary. g g_ident. g g_init_none. g g_init_none.
    g as_list. g g_params_more. g g_bind. g g_pat_object. g g_bprops_last. g g_bprop_single. g g_init.
    up 15. prim. g g_number. g g_init_none. g g_params_last. g g_bind. g g_pat_ident. g g_init_none.
    g g_concise. up 15. prim. g g_ident.
    g g_tops_end.
  - vm_compute. cbn [app first]. reflexivity.
    Unshelve.
    all: try (lazymatch goal with |- name _ _ _ => idtac | |- anyname _ _ => idtac end; left; reflexivity).
    all: try (lazymatch goal with |- _ < _ => idtac end; cbn; lia).
    all: try (lazymatch goal with |- symbol _ _ => idtac end; left; eexists; split; reflexivity).
    all: try (lazymatch goal with |- str_tok _ _ => idtac end; now instantiate (1 := mk_lit_string _ _)).
    all: try discriminate.
    all: try reflexivity.
    all: try (intros ? E; vm_compute in E; injection E as <-; first [reflexivity|discriminate]).
    all: try (intros E; discriminate E).
    all: try (cbn [not_first In]; vm_compute; intuition discriminate).
    all: try (eexists _, _; vm_compute; reflexivity).
    all: try (left; eexists; vm_compute; reflexivity).
    all: try (intros t u vs E [Ht _]; vm_compute in E; injection E as <- _; discriminate Ht).
Qed.

Example C41_instance3 : exists a a', G CProgram (ctx_default false) (toks written3) (N a) /\
  @accepts ap TProgram false written3 a' /\ bare a' = a.
Proof.
  destruct written3_tree as [a H]. exists a.
  destruct (@C41_program_partial ap false written3 (toks written3) a) as (a' & H1 & H2).
  - vm_compute. reflexivity.
  - apply tokens_source, toks_from. vm_compute. reflexivity.
  - exact H.
  - eauto.
Qed.

(** *** With a regular expression and a template *)

(** How the next token is meant: as it stands, as a regular expression, or as
    the rest of a template. *)
Inductive meant := Plain | Regexp | Rest.

Fixpoint divide (ks : list meant) (L : lexer) : option (list token) :=
  match ks with
  | [] => match @read_all ap L with (Ok ts, _) => Some ts | _ => None end
  | Plain :: ks => match @read ap L with (Ok t, L') => option_map (cons t) (divide ks L') | _ => None end
  | Regexp :: ks =>
      match @read ap (lexer_set_state ls_regex_allowed L) with
      | (Ok (mk_token (VLiteral (TLRegexp s)) f (mk_span a b)), L') =>
          option_map (fun ts => mk_token (VPunct (slash_of s)) f (mk_span a (a + length (punct_str (slash_of s)))) ::
            mk_token (VLiteral (TLRegexp s)) f (mk_span a b) :: ts) (divide ks (lexer_set_state ls_default L'))
      | _ => None
      end
  | Rest :: ks =>
      match @read ap (lexer_set_state ls_inside_template L) with
      | (Ok (mk_token v _ (mk_span a b)), L') =>
          option_map (fun ts => mk_token (VPunct PBracketClose) (lx_fol L) (mk_span a (a + 1)) ::
            mk_token v false (mk_span a b) :: ts) (divide ks (lexer_set_state ls_default L'))
      | _ => None
      end
  end.

Lemma divide_from D : forall ks pre rest f ts, D = pre ++ rest -> divide ks (LX D ls_default pre rest f) = Some ts ->
  @source_tokens ap D ls_default pre f ts.
Proof.
  induction ks as [|[| |] ks IH]; intros pre rest f ts E H; cbn [divide] in H.
  - destruct (@read_all ap (LX D ls_default pre rest f)) as [[us|] L'] eqn:ER; [|discriminate H]. injection H as <-.
    apply tokens_source. apply (@read_all_spec ap D ls_default pre rest f us); eauto.
  - pose proof (@read_spec ap D ls_default pre rest f) as R.
    destruct (@read ap (LX D ls_default pre rest f)) as [[t|] L'] eqn:ER; [|discriminate H].
    destruct R as (p' & r' & f' & -> & E' & R). cbn [inside_template ls_default] in R. rewrite <- E in R, E'.
    destruct (divide ks _) as [us|] eqn:ED; [|discriminate H]. injection H as <-.
    eapply so_token; eauto.
  - change (lexer_set_state ls_regex_allowed (LX D ls_default pre rest f)) with (LX D ls_regex_allowed pre rest f) in H.
    pose proof (@read_spec ap D ls_regex_allowed pre rest f) as R.
    destruct (@read ap (LX D ls_regex_allowed pre rest f)) as [[t|] L'] eqn:ER; [|discriminate H].
    destruct R as (p' & r' & f' & -> & E' & R). cbn [inside_template ls_regex_allowed] in R. rewrite <- E in R, E'.
    destruct R as [gap s after v f1 _ EE Hg Hc Hs Hm].
    destruct v; try discriminate H. destruct l; try discriminate H.
    change (lexer_set_state ls_default (LX D ls_regex_allowed (pre ++ gap ++ s) r' false))
      with (LX D ls_default (pre ++ gap ++ s) r' false) in H.
    destruct (divide ks _) as [us|] eqn:ED; [|discriminate H]. injection H as <-.
    assert (s0 = s) as ->. { clear - Hs. inversion Hs; subst; try reflexivity; try discriminate. match goal with H : word_value _ _ |- _ => destruct H as [(? & _ & H)|[_ H]]; discriminate H end. }
    eapply so_regexp; eauto.
  - change (lexer_set_state ls_inside_template (LX D ls_default pre rest f)) with (LX D ls_inside_template pre rest f) in H.
    pose proof (@read_spec ap D ls_inside_template pre rest f) as R.
    destruct (@read ap (LX D ls_inside_template pre rest f)) as [[t|] L'] eqn:ER; [|discriminate H].
    destruct R as (p' & r' & f' & -> & E' & R). cbn [inside_template ls_inside_template] in R. rewrite <- E in R, E'.
    destruct R as [s after v EE Hs].
    change (lexer_set_state ls_default (LX D ls_inside_template (pre ++ s) r' f))
      with (LX D ls_default (pre ++ s) r' f) in H.
    destruct (divide ks _) as [us|] eqn:ED; [|discriminate H]. injection H as <-.
    cbn [lx_fol LX].
    pose proof (@so_template ap D ls_default pre f [] s after v f us) as X. cbn [app] in X. rewrite app_nil_r in X.
    apply X; eauto. constructor.
Qed.

Definition written2 : str := chars "x = /[a/]+\d/g.test(y) ? `a${b}c${/=/}` : f`${1}`;".
Definition meant2 : list meant :=
  [Plain; Plain; Regexp; Plain; Plain; Plain; Plain; Plain; Plain; Plain; Plain; Rest; Regexp; Rest; Plain; Plain; Plain;
   Plain; Rest].
Definition toks2 : list token := match divide meant2 (lexer_new written2) with Some ts => ts | None => [] end.

Example written2_tree : exists a, G CProgram (ctx_default false) toks2 (N a).
Proof.
  eexists. eapply as_list.
  - g g_program. g g_dirs_end. g g_nodir.
    g g_tops. g g_top. g g_stmt. g g_expr_stmt. up 1. g (g_assign _ AAssign).
    g g_lhs_new. g g_member. g g_primary. g g_ident.
    up 1. g g_conditional. up 13. g g_lhs. g g_lhs_call. g g_call. g g_dot. g g_primary. g g_regexp.
    g g_args_last. g g_arg. up 15. prim. g g_ident.
    up 15. prim. g g_template_head. g g_tpl_middle. up 16. prim. g g_ident. g g_tpl_tail. up 16. prim. g g_regexp.
    up 15. g g_lhs. g g_lhs_new. g g_member. g g_tagged_head. g g_primary. g g_ident. g g_tpl_tail. up 16. prim. g g_number.
    g g_tops_end.
  - vm_compute. cbn [app first]. reflexivity.
    Unshelve.
    all: try (lazymatch goal with |- name _ _ _ => idtac | |- anyname _ _ => idtac end; left; reflexivity).
    all: try (lazymatch goal with |- _ < _ => idtac end; cbn; lia).
    all: try (lazymatch goal with |- pu PSlash _ \/ _ => idtac end; first [left; reflexivity|right; reflexivity]).
    all: try discriminate.
    all: try reflexivity.
    all: try (intros ? E; vm_compute in E; injection E as <-; first [reflexivity|discriminate]).
    all: try (intros E; discriminate E).
    all: try (cbn [not_first In]; vm_compute; intuition discriminate).
    all: try (eexists _, _; vm_compute; reflexivity).
    all: try (left; eexists; vm_compute; reflexivity).
    all: try (intros t u vs E [Ht _]; vm_compute in E; injection E as <- _; discriminate Ht).
    left. exists PEqual. split; reflexivity.
Qed.

Example C41_instance2 : exists a a', G CProgram (ctx_default false) toks2 (N a) /\
  @accepts ap TProgram false written2 a' /\ bare a' = a.
Proof.
  destruct written2_tree as [a H]. exists a.
  destruct (@C41_program_partial ap false written2 toks2 a) as (a' & H1 & H2).
  - vm_compute. reflexivity.
  - apply (divide_from written2 meant2 [] written2 true); [reflexivity|]. vm_compute. reflexivity.
  - exact H.
  - eauto.
Qed.

(** ** What is missing *)

(** Programs of the language that the parser rejects, in scripts .. *)
Theorem C41_scripts_refuted :
  Forall (fun D => exists e, @rejects ap TProgram false D e)
    [chars "let x = a in b;"; chars "with (a in b) c;"; chars "a?.if;"; chars "(a,) => a;"; chars "x = { async() {} };";
     chars "x = { get, set };"; chars "async(x).y;"; chars "async = 1;"; chars "function* g() { yield, a; }";
     chars "class A extends B { constructor() { super().x; } }"; chars "x = import('a').then(f);";
     chars "f()`${a}`;"; chars "async ({a = 1}) => a;"; chars "({get} = b);"; chars "({async} = b);"].
Proof. repeat (constructor; [apply some_rejects; vm_compute; reflexivity|]). constructor. Qed.
(** .. and in modules. *)
Theorem C41_modules_refuted :
  Forall (fun D => exists e, @rejects ap TProgram true D e)
    [chars "import('a');"; chars "import.meta;"; chars "export default class extends A {}"].
Proof. repeat (constructor; [apply some_rejects; vm_compute; reflexivity|]). constructor. Qed.

Definition complete_theorems :=
  (@C41_program_partial, @C41_expression_partial, @C41_statement_partial, @C41_unambiguous, C41_scripts_refuted, C41_modules_refuted, C41_instance, C41_instance2, C41_instance3).
Print Assumptions complete_theorems.
