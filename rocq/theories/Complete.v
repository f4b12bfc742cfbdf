(** * Complete: the parser reads everything the grammar of [Written.v] allows. *)

From Verif Require Import Base Tokens PeekReader CharReader Lexer LexSpec Ast Prog TokChain ParseState Parser
  ParseRuns Source Stream AstSpec StaticSem Layout Bare Written Starts Forward Fwd1 Fwd2 Fwd3 Fwd4 Fwd5 Fwd6 Fwd7 Fwd8 Fwd9 Fwd10 FwdAsg.
Local Open Scope string_scope.
Local Open Scope list_scope.

(** ** [super] and [import] before a parenthesis are not members *)

Definition sup_imp (t : token) : Prop := t_value t = VKeyword KSuper \/ t_value t = VKeyword KImport.
Definition not_spec (ts : list token) : Prop :=
  match ts with
  | [] => False
  | t :: us => sup_imp t -> match us with [] => False | u :: _ => t_value u <> VPunct PParenOpen end
  end.
Lemma not_spec_app ts us : not_spec ts -> not_spec (ts ++ us).
Proof. destruct ts as [|t [|u ts]]; cbn; intros H; [contradiction| |exact H]. intros E. now apply H in E. Qed.
Lemma not_spec_cons t ts : ~ sup_imp t -> not_spec (t :: ts).
Proof. intros H E. contradiction. Qed.

Definition member_cat (cc : cat) : Prop := cc = CE 18 \/ cc = CE 19 \/ cc = CNew \/ cc = CCall.

Lemma G_special cc c ts r : G cc c ts r -> member_cat cc -> not_spec ts.
Proof.
  induction 1; intros M; tokval;
    try (exfalso; destruct M as [M|[M|[M|M]]]; try discriminate M; injection M; intros; subst; lia; fail);
    try (exfalso; destruct M as [M|[M|[M|M]]]; try discriminate M; destruct o; discriminate M; fail);
    try (apply not_spec_cons; unfold sup_imp; intros [E|E]; congruence);
    try (apply not_spec_app; match goal with H : _ -> not_spec ?ts |- not_spec ?ts => apply H; unfold member_cat; auto end; fail);
    try (match goal with H : _ -> not_spec ?ts |- not_spec ?ts => apply H; unfold member_cat; auto end; fail).
  - apply not_spec_cons. unfold sup_imp. destruct H as [E|(k & E & H & _)]; rewrite E; intros [E2|E2]; try discriminate E2; injection E2 as ->; discriminate H.
  - apply not_spec_cons. unfold sup_imp, pu in *. destruct H as [E|E]; rewrite E; intros [E2|E2]; discriminate E2.
  - cbn. intros _. congruence.
  - cbn. intros _. congruence.
  - cbn. intros _. congruence.
Qed.

Lemma not_special cc c ts r : member_cat cc -> G cc c ts r ->
  forall t u us, ts = t :: u :: us -> t_value t = VKeyword KSuper \/ t_value t = VKeyword KImport -> t_value u <> VPunct PParenOpen.
Proof. intros M H t u us -> E. pose proof (G_special _ _ _ _ H M E) as E2. exact E2. Qed.

Lemma body_node c ts b : G CBody c ts (N b) -> exists ds l, b = Body z ds l.
Proof. intros H. inversion H; subst; eauto. Qed.

Lemma init_rest c t us i : G CInit c (t :: us) i -> ord_hd us.
Proof. intros H. inversion H; subst. match goal with H : G (CE 1) _ _ _ |- _ => exact (G_ord _ _ _ _ H) end. Qed.

Section Fwd.
Context {PF : Platform}.
Variable D : str.
Variable st : lexer_state.
Variable full : list token.
Hypothesis HS : setting D st full.

(** What the parser does with each kind of construct. *)
Definition M (cc : cat) (c : ctx) (ts : list token) (r : res) : Prop :=
  match cc, r with
  | CE k, N a => ME D st full k c ts a
  | CNew, N a => PN D st full c ts a
  | CCall, N a => PC D st full c ts a
  | COpt, N a => PO D st full c ts a
  | CArgs, NS l => PArgs D st full c ts l
  | CArg, N a => PArg D st full c ts a
  | CTpl, NS l => PTpl D st full c ts l
  | CElems, NS l => PElems D st full c ts l
  | CElem, N a => PElem D st full c ts a
  | CProps, NS l => PProps D st full c ts l
  | CProp, N a => PProp D st full c ts a
  | CName, N a => PName D st full c ts a
  | CSeq, NS l => PSeq D st full c ts l /\ PSeq2 D st full c ts l
  | CPat, N a => PPat D st full c ts a
  | CBind, N a => PBind D st full c ts a
  | CInit, OP o => PInit D st full c ts o
  | CPats, OR l r => PPats D st full c ts l r
  | CBProps, NR l r => PBProps D st full c ts l r
  | CBProp, N a => PBProp D st full c ts a
  | CAsg, N a => PAsg D st full c ts a
  | CAsgTarget, N a => PAsgT D st full c ts a
  | CAsgElem, N a => PAsgE D st full c ts a
  | CAsgs, OR l r => PAsgs D st full c ts l r
  | CAsgProps, NR l r => PAsgProps D st full c ts l r
  | CAsgProp, N a => PAsgProp D st full c ts a
  | CAsgSeq, NS _ => PAsgSeq D st full c ts
  | CParams, NR l r => PParams D st full c ts l r
  | CBody, N a => PBody D st full c ts a
  | CConcise, N a => PConcise D st full c ts a
  | CHeritage, OP o => PHeritage D st full c ts o
  | CMembers b, NS l => PMembers D st full b c ts l
  | CMethod s, N a => PMethod D st full s c ts a
  | CDecls, NS l => PDecls D st full c ts l
  | CDecl, N a => PDecl D st full c ts a
  | CVar nx k, N a => PVar D st full nx k c ts a
  | CHoist, N a => PHoist D st full c ts a
  | CLex nx, N a => PLex D st full nx c ts a
  | CForInit, OP o => PForInit D st full c ts o
  | COptE, OP o => POptE D st full c ts o
  | CForLeft, N a => PForLeft D st full c ts a
  | CStmt nx, N a => PStmt D st full nx c ts a
  | CItem nx, N a => PItem D st full nx c ts a
  | CItems nx, NS l => PItems D st full nx c ts l
  | CTop nx, N a => PItem D st full nx c ts a
  | CTops nx, NS l => PItems D st full nx c ts l
  | CDirs nx, DS l => PDirs D st full nx c ts l
  | CNoDir nx, NS _ => PNoDir D st full nx c ts
  | CBlock, N a => PBlock D st full c ts a
  | CCatch, OP o => PCatch D st full c ts o
  | CFinally, OP o => PFinally D st full c ts o
  | CCases, NS l => PCases D st full c ts l
  | CClause, IC d n l => PClause D st full c ts d n l
  | CImports, NS l => PImports D st full c ts l
  | CExports, NS l => PExports D st full ts l
  | CImport, N a => PImport D st full c ts a
  | CExport, N a => PExport D st full ts a
  | CProgram, N a => wpt D st full (body _ (NProgram c)) ts (okq (isb a) [])
  | _, _ => True
  end.

Ltac ss :=
  repeat match goal with
  | H : G ?cc ?c ?ts ?r |- _ =>
    lazymatch goal with
    | _ : SS cc c ts |- _ => fail
    | _ => pose proof (G_starts cc c ts r H : SS cc c ts); pose proof (G_ord cc c ts r H : OH cc ts)
    end
  end.
Ltac by_ L := eapply L; first [exact HS|eassumption|eapply sym_unary; eassumption|eapply sym_update; eassumption|eapply sym_bin; eassumption
  |eapply sym_log; eassumption|eapply sym_assign; eassumption|eapply sym_kind; eassumption|eapply body_node; eassumption|idtac].

Theorem G_complete cc c ts r : G cc c ts r -> M cc c ts r.
Proof.
  induction 1; cbn [M] in *; ss; cbn [SS OH] in *.
  - (* g_up *) by_ ME_S.
  - (* g_ident *) by_ sem_ident.
  - (* g_this *) by_ sem_this.
  - (* g_null *) apply (sem_const D st full HS c t KNull); auto.
  - (* g_true *) apply (sem_const D st full HS c t KTrue); auto.
  - (* g_false *) apply (sem_const D st full HS c t KFalse); auto 6.
  - (* g_number *) eapply sem_literal; [exact HS|eassumption|reflexivity].
  - (* g_string *) by_ sem_string.
  - (* g_template *) eapply sem_literal; [exact HS|eassumption|reflexivity].
  - (* g_template_head *) by_ sem_template_head.
  - (* g_regexp *) by_ sem_regexp.
  - (* g_paren *) by_ sem_paren.
  - (* g_array *) by_ sem_array.
  - (* g_object *) by_ sem_object.
  - (* g_function *) by_ sem_function.
  - (* g_async_function *) by_ sem_async_function.
  - (* g_class *) by_ sem_class.
  - (* g_primary *) by_ P19_PM.
  - (* g_dot *) by_ sem_dot.
  - (* g_index *) by_ sem_index.
  - (* g_tagged *) by_ sem_tagged.
  - (* g_tagged_head *) by_ sem_tagged_head.
  - (* g_new_args *) by_ sem_new_args.
  - (* g_super_dot *) by_ sem_super_dot.
  - (* g_super_index *) by_ sem_super_index.
  - (* g_new_target *) by_ sem_new_target.
  - (* g_import_meta *) by_ sem_import_meta.
  - (* g_member *) by_ PM_PN.
  - (* g_new *) by_ sem_new.
  - (* g_call *) by_ sem_call.
  - (* g_call_call *) by_ sem_call_call.
  - (* g_call_dot *) by_ sem_call_dot.
  - (* g_call_index *) by_ sem_call_index.
  - (* g_call_tagged *) by_ sem_call_tagged.
  - (* g_opt_start_call *) by_ sem_opt_start_call.
  - (* g_opt_start_dot *) by_ sem_opt_start_dot.
  - (* g_opt_start_index *) by_ sem_opt_start_index.
  - (* g_opt_opt_call *) by_ sem_opt_opt_call.
  - (* g_opt_opt_dot *) by_ sem_opt_opt_dot.
  - (* g_opt_opt_index *) by_ sem_opt_opt_index.
  - (* g_opt_call *) by_ sem_opt_call.
  - (* g_opt_dot *) by_ sem_opt_dot.
  - (* g_opt_index *) by_ sem_opt_index.
  - (* g_lhs_new *) apply PN_PL; first [exact HS|assumption|eapply not_special; [|eassumption]; unfold member_cat; auto].
  - (* g_lhs_call *) apply PC_PL; first [exact HS|assumption|eapply not_special; [|eassumption]; unfold member_cat; auto].
  - (* g_super_call *) by_ sem_super_call.
  - (* g_import_call *) by_ sem_import_call.
  - (* g_lhs *) by_ PL_P16.
  - (* g_lhs_opt *) by_ PO_P16.
  - (* g_postfix *) by_ sem_postfix.
  - (* g_prefix *) by_ sem_prefix.
  - (* g_unary *) by_ sem_unary.
  - (* g_await *) by_ sem_await.
  - (* g_binary *) by_ sem_binary.
  - (* g_logical *) by_ sem_logical.
  - (* g_conditional *) by_ sem_conditional.
  - (* g_assign *) by_ sem_assign.
  - (* g_assign_pattern *) by_ sem_assign_pattern.
  - (* g_yield *) by_ sem_yield.
  - (* g_yield_star *) by_ sem_yield_star.
  - (* g_arrow_name *) by_ sem_arrow_name.
  - (* g_arrow_none *) by_ sem_arrow_none.
  - (* g_arrow *) by_ sem_arrow.
  - (* g_arrow_rest *) by_ sem_arrow_rest.
  - (* g_arrow_more *) match goal with H : _ /\ _ |- _ => destruct H end; by_ sem_arrow_more.
  - (* g_arrow_cover *) by_ sem_arrow_cover.
  - (* g_arrow_cover_more *) by_ sem_arrow_cover_more.
  - (* g_async_arrow_name *) by_ sem_async_arrow_name.
  - (* g_async_arrow *) by_ sem_async_arrow.
  - (* g_sequence *) match goal with H : _ /\ _ |- _ => destruct H end; by_ sem_sequence.
  - (* g_seq_one *) split; [by_ sem_seq_one|by_ sem_seq2_one].
  - (* g_seq_more *) match goal with H : _ /\ _ |- _ => destruct H end; split; [by_ sem_seq_more|by_ sem_seq2_more].
  - (* g_args_end *) by_ sem_args_end.
  - (* g_args_last *) by_ sem_args_last.
  - (* g_args_more *) by_ sem_args_more.
  - (* g_arg *) by_ sem_arg.
  - (* g_arg_spread *) by_ sem_arg_spread.
  - (* g_tpl_tail *) by_ sem_tpl_tail.
  - (* g_tpl_middle *) by_ sem_tpl_middle.
  - (* g_elem *) by_ sem_elem.
  - (* g_elem_spread *) by_ sem_elem_spread.
  - (* g_elems_end *) by_ sem_elems_end.
  - (* g_elems_hole *) by_ sem_elems_hole.
  - (* g_elems_last *) by_ sem_elems_last.
  - (* g_elems_more *) by_ sem_elems_more.
  - (* g_props_end *) by_ sem_props_end.
  - (* g_props_last *) by_ sem_props_last.
  - (* g_props_more *) by_ sem_props_more.
  - (* g_prop_short *) by_ sem_prop_short.
  - (* g_prop_named *) by_ sem_prop_named.
  - (* g_prop_method *) by_ sem_prop_method.
  - (* g_prop_computed_method *) by_ sem_prop_computed_method.
  - (* g_prop_spread *) by_ sem_prop_spread.
  - (* g_name_ident *) by_ sem_name_ident.
  - (* g_name_string *) by_ sem_name_string.
  - (* g_name_number *) by_ sem_name_number.
  - (* g_name_computed *) by_ sem_name_computed.
  - (* g_pat_ident *) by_ sem_pat_ident.
  - (* g_pat_array *) by_ sem_pat_array.
  - (* g_pat_object *) by_ sem_pat_object.
  - (* g_bind *) by_ sem_bind.
  - (* g_init_none *) left; auto.
  - (* g_init *) right; eauto 8.
  - (* g_pats_end *) by_ sem_pats_end.
  - (* g_pats_rest *) by_ sem_pats_rest.
  - (* g_pats_hole *) by_ sem_pats_hole.
  - (* g_pats_last *) by_ sem_pats_last.
  - (* g_pats_more *) by_ sem_pats_more.
  - (* g_bprops_end *) by_ sem_bprops_end.
  - (* g_bprops_rest *) by_ sem_bprops_rest.
  - (* g_bprops_last *) by_ sem_bprops_last.
  - (* g_bprops_more *) by_ sem_bprops_more.
  - (* g_bprop_single *) by_ sem_bprop_single.
  - (* g_bprop_named *) by_ sem_bprop_named.
  - (* g_asg_array *) by_ sem_asg_array.
  - (* g_asg_object *) by_ sem_asg_object.
  - (* g_target_pattern *) by_ sem_target_pattern.
  - (* g_target *) by_ sem_target.
  - (* g_asg_elem *) by_ sem_asg_elem; [eapply starts_le; [|eassumption]; lia|intros t us' ->; eapply init_rest; eassumption].
  - (* g_asgs_end *) by_ sem_asgs_end.
  - (* g_asgs_rest *) by_ sem_asgs_rest.
  - (* g_asgs_hole *) by_ sem_asgs_hole.
  - (* g_asgs_last *) by_ sem_asgs_last.
  - (* g_asgs_more *) by_ sem_asgs_more.
  - (* g_asgprops_end *) by_ sem_asgprops_end.
  - (* g_asgprops_rest *) by_ sem_asgprops_rest.
  - (* g_asgprops_last *) by_ sem_asgprops_last.
  - (* g_asgprops_more *) by_ sem_asgprops_more.
  - (* g_asgprop_single *) by_ sem_asgprop_single.
  - (* g_asgprop_named *) by_ sem_asgprop_named.
  - (* g_asgseq_one *) by_ sem_asgseq_one.
  - (* g_asgseq_more *) by_ sem_asgseq_more.
  - (* g_params_end *) by_ sem_params_end.
  - (* g_params_rest *) by_ sem_params_rest.
  - (* g_params_last *) by_ sem_params_last.
  - (* g_params_more *) by_ sem_params_more.
  - (* g_body *) by_ sem_body.
  - (* g_dirs_end *) by_ sem_dirs_end.
  - (* g_dirs *) by_ sem_dirs.
  - (* g_nodir *) by_ sem_nodir.
  - (* g_nodir_expr *) by_ sem_nodir_expr.
  - (* g_concise_body *) by_ sem_concise_body.
  - (* g_concise *) by_ sem_concise.
  - (* g_heritage_none *) left; auto.
  - (* g_heritage *) right; eauto 8.
  - (* g_members_end *) by_ sem_members_end.
  - (* g_members_semi *) by_ sem_members_semi.
  - (* g_members_more *) by_ sem_members_more; destruct ts as [|t ts']; [congruence|]; exact (G_starts _ _ _ _ (H t eq_refl)).
  - (* g_members_static *) by_ sem_members_static.
  - (* g_method *) by_ sem_method.
  - (* g_getter *) by_ sem_getter.
  - (* g_setter *) by_ sem_setter.
  - (* g_generator_method *) by_ sem_generator_method.
  - (* g_async_method *) by_ sem_async_method.
  - (* g_empty *) by_ sem_empty.
  - (* g_block_stmt *) by_ sem_block_stmt.
  - (* g_block *) by_ sem_block.
  - (* g_var_stmt *) by_ sem_var_stmt.
  - (* g_expr_stmt *) by_ sem_expr_stmt.
  - (* g_if *) by_ sem_if.
  - (* g_if_else *) by_ sem_if_else.
  - (* g_while *) by_ sem_while.
  - (* g_with *) by_ sem_with.
  - (* g_do *) by_ sem_do.
  - (* g_for *) by_ sem_for.
  - (* g_for_in *) by_ sem_for_in.
  - (* g_for_of *) by_ sem_for_of.
  - (* g_for_await *) by_ sem_for_await.
  - (* g_continue *) by_ sem_continue.
  - (* g_continue_label *) by_ sem_continue_label.
  - (* g_break *) by_ sem_break.
  - (* g_break_label *) by_ sem_break_label.
  - (* g_return *) by_ sem_return.
  - (* g_return_value *) by_ sem_return_value.
  - (* g_throw *) by_ sem_throw.
  - (* g_debugger *) by_ sem_debugger.
  - (* g_label *) by_ sem_label.
  - (* g_try *) by_ sem_try.
  - (* g_catch_none *) left; auto.
  - (* g_catch *) by_ sem_catch.
  - (* g_catch_param *) by_ sem_catch_param.
  - (* g_finally_none *) left; auto.
  - (* g_finally *) by_ sem_finally.
  - (* g_switch *) by_ sem_switch.
  - (* g_cases_end *) by_ sem_cases_end.
  - (* g_case *) by_ sem_case.
  - (* g_default *) by_ sem_default.
  - (* g_stmt *) by_ sem_stmt_item.
  - (* g_item_lex *) by_ sem_lex_item.
  - (* g_lex_hoist *) by_ sem_lex_hoist.
  - (* g_lex *) destruct k; [by_ sem_lex_const|by_ sem_lex_let|congruence].
  - (* g_var *) by_ sem_var.
  - (* g_let *) apply sem_lex; [exact HS|discriminate|assumption|assumption|assumption].
  - (* g_const *) apply sem_lex; [exact HS|discriminate|assumption|assumption|assumption].
  - (* g_decls_one *) by_ sem_decls_one.
  - (* g_decls_more *) by_ sem_decls_more.
  - (* g_decl *) by_ sem_decl.
  - (* g_function_decl *) by_ sem_function_decl.
  - (* g_async_function_decl *) by_ sem_async_function_decl.
  - (* g_class_decl *) by_ sem_class_decl.
  - (* g_items_end *) by_ sem_items_end.
  - (* g_items *) by_ sem_items.
  - (* g_opte_none *) left; auto.
  - (* g_opte *) right; eauto.
  - (* g_forinit_none *) by_ sem_forinit_none.
  - (* g_forinit *) by_ sem_forinit.
  - (* g_forinit_decl *) by_ sem_forinit_decl.
  - (* g_forleft_decl *) by_ sem_forleft_decl; exact (G_starts _ _ _ _ (H0 true)).
  - (* g_forleft *) by_ sem_forleft; exact (G_starts _ _ _ _ (H true)).
  - (* g_forleft_pattern *) by_ sem_forleft_pattern.
  - (* g_top *) assumption.
  - (* g_import_bare *) by_ sem_import_bare.
  - (* g_import *) by_ sem_import.
  - (* g_clause_default *) by_ sem_clause_default.
  - (* g_clause_namespace *) apply (sem_clause_namespace D st full HS c None []); auto; now left.
  - (* g_clause_named *) apply (sem_clause_named D st full HS c None []); auto; now left.
  - (* g_clause_default_namespace *) apply (sem_clause_namespace D st full HS c (Some (id y)) [u; k]); auto; right; eauto 8.
  - (* g_clause_default_named *) apply (sem_clause_named D st full HS c (Some (id y)) [u; k]); auto; right; eauto 8.
  - (* g_imports_end *) by_ sem_imports_end.
  - (* g_imports_last *) by_ sem_imports_last.
  - (* g_imports_more *) by_ sem_imports_more.
  - (* g_import_name *) by_ sem_import_name.
  - (* g_import_as *) by_ sem_import_as.
  - (* g_export_named *) by_ sem_export_named.
  - (* g_export_from *) by_ sem_export_from.
  - (* g_exports_end *) by_ sem_exports_end.
  - (* g_exports_last *) by_ sem_exports_last.
  - (* g_exports_more *) by_ sem_exports_more.
  - (* g_export_name *) by_ sem_export_name.
  - (* g_export_as *) by_ sem_export_as.
  - (* g_export_all *) by_ sem_export_all.
  - (* g_export_all_as *) by_ sem_export_all_as.
  - (* g_export_var *) by_ sem_export_var.
  - (* g_export_decl *) by_ sem_export_decl.
  - (* g_export_default_decl *) by_ sem_export_default_decl.
  - (* g_export_default *) by_ sem_export_default.
  - (* g_tops_end *) by_ sem_items_end.
  - (* g_tops *) by_ sem_items.
  - (* g_program *) by_ sem_program.
Qed.

End Fwd.
