(** * Teq: the grammar of [Written.v] does not look at positions. *)

From Verif Require Import Base Tokens Ast Source Parser AstSpec Layout Bare Written.
Local Open Scope string_scope.
Local Open Scope list_scope.

(** The same token, elsewhere. *)
Definition teq (t u : token) : Prop := t_value u = t_value t /\ t_fol u = t_fol t.
Definition oeq (x y : option token) : Prop :=
  match x, y with Some t, Some u => teq t u | None, None => True | _, _ => False end.
Definition ceq (k k' : cat) : Prop :=
  match k, k' with
  | CVar nx v, CVar nx' v' => oeq nx nx' /\ v = v'
  | CLex nx, CLex nx' | CStmt nx, CStmt nx' | CItem nx, CItem nx' | CItems nx, CItems nx' | CTop nx, CTop nx'
  | CTops nx, CTops nx' | CDirs nx, CDirs nx' | CNoDir nx, CNoDir nx' => oeq nx nx'
  | CVar _ _, _ | CLex _, _ | CStmt _, _ | CItem _, _ | CItems _, _ | CTop _, _ | CTops _, _ | CDirs _, _ | CNoDir _, _ => False
  | _, _ => k = k'
  end.
Notation same := (Forall2 teq).

Lemma tq_eq t u v : teq t u -> t_value t = v -> t_value u = v. Proof. intros [E _] <-. exact E. Qed.
Lemma tq_fol t u b : teq t u -> t_fol t = b -> t_fol u = b. Proof. intros [_ E] <-. exact E. Qed.
Lemma tq_pu p t u : teq t u -> pu p t -> pu p u. Proof. apply tq_eq. Qed.
Lemma tq_kw k t u : teq t u -> kw k t -> kw k u. Proof. apply tq_eq. Qed.
Lemma tq_npu p t u : teq t u -> ~ pu p t -> ~ pu p u. Proof. unfold pu. intros [-> _]. auto. Qed.
Lemma tq_nkw k t u : teq t u -> ~ kw k t -> ~ kw k u. Proof. unfold kw. intros [-> _]. auto. Qed.
Lemma tq_str s t u : teq t u -> str_tok s t -> str_tok s u. Proof. apply tq_eq. Qed.
Lemma tq_name c x t u : teq t u -> name c x t -> name c x u. Proof. unfold name. intros [-> _]. auto. Qed.
Lemma tq_anyname x t u : teq t u -> anyname x t -> anyname x u. Proof. unfold anyname. intros [-> _]. auto. Qed.
Lemma tq_symbol x t u : teq t u -> symbol x t -> symbol x u. Proof. unfold symbol. intros [-> _]. auto. Qed.
Lemma tq_nin l t u : teq t u -> ~ In (t_value t) l -> ~ In (t_value u) l. Proof. intros [-> _]. auto. Qed.
Lemma tq_is_str t u : teq t u -> is_str t = is_str u. Proof. unfold is_str. now intros [-> _]. Qed.
Lemma tq_says t u : teq t u -> says_constructor t = says_constructor u. Proof. unfold says_constructor. now intros [-> _]. Qed.
Lemma tq_cont t u : teq t u -> continues t = continues u. Proof. unfold continues. now intros [-> ->]. Qed.

Lemma same_one t us : same [t] us -> exists u, us = [u] /\ teq t u.
Proof. intros H. inversion H as [|? u ? ? Hu Hn]; subst. inversion Hn; subst. eauto. Qed.
Lemma tq_star b ts us : same ts us -> star b ts -> star b us.
Proof.
  intros H. destruct b; [intros (t & -> & Ht)|intros ->]; [|now inversion H].
  destruct (same_one _ _ H) as (u & -> & Hu). exists u. split; auto. eapply tq_pu; eauto.
Qed.
Lemma tq_optname c o ts us : same ts us -> optname c o ts -> optname c o us.
Proof.
  intros H [[-> ->]|(x & t & -> & -> & Hn)]; [inversion H; now left|right].
  destruct (same_one _ _ H) as (u & -> & Hu). exists x, u. repeat split; auto. eapply tq_name; eauto.
Qed.
Lemma tq_dname c o ts us : same ts us -> dname c o ts -> dname c o us.
Proof.
  intros H [(t & -> & Hn)|(Hd & -> & ->)]; [left|inversion H; now right].
  destruct (same_one _ _ H) as (u & -> & Hu). exists u. repeat split; auto. eapply tq_name; eauto.
Qed.
Lemma tq_inserted nx nx' : oeq nx nx' -> inserted nx -> inserted nx'.
Proof.
  destruct nx as [t|], nx' as [u|]; cbn; auto; try contradiction. unfold pu. now intros [-> ->].
Qed.
Lemma tq_ends ts us nx nx' : same ts us -> oeq nx nx' -> ends ts nx -> ends us nx'.
Proof.
  intros H Hn [(t & -> & Ht)|[-> Hi]]; [left|right; inversion H; eauto using tq_inserted].
  destruct (same_one _ _ H) as (u & -> & Hu). exists u. split; auto. eapply tq_pu; eauto.
Qed.
Lemma tq_ends_expr ts us nx nx' : same ts us -> oeq nx nx' -> ends_expr ts nx -> ends_expr us nx'.
Proof.
  intros H Hn [(t & -> & Ht)|(-> & Hi & Hc)]; [left|right; inversion H; subst; split; [|split]; eauto using tq_inserted].
  - destruct (same_one _ _ H) as (u & -> & Hu). exists u. split; auto. eapply tq_pu; eauto.
  - destruct nx as [t|], nx' as [u|]; cbn in Hn; auto; try contradiction. now rewrite <- (tq_cont _ _ Hn).
Qed.
Lemma oeq_first ts us nx nx' : same ts us -> oeq nx nx' -> oeq (first ts nx) (first us nx').
Proof. intros [|? ? ? ? Ht _] Hn; auto. Qed.
Lemma tq_not_first l ts us : same ts us -> not_first l ts -> not_first l us.
Proof. intros [|? ? ? ? Ht _] H; auto. cbn in *. eapply tq_nin; eauto. Qed.
Lemma tq_ord ts us : same ts us -> ord_hd ts -> ord_hd us.
Proof. intros [|? ? ? ? [E _] _] H; auto. cbn in *. unfold ordinary in *. now rewrite E. Qed.
(** Conditions on the next token. *)
Lemma tq_next (P : token -> Prop) nx nx' : (forall t u, teq t u -> P t -> P u) -> oeq nx nx' ->
  (forall t, nx = Some t -> P t) -> forall u, nx' = Some u -> P u.
Proof.
  intros HP Ho H u ->. destruct nx as [t|]; [|contradiction]. eapply HP; eauto.
Qed.
Lemma tq_two ts us : same ts us -> (forall t u vs, ts = t :: u :: vs -> ~ (kw KAsync t /\ kw KFunction u)) ->
  (forall t u vs, us = t :: u :: vs -> ~ (kw KAsync t /\ kw KFunction u)).
Proof.
  intros H HP t u vs -> [Ht Hu]. inversion H as [|a ? ? ? Ha Hr]; subst. inversion Hr as [|b ? ? ? Hb _]; subst.
  unfold kw in *. destruct Ha as [Ea _], Hb as [Eb _]. rewrite Ea in Ht. rewrite Eb in Hu. exact (HP a b _ eq_refl (conj Ht Hu)).
Qed.
Lemma oeq_none : oeq None None. Proof. exact Logic.I. Qed.
Lemma oeq_some t u : teq t u -> oeq (Some t) (Some u). Proof. auto. Qed.
Lemma same_nil : same [] []. Proof. constructor. Qed.
Lemma same_cons t u ts us : teq t u -> same ts us -> same (t :: ts) (u :: us). Proof. now constructor. Qed.

Ltac split2 := repeat match goal with
  | H : same [] _ |- _ => inversion H; clear H; subst
  | H : same (?t :: ?l) _ |- _ => let u := fresh "u" in let Hu := fresh "T" in let w := fresh "w" in let Hw := fresh "S" in
      inversion H as [|? u ? w Hu Hw]; clear H; subst
  | H : same (?a ++ ?b) _ |- _ => let x := fresh "x" in let y := fresh "y" in let Hx := fresh "S" in let Hy := fresh "S" in
      let E := fresh in apply Forall2_app_inv_l in H; destruct H as (x & y & Hx & Hy & E); subst
  end.
Ltac cats := match goal with H : ceq _ ?k |- _ => destruct k; cbn [ceq] in H; try contradiction; try discriminate H end;
  try match goal with H : _ = _ :> cat |- _ => injection H; clear H; intros; subst end;
  try match goal with H : _ /\ _ = _ :> variable_kind |- _ => destruct H; subst end.
Ltac lists := solve [repeat first [assumption | apply same_nil | apply same_cons | apply Forall2_app]].
Ltac oeqs := solve [repeat first [assumption | apply oeq_none | apply oeq_some | apply oeq_first | lists]].
Ltac ceqs := cbn [ceq]; first [reflexivity | oeqs | split; [oeqs|reflexivity]].
Ltac sd := first
  [ assumption
  | match goal with
    | |- G _ _ _ _ => match goal with IH : _ |- _ => solve [eapply IH; [ceqs|lists]] end
    | |- forall b : bool, G _ _ _ _ => intros ?b; match goal with IH : _ |- _ => solve [eapply IH; [ceqs|lists]] end
    end
  | eapply tq_pu; eassumption | eapply tq_kw; eassumption | eapply tq_nkw; eassumption
  | eapply tq_str; eassumption | eapply tq_name; eassumption | eapply tq_anyname; eassumption | eapply tq_symbol; eassumption
  | eapply tq_eq; eassumption | eapply tq_fol; eassumption | eapply tq_nin; eassumption
  | eapply tq_star; eassumption | eapply tq_optname; eassumption | eapply tq_dname; eassumption
  | eapply tq_ends; [| |eassumption]; [lists|oeqs] | eapply tq_ends_expr; [| |eassumption]; [lists|oeqs]
  | eapply tq_not_first; [|eassumption]; lists | eapply tq_ord; [|eassumption]; lists
  | eapply tq_two; [|eassumption]; lists
  | solve [match goal with H : _ \/ _ |- _ => destruct H; [left|right]; eapply tq_pu; eassumption end]
  | solve [eapply tq_next; [| |eassumption]; [cbn; intros; eauto using tq_fol, tq_nkw, tq_npu | oeqs]] ].
Ltac go R := intros k0' ws0 Hk0 Hs0; cats; split2; eapply R; sd.

Theorem G_teq k c ts r : G k c ts r -> forall k' us, ceq k k' -> same ts us -> G k' c us r.
Proof.
  induction 1.
  - go g_up.
  - go g_ident.
  - go g_this.
  - go g_null.
  - go g_true.
  - go g_false.
  - go g_number.
  - go g_string.
  - go g_template.
  - go g_template_head.
  - go g_regexp.
  - go g_paren.
  - go g_array.
  - go g_object.
  - go g_function.
  - go g_async_function.
  - go g_class.
  - go g_primary.
  - go g_dot.
  - go g_index.
  - go g_tagged.
  - go g_tagged_head.
  - go g_new_args.
  - go g_super_dot.
  - go g_super_index.
  - go g_new_target.
  - go g_import_meta.
  - go g_member.
  - go g_new.
  - go g_call.
  - go g_call_call.
  - go g_call_dot.
  - go g_call_index.
  - go g_call_tagged.
  - go g_opt_start_call.
  - go g_opt_start_dot.
  - go g_opt_start_index.
  - go g_opt_opt_call.
  - go g_opt_opt_dot.
  - go g_opt_opt_index.
  - go g_opt_call.
  - go g_opt_dot.
  - go g_opt_index.
  - go g_lhs_new.
  - go g_lhs_call.
  - go g_super_call.
  - go g_import_call.
  - go g_lhs.
  - go g_lhs_opt.
  - go g_postfix.
  - go g_prefix.
  - go g_unary.
  - go g_await.
  - go g_binary.
  - go g_logical.
  - go g_conditional.
  - go g_assign.
  - go g_assign_pattern.
  - go g_yield.
  - go g_yield_star.
  - go g_arrow_name.
  - go g_arrow_none.
  - go g_arrow.
  - go g_arrow_rest.
  - go g_arrow_more.
  - go g_arrow_cover.
  - go g_arrow_cover_more.
  - go g_async_arrow_name.
  - go g_async_arrow.
  - go g_sequence.
  - go g_seq_one.
  - go g_seq_more.
  - go g_args_end.
  - go g_args_last.
  - go g_args_more.
  - go g_arg.
  - go g_arg_spread.
  - go g_tpl_tail.
  - go g_tpl_middle.
  - go g_elem.
  - go g_elem_spread.
  - go g_elems_end.
  - go g_elems_hole.
  - go g_elems_last.
  - go g_elems_more.
  - go g_props_end.
  - go g_props_last.
  - go g_props_more.
  - go g_prop_short.
  - go g_prop_named.
  - go g_prop_method.
  - go g_prop_computed_method.
  - go g_prop_spread.
  - go g_name_ident.
  - go g_name_string.
  - go g_name_number.
  - go g_name_computed.
  - go g_pat_ident.
  - go g_pat_array.
  - go g_pat_object.
  - go g_bind.
  - go g_init_none.
  - go g_init.
  - go g_pats_end.
  - go g_pats_rest.
  - go g_pats_hole.
  - go g_pats_last.
  - go g_pats_more.
  - go g_bprops_end.
  - go g_bprops_rest.
  - go g_bprops_last.
  - go g_bprops_more.
  - go g_bprop_single.
  - go g_bprop_named.
  - go g_asg_array.
  - go g_asg_object.
  - go g_target_pattern.
  - go g_target.
  - go g_asg_elem.
  - go g_asgs_end.
  - go g_asgs_rest.
  - go g_asgs_hole.
  - go g_asgs_last.
  - go g_asgs_more.
  - go g_asgprops_end.
  - go g_asgprops_rest.
  - go g_asgprops_last.
  - go g_asgprops_more.
  - go g_asgprop_single.
  - go g_asgprop_named.
  - go g_asgseq_one.
  - go g_asgseq_more.
  - go g_params_end.
  - go g_params_rest.
  - go g_params_last.
  - go g_params_more.
  - go g_body.
  - go g_dirs_end.
  - go g_dirs.
  - intros k0' ws0 Hk0 Hs0; cats. apply g_nodir.
    eapply (tq_next (fun t => is_str t = false)); [| |eassumption]; [intros ? ? Ht <-; symmetry; now apply tq_is_str|oeqs].
  - go g_nodir_expr.
  - go g_concise_body.
  - go g_concise.
  - go g_heritage_none.
  - go g_heritage.
  - go g_members_end.
  - go g_members_semi.
  - intros k0' ws0 Hk0 Hs0; cats; split2. destruct ts as [|t ts]; [congruence|]. split2.
    eapply g_members_more; [|discriminate|sd]. intros t0 E. injection E as <-.
    match goal with T : teq t ?u |- _ => rewrite <- (tq_says _ _ T) end. eapply H0; [reflexivity|ceqs|lists].
  - go g_members_static.
  - go g_method.
  - go g_getter.
  - go g_setter.
  - go g_generator_method.
  - go g_async_method.
  - go g_empty.
  - go g_block_stmt.
  - go g_block.
  - go g_var_stmt.
  - go g_expr_stmt.
  - go g_if.
  - go g_if_else.
  - go g_while.
  - go g_with.
  - intros k0' ws0 Hk0 Hs0; cats; split2. eapply g_do; try sd.
    match goal with H : _ \/ _ |- _ => destruct H as [(t & -> & Ht)|[-> Ht]] end.
    + left. split2. eexists. split; [reflexivity|]. sd.
    + right. split2. split; auto. eapply tq_next; [| |eassumption]; [cbn; intros; eauto using tq_npu|oeqs].
  - go g_for.
  - go g_for_in.
  - go g_for_of.
  - go g_for_await.
  - go g_continue.
  - go g_continue_label.
  - go g_break.
  - go g_break_label.
  - go g_return.
  - go g_return_value.
  - go g_throw.
  - go g_debugger.
  - go g_label.
  - intros k0' ws0 Hk0 Hs0; cats; split2. eapply g_try; try sd.
    eapply (tq_next (fun u => ~ kw KCatch u /\ ~ kw KFinally u)); [| |eassumption]; [|oeqs].
    intros ? ? Ht [? ?]. split; eapply tq_nkw; eauto.
  - go g_catch_none.
  - go g_catch.
  - go g_catch_param.
  - go g_finally_none.
  - go g_finally.
  - go g_switch.
  - go g_cases_end.
  - go g_case.
  - go g_default.
  - go g_stmt.
  - go g_item_lex.
  - go g_lex_hoist.
  - go g_lex.
  - go g_var.
  - go g_let.
  - go g_const.
  - go g_decls_one.
  - go g_decls_more.
  - go g_decl.
  - go g_function_decl.
  - go g_async_function_decl.
  - intros k0' ws0 Hk0 Hs0; cats; split2. eapply g_class_decl; try sd.
    intros ->. match goal with H : nt = [] -> _, S : same nt [] |- _ => inversion S; subst; specialize (H eq_refl); subst; now split2 end.
  - go g_items_end.
  - go g_items.
  - go g_opte_none.
  - go g_opte.
  - go g_forinit_none.
  - go g_forinit.
  - go g_forinit_decl.
  - go g_forleft_decl.
  - go g_forleft.
  - go g_forleft_pattern.
  - go g_top.
  - go g_import_bare.
  - go g_import.
  - go g_clause_default.
  - go g_clause_namespace.
  - go g_clause_named.
  - go g_clause_default_namespace.
  - go g_clause_default_named.
  - go g_imports_end.
  - go g_imports_last.
  - go g_imports_more.
  - go g_import_name.
  - go g_import_as.
  - go g_export_named.
  - go g_export_from.
  - go g_exports_end.
  - go g_exports_last.
  - go g_exports_more.
  - go g_export_name.
  - go g_export_as.
  - go g_export_all.
  - go g_export_all_as.
  - go g_export_var.
  - go g_export_decl.
  - go g_export_default_decl.
  - go g_export_default.
  - go g_tops_end.
  - go g_tops.
  - go g_program.
Qed.
