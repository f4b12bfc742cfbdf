(** * Par5: variables, statements and loops. *)

From Verif Require Import ParTac ParLib.
Local Open Scope string_scope.
Local Open Scope list_scope.
Local Open Scope prog_scope.

Section Par.
Context {PF : Platform}.
Variable D : str.
Variable m : bool.
Notation method_ok := (method_ok D m).

Lemma kind_kw_tok k t : t_value t = VKeyword (kind_kw k) -> kind_tok k t.
Proof. destruct k; auto. Qed.

Ltac tosemi s HR := wb; eapply W_osemi; [eassumption|];
  let semi := fresh "semi" in let b := fresh "b" in let Hs := fresh "Hsemi" in
  intros semi b s Hs HR; norm HR; wsimp.

Lemma ok_VariableStmt c k : method_ok (NVariableStmt c k).
Proof.
  mstart. unfold parse_variable_stmt. tcons t s1 E1 HR1 En1. rename Hv into Ev.
  apply kind_kw_tok in Ev. wb. destruct k.
  all: tcall l tl s2 HS2 HR2 Hne2 HG2; tosemi s3 HR3; tspan; fin; (split; [|eauto]);
    assert (Hsp : mk_span (tstart t) (pos s3) = span_of (t :: tl ++ semi)) by
      (erewrite <- Reach_span; [|exact HR3|nn]; unfold posof; now rewrite E1).
  - eapply d_decl_variable; kfin; [discriminate|exact Hsp].
  - eapply d_decl_variable; kfin; [discriminate|exact Hsp].
  - eapply d_stmt_variable; kfin. exact Hsp.
Qed.

Lemma ok_VariableDecls c : method_ok (NVariableDecls c).
Proof.
  mstart. unfold parse_variable_declarations. tcall d td s1 HS1 HR1 Hne1 HG1.
  tcall l tl s2 HS2 HR2 Hne2 HG2. okp. apply HG2. now constructor.
Qed.

Lemma ok_VariableDeclsLoop c acc : method_ok (NVariableDeclsLoop c acc).
Proof.
  mstart. unfold parse_variable_declarations_loop. tmaybe t s1 E1 Ev1 HR1 Hn.
  - tcall d td s2 HS2 HR2 Hne2 HG2. tcall l tl s3 HS3 HR3 Hne3 HG3. okp. intros te Hte.
    replace (te ++ t :: td ++ tl) with ((te ++ t :: td) ++ tl) by now rewrite <- app_assoc.
    apply HG3. eapply d_sep_snoc; kfin.
  - apply W_ret. ok0. intros te Hte. now rewrite app_nil_r.
Qed.

Lemma ok_VariableDecl c : method_ok (NVariableDecl c).
Proof.
  mstart. unfold parse_variable_declaration. tpos. tcall p tp s1 HS1 HR1 Hne1 HG1.
  tcurm Hc.
  - rewrite andb_false_r. wsimp. unfold then_try. wb. tcall e te s2 HS2 HR2 Hne2 HG2. apply W_ret. wsimp. tspan. fin.
    eapply d_vardecl; kfin. discriminate.
  - rewrite andb_true_r. tif Eb.
    + tspan. apply W_err. eapply err_span; [eassumption|nn| |reflexivity].
      apply says_missing. exists (log s0), tp, YPat, c, p.
      split; [exact (Back_log _ _ _ _ (Reach_Back _ _ _ _ HR1))|]. split; [nn|]. split; [exact HG1|]. split; [reflexivity|].
      rewrite (der_span _ _ _ _ _ HG1 eq_refl). cbn. rewrite (Reach_span _ _ _ _ HR1 Hne1).
      split; [reflexivity|]. split; [reflexivity|]. split; [reflexivity|]. now apply negb_true_iff in Eb.
    + unfold then_try. wb. apply W_ret. wsimp. tspan. fin. eapply (d_vardecl _ _ _ _ _ _ []); kfin.
      * now rewrite app_nil_r.
      * constructor.
      * intros _. destruct p; try discriminate Eb. eauto.
Qed.

Lemma ok_AllStmts c acc : method_ok (NAllStmts c acc).
Proof.
  mstart. unfold parse_all_stmts. wb. apply W_is_end; [exact HC| |].
  - intros He. wsimp. apply W_ret. ok0. exists []. rewrite app_nil_r. split; [auto|]. split; [constructor|auto].
  - intros _. wsimp. tcall x tx s1 HS1 HR1 Hne1 HG1. tcall a ts s2 HS2 HR2 Hne2 HG2.
    destruct HG2 as (l & -> & Hl & He). okp. exists (x :: l). rewrite <- app_assoc. split; [auto|].
    split; [eapply d_many_cons; kfin|auto].
Qed.

Lemma ok_DeclOrStmt c : method_ok (NDeclOrStmt c).
Proof.
  mstart. unfold parse_declaration_or_statement. tcall o to s1 HS1 HR1 Hne1 HG1. destruct o as [d|].
  - destruct HG1 as (Hne & Hd & _). fin. now apply d_item_decl.
  - subst to. assert (s1 = s0) as -> by now apply HR1.
    tcall a ts s2 HS2 HR2 Hne2 HG2. okp. now apply d_item_stmt.
Qed.

Lemma ok_Stmt c : method_ok (NStmt c).
Proof.
  mstart. unfold parse_stmt. tcur t E.
  assert (Hdef : W D m 30 None s0 (parse_stmt_other c t) s0 (OkPost D (NStmt c) s0)).
  { unfold parse_stmt_other. wb. apply W_is_identifier. wsimp. tpeekm. tif Ei.
    - tcall a ts s1 HS1 HR1 Hne HG. okp. exact HG.
    - unfold is_expr_stmt. wb. wb. tcur t' E'. wb. apply W_peek. wsimp. wb. apply W_ret. wsimp. tif Eb.
      + tcall a ts s1 HS1 HR1 Hne HG. okp. apply HG. reflexivity.
      + apply W_err. eapply err_cur; [apply Reach_Back; exact HR0|eassumption|tsays|reflexivity]. }
  destruct (t_value t) eqn:Ev; try exact Hdef.
  - destruct k; try exact Hdef; try (tcall a ts s1 HS1 HR1 Hne HG; okp; first [exact HG | apply HG]).
  - destruct p; try exact Hdef; tcall a ts s1 HS1 HR1 Hne HG; okp; first [exact HG | apply HG | now apply d_stmt_block].
Qed.

Lemma ok_Declaration c : method_ok (NDeclaration c).
Proof.
  mstart. unfold parse_declaration. cbv zeta. tcur t E.
  assert (Hnone : W D m 2 None s0 (pret None) s0 (OkPost D (NDeclaration c) s0)).
  { apply W_ret. ok0. reflexivity. }
  assert (Hxx : forall k, t_value t = VKeyword k -> k <> KClass -> k <> KFunction -> k <> KAsync ->
    ~ (curv s0 (VKeyword KClass) \/ curv s0 (VKeyword KFunction) \/ curv s0 (VKeyword KAsync))).
  { intros k Hk H1 H2 H3 [H|[H|H]]; destruct H as (t' & E' & Ev'); congruence. }
  destruct (t_value t) eqn:Ev; try exact Hnone. destruct k; try exact Hnone.
  - tpeekm. tif Ef; [|exact Hnone]. tcall d td s1 HS1 HR1 Hne HG. destruct HG as [Hd Hs]. fin.
    split; [nn|]. split; [exact Hd|]. split; [|auto]. intros _ _. destruct d; try destruct Hs; exact Logic.I.
  - tcall d td s1 HS1 HR1 Hne HG. destruct (HG c eq_refl) as [Hd Hs]. fin.
    split; [nn|]. split; [exact Hd|]. split; [|auto]. intros _ _. destruct d; try destruct Hs; exact Logic.I.
  - tcall d td s1 HS1 HR1 Hne HG.
    destruct HG as (Hd & sp & l & ->). fin.
    split; [nn|]. split; [exact Hd|]. split; [intros _ _; exact Logic.I|].
    intros H. exfalso. revert H. eapply Hxx; (reflexivity || discriminate).
  - tif Em.
    { apply W_err. eapply err_cur; [apply Reach_Back; exact HR0|exact E| |reflexivity].
      intros Hf. rewrite Ev in Hf. apply negb_true_iff in Em. first [apply says_import|apply says_export]; [congruence|exact Hf]. }
    apply negb_false_iff in Em. tcall d td s1 HS1 HR1 Hne HG.
    fin. split; [nn|]. split; [exact HG|]. split.
    + intros _ H. exfalso. apply H. exists t. auto.
    + intros H. exfalso. revert H. eapply Hxx; (reflexivity || discriminate).
  - tcall d td s1 HS1 HR1 Hne HG. destruct HG as [Hd Hs]. fin.
    split; [nn|]. split; [exact Hd|]. split; [|auto]. intros _ _. destruct d; try destruct Hs; exact Logic.I.
  - tif Em.
    { apply W_err. eapply err_cur; [apply Reach_Back; exact HR0|exact E| |reflexivity].
      intros Hf. rewrite Ev in Hf. apply negb_true_iff in Em. first [apply says_import|apply says_export]; [congruence|exact Hf]. }
    apply negb_false_iff in Em. tcall d td s1 HS1 HR1 Hne HG.
    fin. split; [nn|]. split; [exact HG|]. split.
    + intros H. exfalso. apply H. exists t. auto.
    + intros H. exfalso. revert H. eapply Hxx; (reflexivity || discriminate).
  - unfold peek_matches_lexical_binding. wb. wb. apply W_peek. wsimp. wb. apply W_ret. wsimp.
    tif Eb; [|exact Hnone]. tcall d td s1 HS1 HR1 Hne HG.
    destruct HG as (Hd & sp & l & ->). fin.
    split; [nn|]. split; [exact Hd|]. split; [intros _ _; exact Logic.I|].
    intros H. exfalso. revert H. eapply Hxx; (reflexivity || discriminate).
Qed.

Lemma ok_Block c : method_ok (NBlock c).
Proof.
  mstart. unfold parse_block_stmt. tpos. tassert t s1 E1 Ev1 HR1 En1. tcall l tl s2 HS2 HR2 Hne2 HG2.
  destruct HG2 as (l' & tl' & t1 & -> & -> & Hl & Ht1). tspan. fin. eapply d_block; kfin.
Qed.

Lemma ok_BlockLoop c acc : method_ok (NBlockLoop c acc).
Proof.
  mstart. unfold parse_block_loop. tmaybe t s1 E1 Ev1 HR1 Hn.
  - fin. exists [], [], t. rewrite app_nil_r. repeat (split; [solve [auto | constructor]|]). exact Ev1.
  - tcall x tx s1 HS1 HR1 Hne1 HG1. tcall a ts s2 HS2 HR2 Hne2 HG2.
    destruct HG2 as (l & tl & t1 & -> & -> & Hl & Ht). okp. exists (x :: l), (tx ++ tl), t1.
    rewrite <- !app_assoc. split; [reflexivity|]. split; [reflexivity|]. split; [|exact Ht].
    eapply d_many_cons; kfin.
Qed.

Lemma ok_ExprStmt c : method_ok (NExprStmt c).
Proof.
  mstart. unfold parse_expr_stmt. tpos. tcall e te s1 HS1 HR1 Hne1 HG1. wb. eapply W_semi; [exact HR1|nn|].
  intros semi s2 Hsemi HR2. wsimp. tspan. fin. intros c0 Hc. rewrite Hc in HG1. eapply d_expr_stmt; kfin.
Qed.

Lemma ok_Labeled c : method_ok (NLabeled c).
Proof.
  mstart. unfold parse_labeled_stmt. tpos. tcall i ti s1 HS1 HR1 Hne1 HG1. destruct HG1 as (t & -> & Hi).
  tassert t1 s2 E2 Ev2 HR2 En2. tcall b tb s3 HS3 HR3 Hne3 HG3. tspan. fin. eapply d_labeled; kfin.
Qed.

Lemma ok_EmptyStmt : method_ok NEmptyStmt.
Proof.
  mstart. unfold parse_empty_stmt. tassert t s1 E1 Ev1 HR1 En1. fin. intros c. now apply d_empty.
Qed.

Lemma W_opt_label c s0 toks s b (Q : option ident -> pst -> Prop) r ac :
  Reach D s0 toks s -> toks <> [] -> c_module c = m ->
  (forall o to s', Reach D s0 (toks ++ to) s' -> opt_name c o to -> Q o s') ->
  W D m r ac s0 (then_try b (pcall (NIdentifier c))) s Q.
Proof.
  intros HR Hne Hm H. unfold then_try. destruct b.
  - tcall i ti s1 HS1 HR1 Hne1 HG1. destruct HG1 as (t & -> & Hi). apply W_ret. eapply H; eauto. cbn. eauto.
  - apply W_ret. apply (H None []); [now rewrite app_nil_r|reflexivity].
Qed.

Lemma W_opt_expr c s0 toks s b (Q : option node -> pst -> Prop) r ac :
  Reach D s0 toks s -> toks <> [] -> c_module c = m ->
  (forall o to s', Reach D s0 (toks ++ to) s' -> der D YOptExpr c (O o) to -> Q o s') ->
  W D m r ac s0 (then_try b (pcall (NExpr c))) s Q.
Proof.
  intros HR Hne Hm H. unfold then_try. destruct b.
  - tcall i ti s1 HS1 HR1 Hne1 HG1. apply W_ret. eapply H; eauto. now constructor.
  - apply W_ret. apply (H None []); [now rewrite app_nil_r|constructor].
Qed.

Lemma ok_Break c : method_ok (NBreak c).
Proof.
  mstart. unfold parse_break_stmt. tpos. tassert t s1 E1 Ev1 HR1 En1. wb. apply W_stmt_ended. intros b. wsimp.
  wb. eapply W_opt_label; [exact HR1|nn|exact Hm|]. intros o to s2 HR2 Ho. norm HR2. wsimp.
  tosemi s3 HR3. tspan. fin. eapply d_break; kfin.
Qed.

Lemma ok_Continue c : method_ok (NContinue c).
Proof.
  mstart. unfold parse_continue_stmt. tpos. tassert t s1 E1 Ev1 HR1 En1. wb. apply W_stmt_ended. intros b. wsimp.
  wb. eapply W_opt_label; [exact HR1|nn|exact Hm|]. intros o to s2 HR2 Ho. norm HR2. wsimp.
  tosemi s3 HR3. tspan. fin. eapply d_continue; kfin.
Qed.

Lemma ok_Return c : method_ok (NReturn c).
Proof.
  mstart. unfold parse_return_stmt. tpos. tassert t s1 E1 Ev1 HR1 En1. tif Er.
  { tspan. terr_begins says_return. }
  apply negb_false_iff in Er. wb. apply W_stmt_ended. intros b. wsimp.
  wb. eapply W_opt_expr; [exact HR1|nn|exact Hm|]. intros o to s2 HR2 Ho. norm HR2. wsimp.
  tosemi s3 HR3. tspan. fin. eapply d_return; kfin.
Qed.

Lemma ok_Throw c : method_ok (NThrow c).
Proof.
  mstart. unfold parse_throw_stmt. tpos. tassert t s1 E1 Ev1 HR1 En1. traw.
  destruct (cur s1) as [t2|e2] eqn:E2.
  - tif Ev. { tcons t3 s3 E3 HR3 En3. terr_tok. }
    destruct (t_fol t2) eqn:Ef.
    { apply W_err. eapply err_tok; [apply Reach_Back; exact HR1|left; reflexivity| |reflexivity].
      intros _. pose proof (clean_cur_log D _ _ (Back_clean _ _ _ _ (Reach_Back _ _ _ _ HR1)) E2) as HL.
      destruct HR1 as (HB1 & _). pose proof HB1 as (_ & _ & El & _). rewrite El, <- app_assoc in HL. cbn [app] in HL.
      eapply says_throw; [exact HL|exact Ev1|reflexivity|exact Ef]. }
    tcall e te s2 HS2 HR2 Hne2 HG2. tosemi s3 HR3. tspan. fin. eapply d_throw; kfin.
  - tcons t3 s3 E3 HR3 En3. terr_tok.
Qed.

Lemma ok_Debugger : method_ok NDebugger.
Proof.
  mstart. unfold parse_debugger_stmt. tpos. tassert t s1 E1 Ev1 HR1 En1. tosemi s3 HR3. tspan. fin.
  intros c. eapply d_debugger; kfin.
Qed.

Lemma ok_If c : method_ok (NIf c).
Proof.
  mstart. unfold parse_if_stmt. tpos. tassert t s1 E1 Ev1 HR1 En1. tassert t1 s2 E2 Ev2 HR2 En2.
  tcall e te s3 HS3 HR3 Hne3 HG3. tassert t2 s4 E4 Ev4 HR4 En4. tcall a ta s5 HS5 HR5 Hne5 HG5.
  tmaybe t6 s6 E6 Ev6 HR6 Hn; unfold then_try.
  - wb. tcall b tb s7 HS7 HR7 Hne7 HG7. apply W_ret. wsimp. tspan. fin.
    eapply d_if; kfin. eapply d_optstmt; kfin.
  - wb. apply W_ret. wsimp. tspan. fin.
    eapply (d_if _ _ _ _ _ _ _ _ _ _ None []); kfin; [now rewrite app_nil_r|constructor].
Qed.

Lemma ok_With c : method_ok (NWith c).
Proof.
  mstart. unfold parse_with_stmt. tpos. tassert t s1 E1 Ev1 HR1 En1. tassert t1 s2 E2 Ev2 HR2 En2.
  tcall e te s3 HS3 HR3 Hne3 HG3. tassert t2 s4 E4 Ev4 HR4 En4. tcall a ta s5 HS5 HR5 Hne5 HG5.
  tspan. fin. eapply d_with; kfin.
Qed.


Lemma W_opt_catch {A : Set} c s0 toks s (k : option node -> prg A) (Q : A -> pst -> Prop) r ac :
  Reach D s0 toks s -> toks <> [] -> c_module c = m ->
  (forall o to s', Reach D s0 (toks ++ to) s' -> der D YOptCatch c (O o) to -> W D m r ac s0 (k o) s' Q) ->
  W D m r ac s0 (let? b := current_matches (VKeyword KCatch) in
                 let? h := then_try b (pcall (NCatch c)) in k h) s Q.
Proof.
  intros HR Hne Hm H. tcurm Hc; wb; unfold then_try.
  - tcall a ts s1 HS1 HR1 Hne1 HG1. apply W_ret. eapply H; eauto. now constructor.
  - apply W_ret. apply (H None []); [now rewrite app_nil_r|constructor].
Qed.

Lemma W_opt_finally {A : Set} c s0 toks s (k : option node -> prg A) (Q : A -> pst -> Prop) r ac :
  Reach D s0 toks s -> toks <> [] -> c_module c = m ->
  (forall o to s', Reach D s0 (toks ++ to) s' -> der D YFinally c (O o) to -> W D m r ac s0 (k o) s' Q) ->
  W D m r ac s0 (let? b := maybe_consume (VKeyword KFinally) in
                 let? h := then_try b (pcall (NBlock c)) in k h) s Q.
Proof.
  intros HR Hne Hm H. tmaybe t s1 E1 Ev1 HR1 Hn; wb; unfold then_try.
  - tcall a ts s2 HS2 HR2 Hne2 HG2. apply W_ret. eapply H; eauto. eapply d_finally; kfin.
  - apply W_ret. apply (H None []); [now rewrite app_nil_r|constructor].
Qed.

Lemma ok_Try c : method_ok (NTry c).
Proof.
  mstart. unfold parse_try_stmt. tpos. tassert t s1 E1 Ev1 HR1 En1. tcall b tb s2 HS2 HR2 Hne2 HG2.
  eapply W_opt_catch; [exact HR2|nn|exact Hm|]. intros h th s3 HR3 Hh. norm HR3.
  eapply W_opt_finally; [exact HR3|nn|exact Hm|]. intros f tf s4 HR4 Hf. norm HR4.
  tspan. tif En.
  - terr_begins says_try.
  - fin. eapply d_try; kfin. intros ->. destruct f; [discriminate|discriminate En].
Qed.

Lemma ok_Catch c : method_ok (NCatch c).
Proof.
  mstart. unfold parse_catch_clause. tpos. tassert t s1 E1 Ev1 HR1 En1.
  tmaybe t1 s2 E2 Ev2 HR2 Hn; unfold then_try.
  - wb. wb. tcall p tp s3 HS3 HR3 Hne3 HG3. tassert t2 s4 E4 Ev4 HR4 En4. apply W_ret. apply W_ret.
    tcall b tb s5 HS5 HR5 Hne5 HG5. tspan. fin. eapply d_catch_param; kfin.
  - wb. apply W_ret. wsimp. tcall b tb s5 HS5 HR5 Hne5 HG5. tspan. fin. eapply d_catch; kfin.
Qed.

Lemma ok_Switch c : method_ok (NSwitch c).
Proof.
  mstart. unfold parse_switch_stmt. tpos. tassert t s1 E1 Ev1 HR1 En1. tassert t1 s2 E2 Ev2 HR2 En2.
  tcall e te s3 HS3 HR3 Hne3 HG3. tassert t2 s4 E4 Ev4 HR4 En4. tcall a ta s5 HS5 HR5 Hne5 HG5.
  destruct HG5 as (t3 & tl & t4 & -> & Ht3 & Hl & Ht4). tspan. fin. eapply d_switch; kfin.
Qed.

Lemma ok_CaseBlock c : method_ok (NCaseBlock c).
Proof.
  mstart. unfold parse_case_block. tassert t s1 E1 Ev1 HR1 En1. tcall a ta s2 HS2 HR2 Hne2 HG2.
  destruct HG2 as (l & -> & Hl). tassert t2 s4 E4 Ev4 HR4 En4. fin. exists t, ta, t2. auto.
Qed.

Lemma ok_CaseBlockLoop c acc : method_ok (NCaseBlockLoop c acc).
Proof.
  mstart. unfold parse_case_block_loop. tcurm Hc.
  - apply W_ret. ok0. exists []. rewrite app_nil_r. split; [auto|constructor].
  - tcall x tx s1 HS1 HR1 Hne1 HG1. tcall a ts s2 HS2 HR2 Hne2 HG2.
    destruct HG2 as (l & -> & Hl). okp. exists (x :: l). rewrite <- app_assoc. split; [auto|].
    eapply d_many_cons; kfin.
Qed.

Lemma ok_CaseClause c : method_ok (NCaseClause c).
Proof.
  mstart. unfold parse_case_clause. tpos. tmaybe t s1 E1 Ev1 HR1 Hn; wb.
  - wb. tcall e te s2 HS2 HR2 Hne2 HG2. tassert t2 s3 E3 Ev3 HR3 En3. apply W_ret. wsimp.
    tcall a ts s4 HS4 HR4 Hne4 HG4. destruct HG4 as (l & -> & Hl). tspan. fin. eapply d_case; kfin.
  - tassert t s1 E1 Ev1 HR1 En1. tassert t2 s3 E3 Ev3 HR3 En3. apply W_ret. wsimp.
    tcall a ts s4 HS4 HR4 Hne4 HG4. destruct HG4 as (l & -> & Hl). tspan. fin. eapply d_default; kfin.
Qed.

Lemma ok_CaseStmts c acc : method_ok (NCaseStmts c acc).
Proof.
  mstart. unfold parse_switch_case_stmt_list. traw. tif Eb.
  - apply W_ret. ok0. exists []. rewrite app_nil_r. split; [auto|constructor].
  - tcall x tx s1 HS1 HR1 Hne1 HG1. tcall a ts s2 HS2 HR2 Hne2 HG2.
    destruct HG2 as (l & -> & Hl). okp. exists (x :: l). rewrite <- app_assoc. split; [auto|].
    eapply d_many_cons; kfin.
Qed.

Lemma ok_DoWhile c : method_ok (NDoWhile c).
Proof.
  mstart. unfold parse_do_while_stmt. tpos. tassert t s1 E1 Ev1 HR1 En1. tcall b tb s2 HS2 HR2 Hne2 HG2.
  tassert t1 s3 E3 Ev3 HR3 En3. tassert t2 s4 E4 Ev4 HR4 En4. tcall e te s5 HS5 HR5 Hne5 HG5.
  tassert t3 s6 E6 Ev6 HR6 En6. tosemi s7 HR7. tspan. fin. eapply d_do; kfin.
Qed.

Lemma ok_While c : method_ok (NWhile c).
Proof.
  mstart. unfold parse_while_stmt. tpos. tassert t s1 E1 Ev1 HR1 En1. tassert t1 s2 E2 Ev2 HR2 En2.
  tcall e te s3 HS3 HR3 Hne3 HG3. tassert t2 s4 E4 Ev4 HR4 En4. tcall a ta s5 HS5 HR5 Hne5 HG5.
  tspan. fin. eapply d_while; kfin.
Qed.

(** After a failed attempt the state can be rewound to [s1]. *)
Definition Rewindable (s1 s : pst) (t : token) : Prop :=
  wf D s /\ exists toks', log s = log s1 ++ toks' /\ forall u, In u toks' -> tstart t <= tstart u.

Lemma Back_Rewindable s1 toks s t : Back D s1 toks s -> cur s1 = Ok t -> Rewindable s1 s t.
Proof.
  intros HB E. split; [apply clean_wf; eapply Back_clean; eauto|]. exists toks. split; [apply HB|].
  intros u Hu. destruct (Back_starts _ _ _ _ _ HB Hu) as (t0 & E0 & Hle). congruence.
Qed.

Lemma ErrPost_Rewindable ac s1 s t e : ErrPost D m ac s1 s e -> cur s1 = Ok t -> Rewindable s1 s t.
Proof.
  intros (Hw & toks & El & Ht & _) E. split; [auto|]. exists toks. split; [auto|].
  intros u Hu. destruct (Ht _ Hu) as (t0 & E0 & Hle). congruence.
Qed.

Lemma ok_For c : method_ok (NFor c).
Proof.
  mstart. unfold parse_for_stmt. tpos. tassert t s1 E1 Ev1 HR1 En1. wb.
  eapply W_mono with (Q := fun a s => exists ta, Reach D s0 (t :: ta) s /\
    match ta with
    | [] => a = false
    | [u] => a = true /\ c_await c = true /\ isk KAwait u
    | _ => False
    end).
  2: { destruct (c_await c).
       - tmaybe t2 s2 E2 Ev2 HR2 Hn; [exists [t2]|exists []]; auto.
       - apply W_ret. exists []. auto. }
  intros asy s2 (ta & HR2 & Hasy). tassert t1 s3 E3 Ev3 HR3 En3. tcur tt Et. wb.
  eapply W_mono with (Q := fun o s => match o with
    | Some x => OkPost D (NFor c) s0 x s
    | None => Rewindable s3 s tt
    end).
  - intros [x|] s4 H4; [now apply W_ret|]. destruct H4 as (Hwf & tr & El & Htr).
    wb. eapply W_rewind with (s1 := s3) (toks' := tr); [exact HR3|exact Et|exact Hwf|exact El|exact Htr|].
    intros s5 HB5 HB5' Hne5 Hhd. wsimp.
    tcallb a ts s6 HS6 HR6 Hne6 HG6.
    { split; [|intros ->; destruct ta as [|u [|]]; [discriminate Hasy|destruct Hasy as (_ & _ & Hu)|contradiction];
        exists (log s0), t, u, [t1]; split; [exact (proj1 (proj2 (proj2 HB5')))|]; split; [exact Ev1|]; split; [exact Hu|];
        unfold posof; now rewrite E1].
      intros t' E'. destruct (Hhd t' E') as [Hst _]. rewrite <- Hst.
      pose proof (Back_cur_lt _ _ _ _ _ _ (Reach_Back _ _ _ _ HR3) ltac:(nn) E1 Et).
      unfold posof. rewrite E1. lia. }
    okp.
    destruct HG6 as (x & tx & t2 & e & te & t3 & b & tb & -> & Hx & He & Ht3 & Hb & Hcase).
    destruct Hcase as [(Hin & -> & ->)|(Hof & ->)].
    + assert (ta = []) as -> by (destruct ta as [|u [|]]; [auto|destruct Hasy; discriminate|destruct Hasy]).
      cbn [app] in HR6. eapply d_for_in; kfin.
    + eapply d_for_of; kfin.
  - unfold try_parse_for. wb. eapply W_try; [exact HR3|pre|rk|reflexivity| |].
    2: { intros e s4 He _. wsimp. apply W_ret. eapply ErrPost_Rewindable; eauto. }
    intros i ti s4 HS4 HR4 _ HG4. norm HR4. cbn [G] in HG4. wsimp.
    tmaybe t4 s5 E5 Ev5 HR5 Hn.
    2: { apply W_ret. eapply Back_Rewindable; [apply Reach_Back; exact HS4|exact Et]. }
    destruct asy.
    { destruct ta as [|u [|]]; [discriminate Hasy|destruct Hasy as (_ & _ & Hu)|contradiction].
      tspan. apply W_err. eapply err_span; [eassumption|nn| |reflexivity].
      eapply says_for_await; [exact (Back_log _ _ _ _ (Reach_Back _ _ _ _ HR5))|exact Ev1|exact Hu|].
      cbn. symmetry. apply (Reach_span _ _ _ _ HR5). nn. }
    assert (ta = []) as -> by (destruct ta as [|u [|]]; [auto|destruct Hasy; discriminate|destruct Hasy]).
    cbn [app] in *.
    assert (Hgen : forall o1 to1 s6, Reach D s0 (t :: t1 :: ti ++ t4 :: to1) s6 ->
      der D YOptExpr (with_in true c) (O o1) to1 ->
      W D m 1 None s0 (consume_assert (VPunct PSemiColon);?
       let? b := current_matches (VPunct PParenClose) in
       let? update := then_try (negb b) (pcall (NExpr (with_in true c))) in
       consume_assert (VPunct PParenClose);?
       let? body := pcall (NStmt c) in
       let? span := span_from (posof s0) in
       pret (Some (SFor span i o1 update body))) s6
       (fun o s => match o with
        | Some x => OkPost D (NFor c) s0 x s
        | None => Rewindable s3 s tt
        end)).
    { intros o1 to1 s6 HR6 Ho1. tassert t7 s7 E7 Ev7 HR7 En7.
      assert (Hgen2 : forall o2 to2 s8, Reach D s0 (t :: t1 :: ti ++ t4 :: to1 ++ t7 :: to2) s8 ->
        der D YOptExpr (with_in true c) (O o2) to2 ->
        W D m 1 None s0 (
         consume_assert (VPunct PParenClose);?
         let? body := pcall (NStmt c) in
         let? span := span_from (posof s0) in
         pret (Some (SFor span i o1 o2 body))) s8
         (fun o s => match o with
          | Some x => OkPost D (NFor c) s0 x s
          | None => Rewindable s3 s tt
          end)).
      { intros o2 to2 s8 HR8 Ho2. tassert t9 s9 E9 Ev9 HR9 En9. tcall b tb s10 HS10 HR10 Hne10 HG10.
        tspan. fin. eapply d_for; kfin. }
      tcurm Hc; wb; (eapply W_opt_expr; [exact HR7|nn|exact Hm|]); intros o2 to2 s8 HR8 Ho2; norm HR8; wsimp;
        eapply Hgen2; eauto. }
    tcurm Hc; wb; (eapply W_opt_expr; [exact HR5|nn|exact Hm|]); intros o1 to1 s6 HR6 Ho1; norm HR6; wsimp;
      eapply Hgen; eauto.
Qed.

Lemma ok_ForInOf c start asy : method_ok (NForInOf c start asy).
Proof.
  mstart. unfold parse_for_in_of. tcall x tx s1 HS1 HR1 Hne1 HG1. tcur t E.
  assert (Hdef : W D m 11 (Some c) s0 (let? t := consume in perror (unexpected_token t)) s1
    (OkPost D (NForInOf c start asy) s0)).
  { tcons t1 s2 E2 HR2 En2. terr_tok. }
  destruct (t_value t) eqn:Ev; try exact Hdef. destruct k; try exact Hdef.
  - destruct asy.
    + destruct HX as [HX HA]. tspan. apply W_err. eapply err_here; [apply Reach_Back; exact HR1| |].
      2: { destruct (HA eq_refl) as (l & f & u & ts & El & Hf & Hu & Hs).
           eapply (says_for_await _ _ _ l f u (ts ++ tx)); [|exact Hf|exact Hu|].
           - pose proof (Back_log _ _ _ _ (Reach_Back _ _ _ _ HR1)) as HL. rewrite El, <- app_assoc in HL. exact HL.
           - cbn. unfold span_of. rewrite (Reach_pos _ _ _ _ HR1 Hne1). f_equal; [exact Hs|].
             change (f :: u :: ts ++ tx) with ((f :: u :: ts) ++ tx). now apply tfin_app. }
      right. cbn.
      rewrite (Reach_pos _ _ _ _ HR1 Hne1).
      pose proof (Back_bounds _ _ _ _ (Reach_Back _ _ _ _ HR1) Hne1) as HB.
      pose proof (Reach_posof _ _ _ _ HR1 Hne1) as HP. unfold posof in HP.
      destruct (Back_starts D s0 tx s1 (hd t tx) (Reach_Back _ _ _ _ HR1)) as (t0 & E0 & _).
      { destruct tx; [contradiction|left; reflexivity]. }
      rewrite E0 in HP. specialize (HX t0 E0). unfold span_ok. cbn. lia.
    + tcall a ts s2 HS2 HR2 Hne2 HG2. destruct HG2 as (t2 & e & te & t3 & b & tb & -> & H2 & He & H3 & Hb & ->).
      okp. exists x, tx, t2, e, te, t3, b, tb. repeat (split; [solve [auto]|]). left. auto.
  - tcall a ts s2 HS2 HR2 Hne2 HG2. destruct HG2 as (t2 & e & te & t3 & b & tb & -> & H2 & He & H3 & Hb & ->).
    okp. exists x, tx, t2, e, te, t3, b, tb. repeat (split; [solve [auto]|]). right. auto.
Qed.

Lemma ok_ForIn c start x : method_ok (NForIn c start x).
Proof.
  mstart. unfold parse_for_in. tassert t s1 E1 Ev1 HR1 En1. tcall e te s2 HS2 HR2 Hne2 HG2.
  tassert t3 s3 E3 Ev3 HR3 En3. tcall b tb s4 HS4 HR4 Hne4 HG4. tspan. fin.
  exists t, e, te, t3, b, tb. auto 10.
Qed.

Lemma ok_ForOf c start x asy : method_ok (NForOf c start x asy).
Proof.
  mstart. unfold parse_for_of. tassert t s1 E1 Ev1 HR1 En1. tcall e te s2 HS2 HR2 Hne2 HG2.
  tassert t3 s3 E3 Ev3 HR3 En3. tcall b tb s4 HS4 HR4 Hne4 HG4. tspan. fin.
  exists t, e, te, t3, b, tb. auto 10.
Qed.

(** An optional [var], [let] or [const]. *)
Lemma W_opt_kind c s0 (Q : option variable_kind -> pst -> Prop) r ac :
  Reach D s0 [] s0 ->
  (forall k t s', Reach D s0 [t] s' -> kind_tok k t -> Q (Some k) s') ->
  Q None s0 ->
  W D m r ac s0 (parse_optional_variable_kind c) s0 Q.
Proof.
  intros HR H1 H2. unfold parse_optional_variable_kind. tcur t E.
  unfold peek_matches_lexical_binding. wb. wb. apply W_peek. wsimp. wb. apply W_ret. wsimp.
  destruct (t_value t) eqn:Ev; try (now apply W_ret). destruct k; try (now apply W_ret).
  - tcons t1 s1 E1 HR1 En1. apply W_ret. eapply H1; eauto.
  - tif El; [|now apply W_ret]. tcons t1 s1 E1 HR1 En1. apply W_ret. eapply H1; eauto.
  - tcons t1 s1 E1 HR1 En1. apply W_ret. eapply H1; eauto.
Qed.

Lemma ok_ForDeclaration c : method_ok (NForDeclaration c).
Proof.
  mstart. unfold parse_for_declaration. tpos. wb. eapply W_opt_kind; [exact HR0| |].
  - intros k t s1 HR1 Hk. wsimp. tcall p tp s2 HS2 HR2 Hne2 HG2. tspan. fin. eapply d_fordecl_binding; kfin.
  - wsimp. tcur t E.
    assert (Hdef : W D m 10 (Some c) s0
      (let? e := pcall (NLeftHandSide c) in
       ofres (early_errors_left_hand_side_expr c e);? pret e) s0
      (OkPost D (NForDeclaration c) s0)).
    { tcall a ts s1 HS1 HR1 Hne1 HG1. wb. apply W_ofres.
      - intros [] Hok. apply check_simple_ok in Hok. fin. now apply d_fordecl_expr.
      - intros err Herr. eapply (err_simple D m _ _ _ _ _ _ _ ts _ [] []); eauto using Reach_Back.
        now rewrite app_nil_r. }
    assert (Hpat : t_value t = VPunct PBraceOpen \/ t_value t = VPunct PBracketOpen ->
      W D m 10 (Some c) s0 (pcall (NAsgPattern c)) s0 (OkPost D (NForDeclaration c) s0)).
    { intros Hv. tcall a ts s1 HS1 HR1 Hne1 HG1.
      - intros t' E'. uniq. exact Hv.
      - okp. now apply d_fordecl_pattern. }
    destruct (t_value t) eqn:Ev; try exact Hdef. destruct p; try exact Hdef; apply Hpat; auto.
Qed.

Lemma ok_OptionalForInit c : method_ok (NOptionalForInit c).
Proof.
  mstart. unfold parse_optional_for_init. tcurm Hc.
  - apply W_ret. ok0. constructor.
  - tcall i ti s1 HS1 HR1 Hne1 HG1. fin. exact HG1.
Qed.

Lemma ok_ForInit c : method_ok (NForInit c).
Proof.
  mstart. unfold parse_for_init. tpos. wb. eapply W_opt_kind; [exact HR0| |].
  - intros k t s1 HR1 Hk. wsimp. tcall a tl s2 HS2 HR2 Hne2 HG2. destruct HG2 as (l & Hl & ->). okp.
    eapply d_forinit_decl; kfin.
  - wsimp. tcall e te s2 HS2 HR2 Hne2 HG2. okp. now apply d_forinit_expr.
Qed.

Lemma ok_ForInitDecl c start k : method_ok (NForInitDecl c start k).
Proof.
  mstart. unfold parse_for_init_variable_declaration. tcall l tl s1 HS1 HR1 Hne1 HG1. tspan. fin. eauto.
Qed.

End Par.
