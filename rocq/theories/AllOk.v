(** * AllOk: every parser method keeps its promise, and what that says about [parse]. *)

From Verif Require Import ParTac ParLib Par1 Par2 Par3 Par4 Par5 Par6.
Local Open Scope list_scope.

Section AllOk.
Context {PF : Platform}.
Variable D : str.

Theorem all_ok m : forall (B : Set) (n : nt B), method_ok D m n.
Proof.
  intros B n. destruct n.
  - apply ok_Identifier.
  - apply ok_IdentifierName.
  - apply ok_PropertyName.
  - apply ok_Directives.
  - apply ok_Program.
  - apply ok_CoverParen.
  - apply ok_CoverAsync.
  - apply ok_CoveredCall.
  - apply ok_Expr.
  - apply ok_Sequence.
  - apply ok_Assignment.
  - apply ok_ConditionalOrArrow.
  - apply ok_AssignmentAsync.
  - apply ok_AssignRight.
  - apply ok_Parenthesized.
  - apply ok_Yield.
  - apply ok_Conditional.
  - apply ok_Unary.
  - apply ok_UnaryOp.
  - apply ok_Await.
  - apply ok_Update.
  - apply ok_PrefixUpdate.
  - apply ok_LeftHandSide.
  - apply ok_RecursiveCall.
  - apply ok_CallExpr.
  - apply ok_SuperCall.
  - apply ok_ImportCall.
  - apply ok_ImportArgument.
  - apply ok_NewOrMember.
  - apply ok_NewOrMemberLoop.
  - apply ok_TaggedTemplate.
  - apply ok_MemberTerminal.
  - apply ok_NewExpr.
  - apply ok_SuperProperty.
  - apply ok_ImportMeta.
  - apply ok_NewTarget.
  - apply ok_Arguments.
  - apply ok_ArgumentsLoop.
  - apply ok_Argument.
  - apply ok_OptionalArguments.
  - apply ok_Primary.
  - apply ok_Initializer.
  - apply ok_Binary.
  - apply ok_BinaryLoop.
  - apply ok_TemplateExpr.
  - apply ok_Template.
  - apply ok_TemplateParts.
  - apply ok_ArrayLiteral.
  - apply ok_ArrayLoop.
  - apply ok_ArrayElement.
  - apply ok_ObjectLiteral.
  - apply ok_ObjectLoop.
  - apply ok_PropertyDefinition.
  - apply ok_ComputedDefinition.
  - apply ok_NamedDefinition.
  - apply ok_MemberRight.
  - apply ok_OptionalExpr.
  - apply ok_OptionalCall.
  - apply ok_OptionalMember.
  - apply ok_OptionalMemberProperty.
  - apply ok_MemberProperty.
  - apply ok_ComputedProperty.
  - apply ok_AsgPattern.
  - apply ok_ArrayAsg.
  - apply ok_ArrayAsgLoop.
  - apply ok_AsgElement.
  - apply ok_AsgTarget.
  - apply ok_ObjectAsg.
  - apply ok_ObjectAsgLoop.
  - apply ok_NamedAsg.
  - apply ok_SingleAsg.
  - apply ok_BindPattern.
  - apply ok_ObjectBind.
  - apply ok_ObjectBindLoop.
  - apply ok_SingleBind.
  - apply ok_NamedBind.
  - apply ok_ArrayBind.
  - apply ok_ArrayBindLoop.
  - apply ok_BindElement.
  - apply ok_BindRest.
  - apply ok_RestBind.
  - apply ok_ArrowExpr.
  - apply ok_AsyncArrowExpr.
  - apply ok_Arrow.
  - apply ok_ArrowParameters.
  - apply ok_ConciseBody.
  - apply ok_ArrowIdent.
  - apply ok_FunctionExpr.
  - apply ok_AsyncFunctionExpr.
  - apply ok_FunctionContent.
  - apply ok_FunctionDecl.
  - apply ok_AsyncFunctionDecl.
  - apply ok_FunctionDeclContent.
  - apply ok_FunctionIdentifier.
  - apply ok_FormalParameters.
  - apply ok_FormalLoop.
  - apply ok_FunctionBody.
  - apply ok_BodyStmts.
  - apply ok_ClassDecl.
  - apply ok_ClassIdentifier.
  - apply ok_ClassExpr.
  - apply ok_ClassTail.
  - apply ok_ClassBody.
  - apply ok_ClassBodyLoop.
  - apply ok_ClassElement.
  - apply ok_MethodDefinition.
  - apply ok_GeneratorMethod.
  - apply ok_Accessor.
  - apply ok_AsyncMethod.
  - apply ok_Method.
  - apply ok_VariableStmt.
  - apply ok_VariableDecls.
  - apply ok_VariableDeclsLoop.
  - apply ok_VariableDecl.
  - apply ok_AllStmts.
  - apply ok_DeclOrStmt.
  - apply ok_Stmt.
  - apply ok_Declaration.
  - apply ok_Block.
  - apply ok_BlockLoop.
  - apply ok_ExprStmt.
  - apply ok_Labeled.
  - apply ok_EmptyStmt.
  - apply ok_Break.
  - apply ok_Continue.
  - apply ok_Return.
  - apply ok_Throw.
  - apply ok_Debugger.
  - apply ok_If.
  - apply ok_With.
  - apply ok_Try.
  - apply ok_Catch.
  - apply ok_Switch.
  - apply ok_CaseBlock.
  - apply ok_CaseBlockLoop.
  - apply ok_CaseClause.
  - apply ok_CaseStmts.
  - apply ok_DoWhile.
  - apply ok_While.
  - apply ok_For.
  - apply ok_ForInOf.
  - apply ok_ForIn.
  - apply ok_ForOf.
  - apply ok_ForDeclaration.
  - apply ok_OptionalForInit.
  - apply ok_ForInit.
  - apply ok_ForInitDecl.
  - apply ok_ExportDecl.
  - apply ok_DefaultExport.
  - apply ok_VarExport.
  - apply ok_DeclExport.
  - apply ok_DeclDefaultExport.
  - apply ok_RequiredDecl.
  - apply ok_NamespaceExport.
  - apply ok_NamedExport.
  - apply ok_ImportDecl.
  - apply ok_ImportClause.
  - apply ok_ModuleImport.
  - apply ok_ModuleSpecifier.
  - apply ok_NamespaceImport.
  - apply ok_NamedImports.
  - apply ok_NamedImportsLoop.
  - apply ok_ImportSpecifier.
  - apply ok_NamedExports.
  - apply ok_NamedExportsLoop.
  - apply ok_ExportSpecifier.
Qed.

(** ** What [parse] gives *)

Definition start_sort (tg : target) : sort :=
  match tg with TExpr => YExpr | TStmt => YItem | TProgram => YProgram end.
Definition start_ctx (tg : target) (m : bool) : ctx :=
  match tg with TExpr => with_in true (ctx_default m) | _ => ctx_default m end.

(** Depth of the recursion: enough for every source of [n] bytes. *)
Definition depth (n : nat) : nat := KR * n + KR.

Theorem parse_sound m tg fuel : depth (blen D) <= fuel ->
  match parse_fuel fuel tg D m with
  | ODone (Ok a) s =>
    exists ts pre f, log s = ts /\ chain D [] true ts pre f /\
      der D (start_sort tg) (start_ctx tg m) (I a) ts /\
      (tg = TProgram -> eos_at D pre f)
  | ODone (Err e) s => (expected_statement D m e \/ span_ok D (pe_span e)) /\ says D m e (arrow_at D e)
  | OPanic => PanicOK D m
  | OFuel => False
  end.
Proof.
  intros Hf. unfold parse_fuel. destruct (pst_new_ok D m) as (s0 & -> & HC & HL & HP0).
  assert (HP : Pre D m (entry tg m) s0).
  { split; [exact HC|]. destruct tg; (split; [destruct m; reflexivity|cbn; auto]). }
  assert (Hmu : mu D (entry tg m) s0 < fuel).
  { unfold mu, rem, rem_log. rewrite HL. cbn [tfin map last]. rewrite Nat.sub_0_r.
    unfold depth in Hf. pose proof (rank_lt (entry tg m)). lia. }
  pose proof (run_sound D m (all_ok m) fuel node (entry tg m) s0 HP Hmu) as H.
  destruct (run body fuel node (entry tg m) s0) as [[a|e] s1| |]; auto.
  - destruct H as (ts & HR & Hne & HG).
    assert (HR' : Reach D s0 ts s1).
    { destruct HR as [HR|(Hw & _)]; [exact HR|]. destruct tg; discriminate Hw. }
    destruct HR' as ((_ & HC1 & EL & _) & _). rewrite HL in EL. cbn [app] in EL.
    destruct tg; cbn [entry G] in HG.
    + destruct (clean_log D _ HC1) as (pre & f & Hch). exists ts, pre, f. rewrite EL in Hch.
      repeat split; auto. discriminate.
    + destruct (clean_log D _ HC1) as (pre & f & Hch). exists ts, pre, f. rewrite EL in Hch.
      repeat split; auto. discriminate.
    + destruct HG as [Hd He]. destruct (clean_eos D _ HC1 He) as (pre & f & Hch & Hos).
      exists ts, pre, f. rewrite EL in Hch. auto.
  - destruct H as ((_ & toks & _ & _ & Hs & _) & _). exact Hs.
Qed.

End AllOk.
