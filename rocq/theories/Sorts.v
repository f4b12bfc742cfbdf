(** * Sorts: the fields of every node, in source order, with their Rust types.

    A specification table, written from the type declarations in ast/src/*.rs
    (the types) and the grammar (the order), not from the traversal code.
    [well_typed t n]: [n] is a value of the Rust type [t]. *)

From Verif Require Import Base Tokens Ast Traverse.
Local Open Scope list_scope.

Definition nodes_ (t : ty) (l : list node) : list part := map (fun n => Sub t n) l.
Definition node_opt (t : ty) (o : option node) : list part := nodes_ t (opt_list o).
Definition ident_opt (o : option ident) : list part := map (fun i => Leaf (ThIdent i)) (opt_list o).
Definition string_list (l : list lit_string) : list part := map (fun s => Leaf (ThString s)) l.
Notation Str s := (Leaf (ThString s)).
Notation Nam i := (Leaf (ThIdent i)).

Definition contents (n : node) : list part :=
  match n with
  (* ast/src/expr.rs *)
  | EArrow _ _ _ p b => [Sub YFormalParameters p; Sub YArrowBody b]
  | EAssign _ o l r => [Sub YPatternOrExpr l; Leaf (ThAssign o); Sub YExpr r]
  | EAwait _ a => [Sub YExpr a]
  | EBinary _ o l r => [Sub YExpr l; Leaf (ThBinary o); Sub YExpr r]
  | ECall _ c _ args => Sub YCallee c :: nodes_ YArgument args
  | EClass _ i s b => ident_opt i ++ node_opt YExpr s ++ nodes_ YClassElement b
  | EConditional _ c a b => [Sub YExpr c; Sub YExpr a; Sub YExpr b]
  | EFunction _ _ _ i p b => ident_opt i ++ [Sub YFormalParameters p; Sub YBody b]
  | EIdentRef i => [Nam i]
  | ELiteral _ l => [Sub YLiteral l]
  | ELogical _ o l r => [Sub YExpr l; Leaf (ThLogical o); Sub YExpr r]
  | EMember _ o p => [Sub YMemberObject o; Sub YMemberProperty p]
  | EMetaProperty _ m p => [Nam m; Nam p]
  | ENew _ c _ args => Sub YExpr c :: nodes_ YArgument args
  | EOptionalCall _ c _ args _ => Sub YExpr c :: nodes_ YArgument args
  | EOptionalMember _ o p _ => [Sub YExpr o; Sub YMemberProperty p]
  | EParenthesized _ e => [Sub YExpr e]
  | ESequence _ l => nodes_ YExpr l
  | ETaggedTemplate _ c t => [Sub YExpr c; Sub YTemplate t]
  | EThis _ => []
  | EUnary _ o a => [Leaf (ThUnary o); Sub YExpr a]
  | EUpdate _ o true a => [Leaf (ThUpdate o); Sub YExpr a]
  | EUpdate _ o false a => [Sub YExpr a; Leaf (ThUpdate o)]
  | EYield _ a _ => node_opt YExpr a
  | CalleeSuper | CalleeImport | ObjSuper _ => []
  | PropIdent i => [Nam i]
  | PropExpr e => [Sub YExpr e]
  | ArgExpr e | ArgSpread e => [Sub YExpr e]
  (* ast/src/literal.rs *)
  | LitNull | LitBoolean _ | LitRegexp _ => []
  | LitString s => [Str s]
  | LitNumber r => [Leaf (ThNumber r)]
  | LitArray l => nodes_ YArrayElement l
  | LitObject l => nodes_ YPropertyDefinition l
  | LitTemplate l => nodes_ YTemplatePart l
  | TplString _ => []
  | TplExpr e => [Sub YExpr e]
  | ElemElision => []
  | ElemExpr e | ElemSpread e => [Sub YExpr e]
  | DefIdentRef i => [Nam i]
  | DefSpread e => [Sub YExpr e]
  | DefNamed _ n v => [Sub YPropertyName n; Sub YExpr v]
  | DefMethod m => [Sub YMethod m]
  (* ast/src/binding.rs, method.rs *)
  | NameIdent i => [Nam i]
  | NameString s => [Str s]
  | NameNumber r => [Leaf (ThNumber r)]
  | NameComputed e => [Sub YExpr e]
  | Method _ n _ p b _ _ _ => [Sub YPropertyName n; Sub YFormalParameters p; Sub YBody b]
  | FormalParameters _ l r => nodes_ YBindingElement l ++ node_opt YBindingPattern r
  | Body _ ds l => string_list ds ++ nodes_ YStmt l
  | BindIdent i => [Nam i]
  | BindArray _ l r => nodes_ YBindingElement (cat_options l) ++ node_opt YBindingPattern r
  | BindObject _ l r => nodes_ YObjectBindingProp l ++ node_opt YBindingPattern r
  | BindSingle _ i e => Nam i :: node_opt YExpr e
  | BindNamed _ n b => [Sub YPropertyName n; Sub YBindingElement b]
  | BindElement _ p e => Sub YBindingPattern p :: node_opt YExpr e
  (* ast/src/assignment.rs *)
  | AsgArray _ l r => nodes_ YAssignmentElement (cat_options l) ++ node_opt YPatternOrExpr r
  | AsgObject _ l r => nodes_ YAssignmentProp l ++ node_opt YPatternOrExpr r
  | AsgElement _ t e => Sub YPatternOrExpr t :: node_opt YExpr e
  | AsgSingle _ i e => Nam i :: node_opt YExpr e
  | AsgNamed _ n v e => Sub YPropertyName n :: Sub YPatternOrExpr v :: node_opt YExpr e
  (* ast/src/stmt.rs *)
  | SBlock _ l => nodes_ YStmt l
  | SBreak _ l | SContinue _ l => ident_opt l
  | SDebugger _ | SEmpty _ => []
  | SDoWhile _ b t => [Sub YStmt b; Sub YExpr t]
  | SExpr _ e => [Sub YExpr e]
  | SFor _ i t u b => node_opt YForInit i ++ node_opt YExpr t ++ node_opt YExpr u ++ [Sub YStmt b]
  | SForIn _ l r b => [Sub YForDeclaration l; Sub YExpr r; Sub YStmt b]
  | SForOf _ l r b _ => [Sub YForDeclaration l; Sub YExpr r; Sub YStmt b]
  | SIf _ c a b => Sub YExpr c :: Sub YStmt a :: node_opt YStmt b
  | SLabeled _ i b => [Nam i; Sub YStmt b]
  | SReturn _ a => node_opt YExpr a
  | SSwitch _ d l => Sub YExpr d :: nodes_ YSwitchCase l
  | SThrow _ a => [Sub YExpr a]
  | STry _ b h f => Sub YBlock b :: node_opt YCatchClause h ++ node_opt YBlock f
  | SVariable _ _ l => nodes_ YVariableDeclaration l
  | SWhile _ t b => [Sub YExpr t; Sub YStmt b]
  | SWith _ o b => [Sub YExpr o; Sub YStmt b]
  | SClassDecl _ i s b => Nam i :: node_opt YExpr s ++ nodes_ YClassElement b
  | SFunctionDecl _ _ _ i p b => [Nam i; Sub YFormalParameters p; Sub YBody b]
  | SImport _ d ns l from =>
      ident_opt d ++ ident_opt ns ++ match l with Some l => nodes_ YNamedImport l | None => [] end ++ [Str from]
  | XDecl _ d => [Sub YStmt d]
  | XDefaultExpr _ e => [Sub YExpr e]
  | XDefaultDecl _ d => [Sub YStmt d]
  | XNamed _ l from => nodes_ YNamedExport l ++ string_list (opt_list from)
  | XNamespace _ a from => ident_opt a ++ [Str from]
  | VarDecl _ p e => Sub YBindingPattern p :: node_opt YExpr e
  | ForBinding _ _ p => [Sub YBindingPattern p]
  | SwitchCase _ t l => node_opt YExpr t ++ nodes_ YStmt l
  | CatchClause _ p b => node_opt YBindingPattern p ++ [Sub YBlock b]
  | NamedImport _ n a => Nam n :: ident_opt a
  | NamedExport _ n a => ident_opt a ++ [Nam n]
  (* ast/src/lib.rs *)
  | Script _ ds l | Module _ ds l => string_list ds ++ nodes_ YStmt l
  end.

(** Which constructors are values of which type. *)
Definition is_stmt (n : node) : bool :=
  match n with
  | SBlock _ _ | SBreak _ _ | SContinue _ _ | SDebugger _ | SDoWhile _ _ _ | SEmpty _ | SExpr _ _
  | SFor _ _ _ _ _ | SForIn _ _ _ _ | SForOf _ _ _ _ _ | SIf _ _ _ _ | SLabeled _ _ _ | SReturn _ _
  | SSwitch _ _ _ | SThrow _ _ | STry _ _ _ _ | SVariable _ _ _ | SWhile _ _ _ | SWith _ _ _
  | SClassDecl _ _ _ _ | SFunctionDecl _ _ _ _ _ _ | SImport _ _ _ _ _ => true
  | _ => is_export n
  end.

Definition of_type (t : ty) (n : node) : bool :=
  match t, n with
  | YProgram, (Script _ _ _ | Module _ _ _) => true
  | YStmt, _ => is_stmt n
  | YExpr, _ => is_expr n
  | YBindingPattern, (BindIdent _ | BindArray _ _ _ | BindObject _ _ _) => true
  | YLiteral, (LitNull | LitBoolean _ | LitString _ | LitNumber _ | LitArray _ | LitObject _ | LitRegexp _
              | LitTemplate _) => true
  | YTemplatePart, (TplString _ | TplExpr _) => true
  | YObjectBindingProp, (BindSingle _ _ _ | BindNamed _ _ _) => true
  | YPropertyName, (NameIdent _ | NameString _ | NameNumber _ | NameComputed _) => true
  | YClassElement, Method _ _ _ _ _ _ _ _ => true
  | YMethod, Method _ _ _ _ _ _ _ _ => true
  | YForInit, SVariable _ _ _ => true
  | YForInit, _ => is_expr n
  | YForDeclaration, (ForBinding _ _ _ | AsgArray _ _ _ | AsgObject _ _ _) => true
  | YForDeclaration, _ => is_expr n
  | YCallee, (CalleeSuper | CalleeImport) => true
  | YCallee, _ => is_expr n
  | YArgument, (ArgExpr _ | ArgSpread _) => true
  | YMemberObject, ObjSuper _ => true
  | YMemberObject, _ => is_expr n
  | YMemberProperty, (PropIdent _ | PropExpr _) => true
  | YArrayElement, (ElemElision | ElemExpr _ | ElemSpread _) => true
  | YArrowBody, Body _ _ _ => true
  | YArrowBody, _ => is_expr n
  | YPropertyDefinition, (DefIdentRef _ | DefSpread _ | DefNamed _ _ _ | DefMethod _) => true
  | YPatternOrExpr, (AsgArray _ _ _ | AsgObject _ _ _) => true
  | YPatternOrExpr, _ => is_expr n
  | YAssignmentProp, (AsgSingle _ _ _ | AsgNamed _ _ _ _) => true
  | YAssignmentElement, AsgElement _ _ _ => true
  | YFormalParameters, FormalParameters _ _ _ => true
  | YBody, Body _ _ _ => true
  | YBlock, SBlock _ _ => true
  | YTemplate, LitTemplate _ => true
  | YBindingElement, BindElement _ _ _ => true
  | YVariableDeclaration, VarDecl _ _ _ => true
  | YSwitchCase, SwitchCase _ _ _ => true
  | YCatchClause, CatchClause _ _ _ => true
  | YNamedImport, NamedImport _ _ _ => true
  | YNamedExport, NamedExport _ _ _ => true
  | _, _ => false
  end.

Inductive well_typed : ty -> node -> Prop :=
| wt t n : of_type t n = true -> (forall t' c, In (Sub t' c) (contents n) -> well_typed t' c) -> well_typed t n.

(** The contents of a node are its children, and its other fields. *)
Lemma contents_children n : forall c, In c (children n) <-> exists t, In (Sub t c) (contents n).
Proof.
  assert (M : forall t c t' l, In (Sub t c) (nodes_ t' l) <-> t = t' /\ In c l).
  { intros t c t' l. unfold nodes_. rewrite in_map_iff. split.
    - intros (x & E & H). injection E as -> ->. now split.
    - intros [-> H]. now exists c. }
  assert (I : forall t c o, In (Sub t c) (ident_opt o) <-> False).
  { intros t c [x|]; simpl; split; try tauto; intros [H|[]]; discriminate. }
  assert (T : forall t c l, In (Sub t c) (string_list l) <-> False).
  { intros t c l. unfold string_list. rewrite in_map_iff. split; [intros (x & H & _); discriminate|tauto]. }
  intros c. split.
  - intros H. destruct n; simpl in H |- *;
      repeat match goal with
      | H : In _ (_ ++ _) |- _ => apply in_app_or in H; destruct H as [H|H]
      | H : In _ (match ?o with Some _ => _ | None => _ end) |- _ => destruct o; simpl in H |- *
      | |- context [if ?b then _ else _] => destruct b
      | H : _ \/ _ |- _ => destruct H as [H|H]
      | H : False |- _ => contradiction
      | H : In _ (_ :: _) |- _ => simpl in H
      end; subst; try tauto;
      try (eexists; unfold node_opt; simpl; rewrite ?in_app_iff, ?M; simpl; rewrite ?in_app_iff, ?M; simpl; tauto).
    all: try (eexists; unfold node_opt; simpl; rewrite ?in_app_iff; left; apply M; split; [reflexivity|assumption]).
    all: try (eexists; unfold node_opt; simpl; rewrite ?in_app_iff; right; apply M; split; [reflexivity|assumption]).
    all: try (eexists; unfold node_opt; simpl; rewrite ?in_app_iff; right; left; apply M; split; [reflexivity|assumption]).
    all: try (eexists; unfold node_opt; simpl; rewrite ?in_app_iff; right; right; apply M; split; [reflexivity|assumption]).
    all: try (eexists; unfold node_opt; simpl; rewrite ?in_app_iff; right; right; left; apply M; split; [reflexivity|assumption]).
    all: try (eexists; unfold node_opt; simpl; rewrite ?in_app_iff; simpl; tauto).
    all: try (eexists; unfold node_opt; simpl; apply M; split; [reflexivity|assumption]).
  - intros [t H]. destruct n; simpl in H |- *; unfold node_opt in H;
      repeat match goal with
      | H : In _ (_ ++ _) |- _ => apply in_app_or in H; destruct H as [H|H]
      | H : In _ (match ?o with Some _ => _ | None => _ end) |- _ => destruct o; simpl in H |- *
      | H : In _ (if ?b then _ else _) |- _ => destruct b; simpl in H |- *
      | H : _ \/ _ |- _ => destruct H as [H|H]
      | H : In _ (nodes_ _ _) |- _ => apply M in H; destruct H as [_ H]
      | H : In _ (ident_opt _) |- _ => destruct (proj1 (I _ _ _) H)
      | H : In _ (string_list _) |- _ => destruct (proj1 (T _ _ _) H)
      | H : In _ (_ :: _) |- _ => simpl in H
      end; try contradiction; try discriminate;
      try (injection H as ? ?; subst); rewrite ?in_app_iff; simpl; try tauto.
Qed.
