(** * Traverse: walking a tree with a visitor (ast/src/traverse/mod.rs, macros.rs).

    The macro [generate_fold_and_visit!] gives every listed type a method
    [traverse]: call [enter_x], if it returned [true] traverse the listed fields,
    call [exit_x].  Here one type [node] stands for all of them, so the type a
    node is traversed at is an argument ([ty]).

    A visitor is a state, an [enter] and an [exit] method; the method's name
    is an argument.  Visitors that change the tree are in [Mutate.v]. *)

From Verif Require Import Base Tokens Ast.
Local Open Scope string_scope.
Local Open Scope list_scope.

(** ** Types *)

(** The Rust types fields can have.  Fields whose type is a struct have one
    constructor each; fields of an enum type have the enum. *)
Inductive ty : Set :=
| YProgram | YStmt | YExpr | YBindingPattern | YLiteral | YTemplatePart | YObjectBindingProp
| YPropertyName | YClassElement | YForInit | YForDeclaration | YCallee | YArgument | YMemberObject
| YMemberProperty | YArrayElement | YArrowBody | YPropertyDefinition | YPatternOrExpr
| YAssignmentProp
(* structs *)
| YFormalParameters | YBody | YBlock | YTemplate | YBindingElement | YVariableDeclaration
| YSwitchCase | YCatchClause | YNamedImport | YNamedExport | YMethod | YAssignmentElement.

(** What visitor methods are called with. *)
Inductive thing : Set :=
| ThNode (n : node)
| ThIdent (i : ident)
| ThString (s : lit_string)
| ThNumber (raw : str)
| ThBinary (o : binary_op)
| ThLogical (o : logical_op)
| ThUnary (o : unary_op)
| ThUpdate (o : update_op)
| ThAssign (o : assign_op).

(** A part of a node: a thing that is not a node, or a node at a type. *)
Inductive part : Set :=
| Sub (t : ty) (n : node)
| Leaf (x : thing).

(** ** The methods called for a node *)

(** The method of the node's own type (for an enum variant that holds no
    struct, the method of the enum).  ast/src/traverse/mod.rs:34-585. *)
Definition own_method (n : node) : string :=
  match n with
  | Script _ _ _ | Module _ _ _ => "stmt_list"
  | EArrow _ _ _ _ _ => "arrow_function"
  | EAssign _ _ _ _ => "assignment_expr"
  | EAwait _ _ => "await_expr"
  | EBinary _ _ _ _ => "binary_expr"
  | ECall _ _ _ _ => "call_expr"
  | EClass _ _ _ _ => "class_expr"
  | EConditional _ _ _ _ => "conditional_expr"
  | EFunction _ _ _ _ _ _ => "function_expr"
  | EIdentRef _ => "expr"
  | ELiteral _ _ => "literal_expr"
  | ELogical _ _ _ _ => "logical_expr"
  | EMember _ _ _ => "member_expr"
  | EMetaProperty _ _ _ => "meta_property"
  | ENew _ _ _ _ => "new_expr"
  | EOptionalCall _ _ _ _ _ => "optional_call_expr"
  | EOptionalMember _ _ _ _ => "optional_member_expr"
  | EParenthesized _ _ => "parenthesized_expr"
  | ESequence _ _ => "sequence_expr"
  | ETaggedTemplate _ _ _ => "tagged_template_expr"
  | EThis _ => "this_expr"
  | EUnary _ _ _ => "unary_expr"
  | EUpdate _ _ _ _ => "update_expr"
  | EYield _ _ _ => "yield_expr"
  | CalleeSuper | CalleeImport => "callee"
  | ObjSuper _ => "super"
  | PropIdent _ | PropExpr _ => "member_property"
  | ArgExpr _ | ArgSpread _ => "argument"
  | LitNull | LitBoolean _ | LitString _ | LitNumber _ | LitRegexp _ => "literal"
  | LitArray _ => "array_literal"
  | LitObject _ => "object_literal"
  | LitTemplate _ => "template_literal"
  | TplString _ | TplExpr _ => "template_part"
  | ElemElision | ElemExpr _ | ElemSpread _ => "array_element"
  | DefIdentRef _ | DefSpread _ | DefMethod _ => "property_definition"
  | DefNamed _ _ _ => "named_property"
  | NameIdent _ | NameString _ | NameNumber _ | NameComputed _ => "property_name"
  | Method _ _ _ _ _ _ _ _ => "method_definition"
  | FormalParameters _ _ _ => "formal_parameters"
  | Body _ _ _ => "body"
  | BindIdent _ => "binding_pattern"
  | BindArray _ _ _ => "array_binding"
  | BindObject _ _ _ => "object_binding"
  | BindSingle _ _ _ => "single_name_binding"
  | BindNamed _ _ _ => "named_binding"
  | BindElement _ _ _ => "binding_element"
  | AsgArray _ _ _ | AsgObject _ _ _ => "assignment_pattern"
  (* the types below [AssignmentPattern] have no [traverse]; they are never reached *)
  | AsgElement _ _ _ => "assignment_element"
  | AsgSingle _ _ _ => "single_name_assignment_prop"
  | AsgNamed _ _ _ _ => "named_assignment_prop"
  | SBlock _ _ => "block_stmt"
  | SBreak _ _ => "break_stmt"
  | SContinue _ _ => "continue_stmt"
  | SDebugger _ => "debugger_stmt"
  | SDoWhile _ _ _ => "do_while_stmt"
  | SEmpty _ => "empty_statement"
  | SExpr _ _ => "stmt_expr"
  | SFor _ _ _ _ _ => "for_stmt"
  | SForIn _ _ _ _ => "for_in_stmt"
  | SForOf _ _ _ _ _ => "for_of_stmt"
  | SIf _ _ _ _ => "if_stmt"
  | SLabeled _ _ _ => "labeled_stmt"
  | SReturn _ _ => "return_stmt"
  | SSwitch _ _ _ => "switch_stmt"
  | SThrow _ _ => "throw_stmt"
  | STry _ _ _ _ => "try_stmt"
  | SVariable _ _ _ => "variable_stmt"
  | SWhile _ _ _ => "while_stmt"
  | SWith _ _ _ => "with_stmt"
  | SClassDecl _ _ _ _ => "class_decl"
  | SFunctionDecl _ _ _ _ _ _ => "function_decl"
  | SImport _ _ _ _ _ => "import"
  | XDecl _ _ => "export_decl"
  | XDefaultExpr _ _ => "export_default_expr"
  | XDefaultDecl _ _ => "export_default_decl"
  | XNamed _ _ _ => "export_named"
  | XNamespace _ _ _ => "export_namespace"
  | VarDecl _ _ _ => "variable_declaration"
  | ForBinding _ _ _ => "for_binding"
  | SwitchCase _ _ _ => "switch_case"
  | CatchClause _ _ _ => "catch_clause"
  | NamedImport _ _ _ => "named_import"
  | NamedExport _ _ _ => "named_export"
  end.

Definition is_export (n : node) : bool :=
  match n with
  | XDecl _ _ | XDefaultExpr _ _ | XDefaultDecl _ _ | XNamed _ _ _ | XNamespace _ _ _ => true
  | _ => false
  end.

Definition is_asg_pattern (n : node) : bool :=
  match n with AsgArray _ _ _ | AsgObject _ _ _ => true | _ => false end.

Definition is_expr (n : node) : bool :=
  match n with
  | EArrow _ _ _ _ _ | EAssign _ _ _ _ | EAwait _ _ | EBinary _ _ _ _ | ECall _ _ _ _ | EClass _ _ _ _
  | EConditional _ _ _ _ | EFunction _ _ _ _ _ _ | EIdentRef _ | ELiteral _ _ | ELogical _ _ _ _
  | EMember _ _ _ | EMetaProperty _ _ _ | ENew _ _ _ _ | EOptionalCall _ _ _ _ _ | EOptionalMember _ _ _ _
  | EParenthesized _ _ | ESequence _ _ | ETaggedTemplate _ _ _ | EThis _ | EUnary _ _ _ | EUpdate _ _ _ _
  | EYield _ _ _ => true
  | _ => false
  end.

(** The methods of the enums around the node's own type, outermost first:
    [enter_callee] and [enter_expr] before [enter_binary_expr], and so on.
    ast/src/traverse/mod.rs:35-233 (the enums and their listed variants). *)
Definition wrappers (t : ty) (n : node) : list string :=
  let expr := match n with EIdentRef _ => [] | _ => ["expr"] end in
  match t with
  | YProgram => ["program"]
  | YStmt => if is_export n then ["stmt"; "export"] else ["stmt"]
  | YExpr => expr
  | YBindingPattern => match n with BindIdent _ => [] | _ => ["binding_pattern"] end
  | YLiteral => match n with LitArray _ | LitObject _ | LitTemplate _ => ["literal"] | _ => [] end
  | YObjectBindingProp => ["object_binding_prop"]
  | YClassElement => ["class_element"]
  | YForInit => "for_init" :: (if is_expr n then expr else [])
  | YForDeclaration => "for_declaration" :: (if is_expr n then expr else [])
  | YCallee => match n with CalleeSuper | CalleeImport => [] | _ => "callee" :: expr end
  | YMemberObject => "member_object" :: (if is_expr n then expr else [])
  | YArrowBody => "arrow_function_body" :: (if is_expr n then expr else [])
  | YPropertyDefinition => match n with DefNamed _ _ _ => ["property_definition"] | _ => [] end
  | YPatternOrExpr => "pattern_or_expr" :: (if is_expr n then expr else [])
  | YTemplatePart | YPropertyName | YArgument | YMemberProperty | YArrayElement | YAssignmentProp
  | YFormalParameters | YBody | YBlock | YTemplate | YBindingElement | YVariableDeclaration
  | YSwitchCase | YCatchClause | YNamedImport | YNamedExport | YMethod | YAssignmentElement => []
  end.

Definition methods (t : ty) (n : node) : list string := wrappers t n ++ [own_method n].

(** ** The parts traversed *)

Definition exprs (l : list node) : list part := map (Sub YExpr) l.
Definition subs_ (t : ty) (l : list node) : list part := map (Sub t) l.
Definition osub (t : ty) (o : option node) : list part :=
  match o with Some n => [Sub t n] | None => [] end.
Definition ids (o : option ident) : list part :=
  match o with Some i => [Leaf (ThIdent i)] | None => [] end.
Definition strings (l : list lit_string) : list part := map (fun s => Leaf (ThString s)) l.
Definition string_ (s : lit_string) : part := Leaf (ThString s).
Definition ident_ (i : ident) : part := Leaf (ThIdent i).

(** The fields traversed, in the order given in ast/src/traverse/mod.rs:34-585. *)
Definition parts (n : node) : list part :=
  match n with
  (* enums *)
  | EIdentRef i | PropIdent i | DefIdentRef i | NameIdent i | BindIdent i => [ident_ i]
  | PropExpr e | ArgExpr e | ArgSpread e | TplExpr e | ElemExpr e | ElemSpread e | DefSpread e
  | NameComputed e => [Sub YExpr e]
  | LitString s | NameString s => [string_ s]
  | LitNumber r | NameNumber r => [Leaf (ThNumber r)]
  | DefMethod m => [Sub YMethod m]
  | LitNull | LitBoolean _ | LitRegexp _ | TplString _ | ElemElision | CalleeSuper | CalleeImport => []
  | AsgArray _ _ _ | AsgObject _ _ _ => []                (* mod.rs:230-232: TODO *)
  | AsgElement _ _ _ | AsgSingle _ _ _ | AsgNamed _ _ _ _ => []
  (* structs *)
  | SFunctionDecl _ _ _ i p b => [ident_ i; Sub YFormalParameters p; Sub YBody b]
  | SClassDecl _ i s b => ident_ i :: osub YExpr s ++ subs_ YClassElement b
  | SImport _ d _ ni from =>
      ids d
      ++ match ni with Some l => subs_ YNamedImport l | None => [] end
      ++ match ni with Some l => subs_ YNamedImport l | None => [] end
      ++ [string_ from]
  | SExpr _ e => [Sub YExpr e]
  | SBlock _ l => subs_ YStmt l
  | EBinary _ o l r => [Sub YExpr l; Leaf (ThBinary o); Sub YExpr r]
  | ELogical _ o l r => [Sub YExpr l; Leaf (ThLogical o); Sub YExpr r]
  | EUnary _ o a => [Leaf (ThUnary o); Sub YExpr a]
  | ECall _ c _ args => Sub YCallee c :: subs_ YArgument args
  | EMember _ o p => [Sub YMemberObject o; Sub YMemberProperty p]
  | EOptionalMember _ o p _ => [Sub YExpr o; Sub YMemberProperty p]
  | EOptionalCall _ c _ args _ => Sub YExpr c :: subs_ YArgument args
  | EParenthesized _ e => [Sub YExpr e]
  | ELiteral _ l => [Sub YLiteral l]
  | EAssign _ o l r => [Sub YPatternOrExpr l; Leaf (ThAssign o); Sub YExpr r]
  | EYield _ a _ => osub YExpr a
  | EConditional _ a b _ => [Sub YExpr a; Sub YExpr b; Sub YExpr a]
  | EUpdate _ o _ a => [Sub YExpr a; Leaf (ThUpdate o)]
  | ESequence _ l => exprs l
  | EThis _ => []
  | EFunction _ _ _ i p b => ids i ++ [Sub YFormalParameters p; Sub YBody b]
  | ENew _ c _ args => Sub YExpr c :: subs_ YArgument args
  | EArrow _ _ _ p b => [Sub YFormalParameters p; Sub YArrowBody b]
  | EAwait _ a => [Sub YExpr a]
  | EMetaProperty _ m p => [ident_ m; ident_ p]
  | EClass _ i s b => ids i ++ osub YExpr s ++ subs_ YClassElement b
  | SReturn _ a => osub YExpr a
  | SVariable _ _ l => subs_ YVariableDeclaration l
  | SEmpty _ => []
  | STry _ b h f => Sub YBlock b :: osub YCatchClause h ++ osub YBlock f
  | SDebugger _ => []
  | SThrow _ a => [Sub YExpr a]
  | SLabeled _ i b => [ident_ i; Sub YStmt b]
  | SWith _ o b => [Sub YExpr o; Sub YStmt b]
  | SContinue _ l => ids l
  | SBreak _ l => ids l
  | SSwitch _ d l => Sub YExpr d :: subs_ YSwitchCase l
  | SIf _ c a b => Sub YExpr c :: Sub YStmt a :: osub YStmt b
  | SFor _ i t u b => osub YForInit i ++ osub YExpr t ++ osub YExpr u ++ [Sub YStmt b]
  | SForOf _ l r b _ => [Sub YForDeclaration l; Sub YExpr r; Sub YStmt b]
  | SForIn _ l r b => [Sub YForDeclaration l; Sub YExpr r; Sub YStmt b]
  | SWhile _ t b => [Sub YExpr t; Sub YStmt b]
  | SDoWhile _ b t => [Sub YStmt b; Sub YExpr t]
  | Script _ ds l | Module _ ds l => strings ds ++ subs_ YStmt l
  | BindElement _ p i => Sub YBindingPattern p :: osub YExpr i
  | FormalParameters _ l r => subs_ YBindingElement l ++ osub YBindingPattern r
  | VarDecl _ p i => Sub YBindingPattern p :: osub YExpr i
  | LitTemplate l => subs_ YTemplatePart l
  | LitArray l => subs_ YArrayElement l
  | LitObject l => subs_ YPropertyDefinition l
  | BindArray _ l r => subs_ YBindingElement (cat_options l) ++ osub YBindingPattern r
  | BindObject _ l r => subs_ YObjectBindingProp l ++ osub YBindingPattern r
  | BindSingle _ i e => ident_ i :: osub YExpr e
  | BindNamed _ n b => [Sub YPropertyName n; Sub YBindingElement b]
  | DefNamed _ n v => [Sub YPropertyName n; Sub YExpr v]
  | Method _ n _ p b _ _ _ => [Sub YPropertyName n; Sub YFormalParameters p; Sub YBody b]
  | CatchClause _ p b => osub YBindingPattern p ++ [Sub YBlock b]
  | SwitchCase _ t l => osub YExpr t ++ subs_ YStmt l
  | XDecl _ d => [Sub YStmt d]
  | XDefaultDecl _ d => [Sub YStmt d]
  | XDefaultExpr _ e => [Sub YExpr e]
  | ETaggedTemplate _ c t => [Sub YExpr c; Sub YTemplate t]
  | XNamed _ l from => subs_ YNamedExport l ++ strings (opt_list from)
  | XNamespace _ a from => ids a ++ [string_ from]
  | NamedExport _ n a => ident_ n :: ids a
  | NamedImport _ n a => ident_ n :: ids a
  | Body _ ds l => strings ds ++ subs_ YStmt l
  | ForBinding _ _ _ => []                                (* mod.rs:583 *)
  | ObjSuper _ => []
  end.

(** The method for a part that is not a node. *)
Definition leaf_method (x : thing) : string :=
  match x with
  | ThNode n => own_method n
  | ThIdent _ => "ident"
  | ThString _ => "string_literal"
  | ThNumber _ => "number_literal"
  | ThBinary _ => "binary_operator"
  | ThLogical _ => "logical_operator"
  | ThUnary _ => "unary_operator"
  | ThUpdate _ => "update_operator"
  | ThAssign _ => "assignment_operator"
  end.

(** ** Depth *)

(** The height of a tree (one more than that of its highest child). *)
Fixpoint height (n : node) : nat :=
  S (list_max match n with
  | EArrow _ _ _ p b => [height p; height b]
  | EAssign _ _ l r => [height l; height r]
  | EAwait _ a => [height a]
  | EBinary _ _ l r => [height l; height r]
  | ECall _ c _ args => height c :: map height args
  | EClass _ _ s b => opt_list (option_map height s) ++ map height b
  | EConditional _ a b c => [height a; height b; height c]
  | EFunction _ _ _ _ p b => [height p; height b]
  | ELiteral _ l => [height l]
  | ELogical _ _ l r => [height l; height r]
  | EMember _ o p => [height o; height p]
  | ENew _ c _ args => height c :: map height args
  | EOptionalCall _ c _ args _ => height c :: map height args
  | EOptionalMember _ o p _ => [height o; height p]
  | EParenthesized _ e => [height e]
  | ESequence _ es => map height es
  | ETaggedTemplate _ c t => [height c; height t]
  | EUnary _ _ a => [height a]
  | EUpdate _ _ _ a => [height a]
  | EYield _ a _ => opt_list (option_map height a)
  | PropExpr e => [height e]
  | ArgExpr e => [height e]
  | ArgSpread e => [height e]
  | LitArray es => map height es
  | LitObject ps => map height ps
  | LitTemplate ps => map height ps
  | TplExpr e => [height e]
  | ElemExpr e => [height e]
  | ElemSpread e => [height e]
  | DefSpread e => [height e]
  | DefNamed _ n v => [height n; height v]
  | DefMethod m => [height m]
  | NameComputed e => [height e]
  | Method _ n _ p b _ _ _ => [height n; height p; height b]
  | FormalParameters _ bs r => map height bs ++ opt_list (option_map height r)
  | Body _ _ ss => map height ss
  | BindArray _ es r => map (fun o => match o with Some x => height x | None => 0 end) es ++ opt_list (option_map height r)
  | BindObject _ ps r => map height ps ++ opt_list (option_map height r)
  | BindSingle _ _ i => opt_list (option_map height i)
  | BindNamed _ n b => [height n; height b]
  | BindElement _ p i => height p :: opt_list (option_map height i)
  | AsgArray _ es r => map (fun o => match o with Some x => height x | None => 0 end) es ++ opt_list (option_map height r)
  | AsgObject _ ps r => map height ps ++ opt_list (option_map height r)
  | AsgElement _ t i => height t :: opt_list (option_map height i)
  | AsgSingle _ _ i => opt_list (option_map height i)
  | AsgNamed _ n v i => height n :: height v :: opt_list (option_map height i)
  | SBlock _ ss => map height ss
  | SDoWhile _ b t => [height b; height t]
  | SExpr _ e => [height e]
  | SFor _ i t u b => opt_list (option_map height i) ++ opt_list (option_map height t) ++ opt_list (option_map height u) ++ [height b]
  | SForIn _ l r b => [height l; height r; height b]
  | SForOf _ l r b _ => [height l; height r; height b]
  | SIf _ c t a => height c :: height t :: opt_list (option_map height a)
  | SLabeled _ _ b => [height b]
  | SReturn _ a => opt_list (option_map height a)
  | SSwitch _ d cs => height d :: map height cs
  | SThrow _ a => [height a]
  | STry _ b h f => height b :: opt_list (option_map height h) ++ opt_list (option_map height f)
  | SVariable _ _ ds => map height ds
  | SWhile _ t b => [height t; height b]
  | SWith _ o b => [height o; height b]
  | SClassDecl _ _ s b => opt_list (option_map height s) ++ map height b
  | SFunctionDecl _ _ _ _ p b => [height p; height b]
  | SImport _ _ _ ni _ => match ni with Some l => map height l | None => [] end
  | XDecl _ d => [height d]
  | XDefaultExpr _ e => [height e]
  | XDefaultDecl _ d => [height d]
  | XNamed _ l _ => map height l
  | VarDecl _ p i => height p :: opt_list (option_map height i)
  | ForBinding _ _ b => [height b]
  | SwitchCase _ t c => opt_list (option_map height t) ++ map height c
  | CatchClause _ p b => opt_list (option_map height p) ++ [height b]
  | Script _ _ b => map height b
  | Module _ _ b => map height b
  | EIdentRef _ | EMetaProperty _ _ _ | EThis _ | CalleeSuper | CalleeImport | ObjSuper _
  | PropIdent _ | LitNull | LitBoolean _ | LitString _ | LitNumber _ | LitRegexp _
  | TplString _ | ElemElision | DefIdentRef _ | NameIdent _ | NameString _ | NameNumber _
  | BindIdent _ | SBreak _ _ | SContinue _ _ | SDebugger _ | SEmpty _ | XNamespace _ _ _
  | NamedImport _ _ _ | NamedExport _ _ _ => []
  end).

Lemma list_max_in k l : In k l -> k <= list_max l.
Proof. induction l as [|x l IH]; simpl; [easy|]. intros [->|H]; [|specialize (IH H)]; lia. Qed.

Lemma in_cat_options {A} (x : A) l : In x (cat_options l) <-> In (Some x) l.
Proof.
  induction l as [|[y|] l IH]; simpl; [tauto| |].
  - rewrite IH. split; (intros [H|H]; [left; congruence|now right]).
  - rewrite IH. split; [now right|intros [H|H]; [discriminate|exact H]].
Qed.

Lemma height_child c n : In c (children n) -> height c < height n.
Proof.
  intros H. destruct n; try contradiction; simpl in H; cbn [height]; apply le_n_S, list_max_in;
    repeat match goal with
    | H : In _ (_ ++ _) |- _ => apply in_app_or in H; destruct H as [H|H]; apply in_or_app; [left|right]
    | H : In _ (opt_list ?o) |- _ => destruct o; simpl in H |- *
    | H : In _ (match ?o with Some _ => _ | None => _ end) |- _ => destruct o; simpl in H |- *
    | H : In _ (cat_options _) |- _ => apply in_cat_options in H; apply (in_map (fun o => match o with Some x => height x | None => 0 end)) in H; exact H
    | H : _ \/ _ |- _ => destruct H as [H|H]; [left; congruence|right]
    | H : False |- _ => contradiction
    | H : In _ [_] |- _ => simpl in H |- *
    | H : In _ _ |- In _ (map height _) => now apply in_map
    end.
Qed.

(** ** Traversal *)

Inductive event : Set :=
| Enter (method : string) (x : thing)
| Exit (method : string) (x : thing).

(** ast/src/traverse/macros.rs:64-81: [trait Visitor], with the method's name as an argument. *)
Record visitor (S : Type) := mk_visitor {
  v_enter : string -> thing -> S -> bool * S;
  v_exit : string -> thing -> S -> S
}.
Arguments mk_visitor {S}.
Arguments v_enter {S}.
Arguments v_exit {S}.

Section Walk.
Context {S : Type} (v : visitor S).

(** ast/src/traverse/macros.rs:27-62: enter; the inside if wanted; exit.  The
    calls made are recorded. *)
Definition around (m : string) (x : thing) (inside : S -> list event * S) (s : S) : list event * S :=
  let (b, s1) := v_enter v m x s in
  let (es, s2) := if b then inside s1 else ([], s1) in
  (Enter m x :: es ++ [Exit m x], v_exit v m x s2).

Definition around_all (ms : list string) (x : thing) (inside : S -> list event * S) : S -> list event * S :=
  fold_right (fun m k => around m x k) inside ms.

(** ast/src/traverse/mod.rs:10-14: the parts one after the other. *)
Fixpoint in_turn (l : list (S -> list event * S)) (s : S) : list event * S :=
  match l with
  | [] => ([], s)
  | f :: l' =>
      let (es, s1) := f s in
      let (es', s2) := in_turn l' s1 in
      (es ++ es', s2)
  end.

(** [fuel] bounds the depth; [traverse] gives enough. *)
Fixpoint walk (fuel : nat) (t : ty) (n : node) (s : S) : list event * S :=
  around_all (methods t n) (ThNode n)
    (match fuel with
     | 0 => fun s => ([], s)
     | Datatypes.S fuel' =>
         in_turn (map (fun p => match p with
                                | Sub t' n' => walk fuel' t' n'
                                | Leaf x => around (leaf_method x) x (fun s => ([], s))
                                end) (parts n))
     end) s.

End Walk.

(** [Traverse::traverse] of a node at a type. *)
Definition traverse {S} (v : visitor S) (t : ty) (n : node) (s : S) : list event * S :=
  walk v (height n) t n s.

(** ast/src/traverse/macros.rs:83-123: [TraceVisitor] (the calls are in the events). *)
Definition tracer : visitor unit := mk_visitor (fun _ _ s => (true, s)) (fun _ _ s => s).

(** ** Facts *)

Lemma parts_children t c n : In (Sub t c) (parts n) -> In c (children n).
Proof.
  assert (M : forall t' l, In (Sub t c) (subs_ t' l) -> In c l).
  { intros t' l H. unfold subs_ in H. apply in_map_iff in H. destruct H as (x & E & H). congruence. }
  assert (E : forall l, In (Sub t c) (exprs l) -> In c l) by (intros l; apply (M YExpr)).
  assert (O : forall t' o, In (Sub t c) (osub t' o) -> In c (opt_list o)).
  { intros t' [x|]; simpl; [intros [H|[]]; left; congruence|easy]. }
  assert (I : forall o, In (Sub t c) (ids o) -> False).
  { intros [x|]; simpl; [intros [H|[]]; discriminate|easy]. }
  assert (T : forall l, In (Sub t c) (strings l) -> False).
  { intros l H. unfold strings in H. apply in_map_iff in H. destruct H as (x & H & _). discriminate. }
  intros H; destruct n; simpl in H |- *; unfold ident_, string_ in H;
    repeat match goal with
    | H : In _ (_ ++ _) |- _ => apply in_app_or in H; destruct H as [H|H]
    | H : In _ (match ?o with Some _ => _ | None => _ end) |- _ => destruct o; simpl in H |- *
    | H : _ \/ _ |- _ => destruct H as [H|H]
    | H : In _ (subs_ _ _) |- _ => apply M in H
    | H : In _ (exprs _) |- _ => apply E in H
    | H : In _ (osub _ _) |- _ => apply O in H
    | H : In _ (ids _) |- _ => destruct (I _ H)
    | H : In _ (strings _) |- _ => destruct (T _ H)
    | H : In _ (_ :: _) |- _ => simpl in H
    end; try contradiction; try discriminate;
    try (injection H as ? ?; subst); rewrite ?in_app_iff; simpl; tauto.
Qed.

Section Facts.
Context {S : Type} (v : visitor S).

Lemma around_ext m x f g : (forall s, f s = g s) -> forall s, around v m x f s = around v m x g s.
Proof. intros H s. unfold around. destruct (v_enter v m x s) as [[|] s1]; [now rewrite H|reflexivity]. Qed.

Lemma around_all_ext ms x f g : (forall s, f s = g s) -> forall s, around_all v ms x f s = around_all v ms x g s.
Proof.
  intros H. induction ms as [|m ms IH]; intros s; [apply H|]. simpl. now apply around_ext.
Qed.

Lemma in_turn_ext {A} (l : list A) (f g : A -> S -> list event * S) :
  (forall a, In a l -> forall s, f a s = g a s) -> forall s, in_turn (map f l) s = in_turn (map g l) s.
Proof.
  induction l as [|a l IH]; intros H s; [reflexivity|]. simpl. rewrite (H a) by now left.
  destruct (g a s) as [es s1]. rewrite IH; [reflexivity|]. intros b Hb. apply H. now right.
Qed.

(** Enough fuel is enough. *)
Lemma walk_fuel f : forall t n s, height n <= f -> walk v f t n s = walk v (height n) t n s.
Proof.
  induction f as [f IH] using lt_wf_ind. intros t n s H.
  destruct (height n) as [|h] eqn:Eh; [destruct n; discriminate|].
  destruct f as [|f]; [lia|]. cbn [walk]. apply around_all_ext. intros s'.
  apply in_turn_ext. intros [t' c|x] Hp s''; [|reflexivity].
  apply parts_children in Hp. apply height_child in Hp.
  rewrite (IH f), (IH h); [reflexivity|lia|lia|lia|lia].
Qed.

(** One step of a traversal. *)
Definition step (p : part) : S -> list event * S :=
  match p with
  | Sub t' n' => traverse v t' n'
  | Leaf x => around v (leaf_method x) x (fun s => ([], s))
  end.

Lemma traverse_eq t n s :
  traverse v t n s = around_all v (methods t n) (ThNode n) (in_turn (map step (parts n))) s.
Proof.
  unfold traverse. destruct (height n) as [|h] eqn:Eh; [destruct n; discriminate|].
  cbn [walk]. apply around_all_ext. intros s'. apply in_turn_ext. intros [t' c|x] Hp s''; [|reflexivity].
  apply parts_children in Hp. apply height_child in Hp. unfold step, traverse. apply walk_fuel. lia.
Qed.
End Facts.
