(** * Ast: the syntax tree.

    Models ast/src/*.rs.  All Rust structs and enum variants that can occur in
    a tree are constructors of one inductive type [node]; which constructor may
    stand where (the Rust field types) is the predicate [well_typed] of
    [Sorts.v], proved of every parse result.  An enum variant that only wraps
    a struct ([ast_mapping!], ast/src/macros/mod.rs) is the struct itself. *)

From Verif Require Import Base Tokens.
Local Open Scope list_scope.

(** ast/src/lib.rs:66-69: [struct Ident]. *)
Record ident := mk_ident { id_span : span; id_name : str }.

(** ast/src/lib.rs:84-86: [Ident::dummy]. *)
Definition ident_dummy (p : nat) : ident := mk_ident (mk_span p p) [].

(** ast/src/literal.rs:34-37: [struct LitString]. *)
Record lit_string := mk_lit_string { ls_value : str; ls_delimiter : N }.

(** ast/src/expr.rs:105-150: [enum BinaryOperator]. *)
Inductive binary_op : Set :=
| BPlus | BMinus | BMultiplication | BDivision | BModulus | BExponent | BShiftLeft
| BShiftRight | BShiftRightUnsigned | BLessThan | BMoreThan | BLessThanEquals
| BMoreThanEquals | BInstanceOf | BIn | BEqual | BNotEqual | BStrictEqual
| BStrictNotEqual | BBitwiseAnd | BBitwiseXOR | BBitwiseOR.

(** ast/src/expr.rs:170-177: [enum LogicalOperator]. *)
Inductive logical_op : Set := LAnd | LOr | LCoalesce.

(** ast/src/expr.rs:196-211: [enum UnaryOperator]. *)
Inductive unary_op : Set := UDelete | UVoid | UTypeof | UPlus | UMinus | UBitwiseNot | UNot.

(** ast/src/expr.rs:231-236: [enum UpdateOperator]. *)
Inductive update_op : Set := UpIncrease | UpDecrease.

(** ast/src/expr.rs:383-410: [enum AssignmentOperator]. *)
Inductive assign_op : Set :=
| AAssign | AMultiply | APower | ADivide | AModulus | AAdd | ASub | ALeftShift
| ARightShift | AUnsignedRightShift | ABitwiseAnd | ABitwiseXOr | ABitwiseOr.

(** ast/src/stmt.rs:138-145: [enum VariableKind]. *)
Inductive variable_kind : Set := VKConst | VKLet | VKVar.

(** ast/src/method.rs:17-21: [enum MethodKind]. *)
Inductive method_kind : Set := MKMethod | MKGet | MKSet.

Inductive node : Set :=
(* ---- Expr: ast/src/expr.rs:7-31 and the structs below it ---- *)
| EArrow (sp : span) (asynchronous binding_parameter : bool) (parameters body : node)
    (* ArrowFunctionBody::Body(b) is the [Body] node, ArrowFunctionBody::Expr(e) is [e] *)
| EAssign (sp : span) (operator : assign_op) (left right : node)
| EAwait (sp : span) (argument : node)
| EBinary (sp : span) (operator : binary_op) (left right : node)
| ECall (sp : span) (callee : node) (arguments_span : span) (arguments : list node)
| EClass (sp : span) (identifier : option ident) (super_class : option node) (body : list node)
| EConditional (sp : span) (condition consequent alternate : node)
| EFunction (sp : span) (asynchronous generator : bool) (identifier : option ident)
    (parameters body : node)
| EIdentRef (id : ident)
| ELiteral (sp : span) (literal : node)
| ELogical (sp : span) (operator : logical_op) (left right : node)
| EMember (sp : span) (object property : node)
| EMetaProperty (sp : span) (meta property : ident)
| ENew (sp : span) (callee : node) (arguments_span : option span) (arguments : list node)
| EOptionalCall (sp : span) (callee : node) (arguments_span : span) (arguments : list node)
    (optional : bool)
| EOptionalMember (sp : span) (object property : node) (optional : bool)
| EParenthesized (sp : span) (expression : node)
| ESequence (sp : span) (exprs : list node)
| ETaggedTemplate (sp : span) (callee template : node)
| EThis (sp : span)
| EUnary (sp : span) (operator : unary_op) (argument : node)
| EUpdate (sp : span) (operator : update_op) (prefix : bool) (argument : node)
| EYield (sp : span) (argument : option node) (delegate : bool)
(* ---- Callee: ast/src/expr.rs:433-437 (Callee::Expr(e) is [e]) ---- *)
| CalleeSuper
| CalleeImport
(* ---- MemberObject / Super: ast/src/expr.rs:323-326 and expr.rs:330-332 (MemberObject::Expr(e) is [e]) ---- *)
| ObjSuper (sp : span)
(* ---- MemberProperty: ast/src/expr.rs:336-339 ---- *)
| PropIdent (id : ident)
| PropExpr (e : node)
(* ---- Argument: ast/src/expr.rs:360-363 ---- *)
| ArgExpr (e : node)
| ArgSpread (e : node)
(* ---- Literal: ast/src/literal.rs:4-13 ---- *)
| LitNull
| LitBoolean (b : bool)
| LitString (s : lit_string)
| LitNumber (raw : str)
| LitArray (elements : list node)
| LitObject (props : list node)
| LitRegexp (s : str)
| LitTemplate (parts : list node)
(* ---- TemplatePart: ast/src/literal.rs:17-20 ---- *)
| TplString (s : str)
| TplExpr (e : node)
(* ---- ArrayElement: ast/src/literal.rs:53-57 ---- *)
| ElemElision
| ElemExpr (e : node)
| ElemSpread (e : node)
(* ---- PropertyDefinition, NamedProperty: ast/src/literal.rs:67-72 and literal.rs:76-80 ---- *)
| DefIdentRef (id : ident)
| DefSpread (e : node)
| DefNamed (sp : span) (name value : node)
| DefMethod (m : node)
(* ---- PropertyName: ast/src/binding.rs:52-57 ---- *)
| NameIdent (id : ident)
| NameString (s : lit_string)
| NameNumber (raw : str)
| NameComputed (e : node)
(* ---- MethodDefinition: ast/src/method.rs:4-13 (the only ClassElement) ---- *)
| Method (sp : span) (name : node) (kind : method_kind) (parameters body : node)
    (generator asynchronous is_static : bool)
(* ---- FormalParameters, Body: ast/src/stmt.rs:79-83 and stmt.rs:87-91 ---- *)
| FormalParameters (sp : span) (bindings : list node) (rest : option node)
| Body (sp : span) (directives : list lit_string) (statements : list node)
(* ---- BindingPattern and parts: ast/src/binding.rs ---- *)
| BindIdent (id : ident)
| BindArray (sp : span) (elements : list (option node)) (rest : option node)
| BindObject (sp : span) (props : list node) (rest : option node)
| BindSingle (sp : span) (id : ident) (initializer : option node)
| BindNamed (sp : span) (property binding : node)
| BindElement (sp : span) (pattern : node) (initializer : option node)
(* ---- AssignmentPattern and parts: ast/src/assignment.rs ---- *)
| AsgArray (sp : span) (elements : list (option node)) (rest : option node)
| AsgObject (sp : span) (props : list node) (rest : option node)
| AsgElement (sp : span) (target : node) (initializer : option node)
| AsgSingle (sp : span) (id : ident) (initializer : option node)
| AsgNamed (sp : span) (name value : node) (initializer : option node)
(* ---- Stmt: ast/src/stmt.rs:8-32 and the structs below it ---- *)
| SBlock (sp : span) (statements : list node)
| SBreak (sp : span) (label : option ident)
| SContinue (sp : span) (label : option ident)
| SDebugger (sp : span)
| SDoWhile (sp : span) (body test : node)
| SEmpty (sp : span)
| SExpr (sp : span) (expr : node)
| SFor (sp : span) (init test update : option node) (body : node)
    (* ForInit::Expr(e) is [e], ForInit::Declaration(d) is the [SVariable] node *)
| SForIn (sp : span) (left right body : node)
| SForOf (sp : span) (left right body : node) (asynchronous : bool)
| SIf (sp : span) (condition consequent : node) (alternate : option node)
| SLabeled (sp : span) (label : ident) (body : node)
| SReturn (sp : span) (argument : option node)
| SSwitch (sp : span) (discriminant : node) (cases : list node)
| SThrow (sp : span) (argument : node)
| STry (sp : span) (block : node) (handler finalizer : option node)
| SVariable (sp : span) (kind : variable_kind) (declarations : list node)
| SWhile (sp : span) (test body : node)
| SWith (sp : span) (object body : node)
| SClassDecl (sp : span) (identifier : ident) (super_class : option node) (body : list node)
| SFunctionDecl (sp : span) (asynchronous generator : bool) (identifier : ident)
    (parameters body : node)
| SImport (sp : span) (default_binding namespace_binding : option ident)
    (named_imports : option (list node)) (from : lit_string)
(* ---- DeclExport: ast/src/stmt.rs:333-339 ---- *)
| XDecl (sp : span) (decl : node)
| XDefaultExpr (sp : span) (expr : node)
| XDefaultDecl (sp : span) (decl : node)
| XNamed (sp : span) (named_exports : list node) (from : option lit_string)
| XNamespace (sp : span) (alias : option ident) (from : lit_string)
(* ---- parts of statements ---- *)
| VarDecl (sp : span) (pattern : node) (initializer : option node)
| ForBinding (sp : span) (kind : variable_kind) (binding : node)
| SwitchCase (sp : span) (test : option node) (consequent : list node)
| CatchClause (sp : span) (parameter : option node) (body : node)
| NamedImport (sp : span) (name : ident) (alias : option ident)
| NamedExport (sp : span) (name : ident) (alias_of : option ident)
(* ---- Program, StmtList: ast/src/lib.rs:36-40 and lib.rs:43-46 ---- *)
| Script (sp : span) (directives : list lit_string) (body : list node)
| Module (sp : span) (directives : list lit_string) (body : list node).

(** [Spanned::span] (ast/src/macros/mod.rs:24-30, 58-62).  Nodes that do not
    implement [Spanned] give the empty span; the parser never asks for it
    (it calls [span] on expressions, binding and assignment patterns only). *)
Definition node_span (n : node) : span :=
  match n with
  | EArrow sp _ _ _ _ | EAssign sp _ _ _ | EAwait sp _ | EBinary sp _ _ _ | ECall sp _ _ _
  | EClass sp _ _ _ | EConditional sp _ _ _ | EFunction sp _ _ _ _ _ | ELiteral sp _
  | ELogical sp _ _ _ | EMember sp _ _ | EMetaProperty sp _ _ | ENew sp _ _ _
  | EOptionalCall sp _ _ _ _ | EOptionalMember sp _ _ _ | EParenthesized sp _
  | ESequence sp _ | ETaggedTemplate sp _ _ | EThis sp | EUnary sp _ _ | EUpdate sp _ _ _
  | EYield sp _ _ | ObjSuper sp | DefNamed sp _ _ | Method sp _ _ _ _ _ _ _
  | FormalParameters sp _ _ | Body sp _ _ | BindArray sp _ _ | BindObject sp _ _
  | BindSingle sp _ _ | BindNamed sp _ _ | BindElement sp _ _ | AsgArray sp _ _
  | AsgObject sp _ _ | AsgElement sp _ _ | AsgSingle sp _ _ | AsgNamed sp _ _ _
  | SBlock sp _ | SBreak sp _ | SContinue sp _ | SDebugger sp | SDoWhile sp _ _ | SEmpty sp
  | SExpr sp _ | SFor sp _ _ _ _ | SForIn sp _ _ _ | SForOf sp _ _ _ _ | SIf sp _ _ _
  | SLabeled sp _ _ | SReturn sp _ | SSwitch sp _ _ | SThrow sp _ | STry sp _ _ _
  | SVariable sp _ _ | SWhile sp _ _ | SWith sp _ _ | SClassDecl sp _ _ _
  | SFunctionDecl sp _ _ _ _ _ | SImport sp _ _ _ _ | XDecl sp _ | XDefaultExpr sp _
  | XDefaultDecl sp _ | XNamed sp _ _ | XNamespace sp _ _ | VarDecl sp _ _
  | ForBinding sp _ _ | SwitchCase sp _ _ | CatchClause sp _ _ | NamedImport sp _ _
  | NamedExport sp _ _ | Script sp _ _ | Module sp _ _ => sp
  | EIdentRef id | BindIdent id => id_span id
  | _ => span_empty
  end.

Definition opt_list {A} (o : option A) : list A :=
  match o with Some a => [a] | None => [] end.

Fixpoint cat_options {A} (l : list (option A)) : list A :=
  match l with
  | [] => []
  | Some a :: l' => a :: cat_options l'
  | None :: l' => cat_options l'
  end.

(** The direct children of a node, in the order of the fields. *)
Definition children (n : node) : list node :=
  match n with
  | EArrow _ _ _ p b => [p; b]
  | EAssign _ _ l r => [l; r]
  | EAwait _ a => [a]
  | EBinary _ _ l r => [l; r]
  | ECall _ c _ args => c :: args
  | EClass _ _ s b => opt_list s ++ b
  | EConditional _ a b c => [a; b; c]
  | EFunction _ _ _ _ p b => [p; b]
  | ELiteral _ l => [l]
  | ELogical _ _ l r => [l; r]
  | EMember _ o p => [o; p]
  | ENew _ c _ args => c :: args
  | EOptionalCall _ c _ args _ => c :: args
  | EOptionalMember _ o p _ => [o; p]
  | EParenthesized _ e => [e]
  | ESequence _ es => es
  | ETaggedTemplate _ c t => [c; t]
  | EUnary _ _ a => [a]
  | EUpdate _ _ _ a => [a]
  | EYield _ a _ => opt_list a
  | PropExpr e => [e]
  | ArgExpr e => [e]
  | ArgSpread e => [e]
  | LitArray es => es
  | LitObject ps => ps
  | LitTemplate ps => ps
  | TplExpr e => [e]
  | ElemExpr e => [e]
  | ElemSpread e => [e]
  | DefSpread e => [e]
  | DefNamed _ n v => [n; v]
  | DefMethod m => [m]
  | NameComputed e => [e]
  | Method _ n _ p b _ _ _ => [n; p; b]
  | FormalParameters _ bs r => bs ++ opt_list r
  | Body _ _ ss => ss
  | BindArray _ es r => cat_options es ++ opt_list r
  | BindObject _ ps r => ps ++ opt_list r
  | BindSingle _ _ i => opt_list i
  | BindNamed _ n b => [n; b]
  | BindElement _ p i => p :: opt_list i
  | AsgArray _ es r => cat_options es ++ opt_list r
  | AsgObject _ ps r => ps ++ opt_list r
  | AsgElement _ t i => t :: opt_list i
  | AsgSingle _ _ i => opt_list i
  | AsgNamed _ n v i => n :: v :: opt_list i
  | SBlock _ ss => ss
  | SDoWhile _ b t => [b; t]
  | SExpr _ e => [e]
  | SFor _ i t u b => opt_list i ++ opt_list t ++ opt_list u ++ [b]
  | SForIn _ l r b => [l; r; b]
  | SForOf _ l r b _ => [l; r; b]
  | SIf _ c t a => c :: t :: opt_list a
  | SLabeled _ _ b => [b]
  | SReturn _ a => opt_list a
  | SSwitch _ d cs => d :: cs
  | SThrow _ a => [a]
  | STry _ b h f => b :: opt_list h ++ opt_list f
  | SVariable _ _ ds => ds
  | SWhile _ t b => [t; b]
  | SWith _ o b => [o; b]
  | SClassDecl _ _ s b => opt_list s ++ b
  | SFunctionDecl _ _ _ _ p b => [p; b]
  | SImport _ _ _ ni _ => match ni with Some l => l | None => [] end
  | XDecl _ d => [d]
  | XDefaultExpr _ e => [e]
  | XDefaultDecl _ d => [d]
  | XNamed _ l _ => l
  | VarDecl _ p i => p :: opt_list i
  | ForBinding _ _ b => [b]
  | SwitchCase _ t c => opt_list t ++ c
  | CatchClause _ p b => opt_list p ++ [b]
  | Script _ _ b => b
  | Module _ _ b => b
  | EIdentRef _ | EMetaProperty _ _ _ | EThis _ | CalleeSuper | CalleeImport | ObjSuper _
  | PropIdent _ | LitNull | LitBoolean _ | LitString _ | LitNumber _ | LitRegexp _
  | TplString _ | ElemElision | DefIdentRef _ | NameIdent _ | NameString _ | NameNumber _
  | BindIdent _ | SBreak _ _ | SContinue _ _ | SDebugger _ | SEmpty _ | XNamespace _ _ _
  | NamedImport _ _ _ | NamedExport _ _ _ => []
  end.
