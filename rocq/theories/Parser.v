(** * Parser: every method of the parser as a program.

    Models parser/src/*.rs.  The context ([struct Context]) is an explicit
    argument; [with_context(c).f()] is [f] called with [c].  A method that is
    recursive (directly or through others), or contains a loop, is named by a
    constructor of [nt]; its code is the definition of the same name, and
    [body] ties the two together.  [self.f()?] is [pcall (NF ..)] in a
    [let?]. *)

From Verif Require Import Base Tokens PeekReader CharReader Lexer Ast Prog.
Local Open Scope string_scope.
Local Open Scope list_scope.

(** ** Context (parser/src/lib.rs:75-151) *)

(** parser/src/lib.rs:77-104: [struct Context], plus the parser's
    [source_type] (parser/src/lib.rs:223), which no [with_context] changes. *)
Record ctx := mk_ctx {
  c_await : bool; c_yield : bool; c_in : bool; c_strict : bool; c_default : bool;
  c_return : bool; c_in_method : bool; c_super_call : bool; c_static_method : bool;
  c_module : bool }.

(** [Context::default()] *)
Definition ctx_default (m : bool) : ctx :=
  mk_ctx false false false false false false false false false m.

(** parser/src/lib.rs:106-129: the [modifier!] methods. *)
Definition with_await (b : bool) (c : ctx) := mk_ctx b (c_yield c) (c_in c) (c_strict c) (c_default c) (c_return c) (c_in_method c) (c_super_call c) (c_static_method c) (c_module c).
Definition with_yield (b : bool) (c : ctx) := mk_ctx (c_await c) b (c_in c) (c_strict c) (c_default c) (c_return c) (c_in_method c) (c_super_call c) (c_static_method c) (c_module c).
Definition with_in (b : bool) (c : ctx) := mk_ctx (c_await c) (c_yield c) b (c_strict c) (c_default c) (c_return c) (c_in_method c) (c_super_call c) (c_static_method c) (c_module c).
Definition with_strict (b : bool) (c : ctx) := mk_ctx (c_await c) (c_yield c) (c_in c) b (c_default c) (c_return c) (c_in_method c) (c_super_call c) (c_static_method c) (c_module c).
Definition with_default (b : bool) (c : ctx) := mk_ctx (c_await c) (c_yield c) (c_in c) (c_strict c) b (c_return c) (c_in_method c) (c_super_call c) (c_static_method c) (c_module c).
Definition with_return (b : bool) (c : ctx) := mk_ctx (c_await c) (c_yield c) (c_in c) (c_strict c) (c_default c) b (c_in_method c) (c_super_call c) (c_static_method c) (c_module c).
Definition with_in_method (b : bool) (c : ctx) := mk_ctx (c_await c) (c_yield c) (c_in c) (c_strict c) (c_default c) (c_return c) b (c_super_call c) (c_static_method c) (c_module c).
Definition with_super_call_allowed (b : bool) (c : ctx) := mk_ctx (c_await c) (c_yield c) (c_in c) (c_strict c) (c_default c) (c_return c) (c_in_method c) b (c_static_method c) (c_module c).
Definition with_static_method_allowed (b : bool) (c : ctx) := mk_ctx (c_await c) (c_yield c) (c_in c) (c_strict c) (c_default c) (c_return c) (c_in_method c) (c_super_call c) b (c_module c).

(** parser/src/lib.rs:132-139 [reset_parameters] *)
Definition reset_parameters (c : ctx) : ctx :=
  mk_ctx false false false false false false (c_in_method c) (c_super_call c)
    (c_static_method c) (c_module c).

(** parser/src/lib.rs:141-156 [keyword_context] *)
Definition keyword_context (c : ctx) : kctx := mk_kctx (c_await c) (c_yield c) (c_strict c).

(** ** Static semantics (parser/src/static_semantics/mod.rs) *)

Definition msg_eval : string := "Unexpected `eval` or `arguments` in strict mode".

(** parser/src/static_semantics/mod.rs:11-29 [is_assignment_target_type_simple] *)
Fixpoint is_assignment_target_type_simple (c : ctx) (e : node) : result bool perr :=
  match e with
  | EIdentRef i =>
    if (c_strict c && (str_eqb (id_name i) (chars "arguments")
                       || str_eqb (id_name i) (chars "eval")))%bool
    then Err (syntax_error msg_eval (node_span e)) else Ok true
  | EMember _ _ _ => Ok true
  | EParenthesized _ e' => is_assignment_target_type_simple c e'
  | _ => Ok false
  end.

Definition check_simple (msg : string) (c : ctx) (e : node) : result unit perr :=
  match is_assignment_target_type_simple c e with
  | Err err => Err err
  | Ok true => Ok tt
  | Ok false => Err (syntax_error msg (node_span e))
  end.

(** parser/src/static_semantics/mod.rs:31-43 [early_errors_left_hand_side_expr] *)
Definition early_errors_left_hand_side_expr : ctx -> node -> result unit perr :=
  check_simple "Invalid left-hand side assignment".

(** parser/src/static_semantics/mod.rs:45-54 [early_errors_update_expr_argument] *)
Definition early_errors_update_expr_argument : ctx -> node -> result unit perr :=
  check_simple "Invalid update expression argument".

(** parser/src/static_semantics/mod.rs:56-75 [early_errors_unary_delete] *)
Fixpoint early_errors_unary_delete (c : ctx) (e : node) : result unit perr :=
  if negb (c_strict c) then Ok tt else
  match e with
  | EIdentRef i =>
    Err (syntax_error "Delete of an unqualified identifier in strict mode" (id_span i))
  | EParenthesized _ e' => early_errors_unary_delete c e'
  | _ => Ok tt
  end.

(** parser/src/static_semantics/mod.rs:81-83 [contains_strict] *)
Definition contains_strict (ds : list lit_string) : bool :=
  existsb (fun d => str_eqb (ls_value d) (chars "use strict")) ds.

(** parser/src/static_semantics/mod.rs:89-103 [get_bound_names] *)
Definition get_bound_names (p : node) : list str :=
  match p with
  | BindIdent i => [id_name i]
  | _ => []
  end.

Definition params_bindings (p : node) : list node :=
  match p with FormalParameters _ bs _ => bs | _ => [] end.
Definition params_rest (p : node) : option node :=
  match p with FormalParameters _ _ r => r | _ => None end.
Definition element_pattern (b : node) : node :=
  match b with BindElement _ p _ => p | _ => b end.
Definition element_initializer (b : node) : option node :=
  match b with BindElement _ _ i => i | _ => None end.
Definition is_some {A} (o : option A) : bool := match o with Some _ => true | None => false end.
Definition is_none {A} (o : option A) : bool := negb (is_some o).

(** parser/src/static_semantics/mod.rs:109-125 [is_simple] *)
Definition is_simple (p : node) : bool :=
  (is_none (params_rest p) &&
   forallb (fun b => is_none (element_initializer b) &&
                     match element_pattern b with
                     | BindObject _ _ _ | BindArray _ _ _ => false
                     | _ => true
                     end) (params_bindings p))%bool.

(** parser/src/static_semantics/mod.rs:127-139 [bound_names] *)
Definition bound_names (p : node) : list str :=
  flat_map (fun b => get_bound_names (element_pattern b)) (params_bindings p) ++
  match params_rest p with Some r => get_bound_names r | None => [] end.

(** [Ord for str] (byte order of UTF-8, which is code point order). *)
Fixpoint str_leb (a b : str) : bool :=
  match a, b with
  | [], _ => true
  | _ :: _, [] => false
  | x :: a', y :: b' => if N.ltb x y then true else if N.ltb y x then false else str_leb a' b'
  end.
Fixpoint insert_str (x : str) (l : list str) : list str :=
  match l with
  | [] => [x]
  | y :: l' => if str_leb x y then x :: l else y :: insert_str x l'
  end.
(** [slice::sort_unstable]: the sorted permutation (unique, as equal strings
    are indistinguishable). *)
Definition sort_unstable (l : list str) : list str := fold_right insert_str [] l.

(** parser/src/static_semantics/mod.rs:207-218 [get_first_duplicate] *)
Fixpoint get_first_duplicate (l : list str) : option str :=
  match l with
  | a :: ((b :: _) as l') => if str_eqb a b then Some a else get_first_duplicate l'
  | _ => None
  end.

Definition rbind {A B E} (r : result A E) (f : A -> result B E) : result B E :=
  match r with Ok a => f a | Err e => Err e end.

(** parser/src/static_semantics/mod.rs:193-202 [early_errors_forbidden_use_strict] *)
Definition early_errors_forbidden_use_strict (p : node) (ds : list lit_string) : result unit perr :=
  if (negb (is_simple p) && contains_strict ds)%bool
  then Err (syntax_error "Only name parameters allowed in method with ""use strict""" (node_span p))
  else Ok tt.

(** parser/src/static_semantics/mod.rs:141-150 [early_errors_getter] *)
Definition early_errors_getter (p : node) : result unit perr :=
  if (negb (match params_bindings p with [] => true | _ => false end) || is_some (params_rest p))%bool
  then Err (syntax_error "Getter must not have any formal parameters" (node_span p))
  else Ok tt.

(** parser/src/static_semantics/mod.rs:152-171 [early_errors_method] *)
Definition early_errors_method (p : node) (ds : list lit_string) : result unit perr :=
  rbind (early_errors_forbidden_use_strict p ds) (fun _ =>
  match get_first_duplicate (sort_unstable (bound_names p)) with
  | Some d => Err (mk_perr (PSyntaxError "Found duplicate parameter '{}', duplicates not allowed here" d)
                     (node_span p))
  | None => Ok tt
  end).

(** parser/src/static_semantics/mod.rs:173-191 [early_errors_setter] *)
Definition early_errors_setter (p : node) (ds : list lit_string) : result unit perr :=
  rbind (early_errors_forbidden_use_strict p ds) (fun _ =>
  if is_some (params_rest p)
  then Err (syntax_error "Setter function parameter must not be a rest parameter" (node_span p))
  else if negb (Nat.eqb (length (params_bindings p)) 1)
  then Err (syntax_error "Setter must have exactly one parameter" (node_span p))
  else Ok tt).

(** ** Operators *)

(** The binary levels of parser/src/binary_expr.rs, outermost first. *)
Inductive level : Set :=
| LvCoalesce | LvOr | LvAnd | LvBitOr | LvBitXor | LvBitAnd | LvEquality | LvRelational
| LvShift | LvAdditive | LvMultiplicative | LvExponent.

(** The [next] argument of each level; [None] is [Self::parse_unary_expr]
    (parser/src/binary_expr.rs:17-140). *)
Definition next_level (l : level) : option level :=
  match l with
  | LvCoalesce => Some LvOr
  | LvOr => Some LvAnd
  | LvAnd => Some LvBitOr
  | LvBitOr => Some LvBitXor
  | LvBitXor => Some LvBitAnd
  | LvBitAnd => Some LvEquality
  | LvEquality => Some LvRelational
  | LvRelational => Some LvShift
  | LvShift => Some LvAdditive
  | LvAdditive => Some LvMultiplicative
  | LvMultiplicative => Some LvExponent
  | LvExponent => None
  end.

(** The [map_operator] closures of parser/src/binary_expr.rs:17-140, with the
    [create_expr] of [parse_binary_expr] / [parse_logical_expr]:
    [inl] is a binary operator, [inr] a logical one. *)
Definition map_operator (l : level) (is_in : bool) (t : token) : option (binary_op + logical_op) :=
  match l, t_value t with
  | LvCoalesce, VPunct PDoubleQuestionMark => Some (inr LCoalesce)
  | LvOr, VPunct PDoublePipe => Some (inr LOr)
  | LvAnd, VPunct PDoubleAmpersand => Some (inr LAnd)
  | LvBitOr, VPunct PPipe => Some (inl BBitwiseOR)
  | LvBitXor, VPunct PCaret => Some (inl BBitwiseXOR)
  | LvBitAnd, VPunct PAmpersand => Some (inl BBitwiseAnd)
  | LvEquality, VPunct PDoubleEqual => Some (inl BEqual)
  | LvEquality, VPunct PNotEqual => Some (inl BNotEqual)
  | LvEquality, VPunct PTripleEqual => Some (inl BStrictEqual)
  | LvEquality, VPunct PExclamationDoubleEqual => Some (inl BStrictNotEqual)
  | LvRelational, VPunct PLessThan => Some (inl BLessThan)
  | LvRelational, VPunct PGreaterThan => Some (inl BMoreThan)
  | LvRelational, VPunct PLessEqual => Some (inl BLessThanEquals)
  | LvRelational, VPunct PGreaterEqual => Some (inl BMoreThanEquals)
  | LvRelational, VKeyword KInstanceof => Some (inl BInstanceOf)
  | LvRelational, VKeyword KIn => if is_in then Some (inl BIn) else None
  | LvShift, VPunct PDoubleLessThan => Some (inl BShiftLeft)
  | LvShift, VPunct PDoubleGreaterThan => Some (inl BShiftRight)
  | LvShift, VPunct PTripleGreaterThan => Some (inl BShiftRightUnsigned)
  | LvAdditive, VPunct PPlus => Some (inl BPlus)
  | LvAdditive, VPunct PMinus => Some (inl BMinus)
  | LvMultiplicative, VPunct PStar => Some (inl BMultiplication)
  | LvMultiplicative, VPunct PSlash => Some (inl BDivision)
  | LvMultiplicative, VPunct PPercent => Some (inl BModulus)
  | LvExponent, VPunct PDoubleStar => Some (inl BExponent)
  | _, _ => None
  end.

Definition create_expr (sp : span) (l r : node) (o : binary_op + logical_op) : node :=
  match o with
  | inl b => EBinary sp b l r
  | inr b => ELogical sp b l r
  end.

(** The table in parser/src/expr.rs:218-241 [parse_optional_assignment_operator] *)
Definition assignment_operator (t : token) : option assign_op :=
  match t_value t with
  | VPunct PEqual => Some AAssign
  | VPunct PStarEqual => Some AMultiply
  | VPunct PSlashEqual => Some ADivide
  | VPunct PPercentEqual => Some AModulus
  | VPunct PPlusEqual => Some AAdd
  | VPunct PMinusEqual => Some ASub
  | VPunct PDoubleLessEqual => Some ALeftShift
  | VPunct PDoubleGreaterEqual => Some ARightShift
  | VPunct PTripleGreaterEqual => Some AUnsignedRightShift
  | VPunct PAmpersandEqual => Some ABitwiseAnd
  | VPunct PCaretEqual => Some ABitwiseXOr
  | VPunct PPipeEqual => Some ABitwiseOr
  | VPunct PDoubleStarEqual => Some APower
  | _ => None
  end.

(** The table in parser/src/expr.rs:347-364 [parse_optional_unary_operator] *)
Definition unary_operator (t : token) : option unary_op :=
  match t_value t with
  | VPunct PPlus => Some UPlus
  | VPunct PMinus => Some UMinus
  | VPunct PTilde => Some UBitwiseNot
  | VPunct PExclamation => Some UNot
  | VKeyword KDelete => Some UDelete
  | VKeyword KVoid => Some UVoid
  | VKeyword KTypeof => Some UTypeof
  | _ => None
  end.

(** The table in parser/src/expr.rs:440-452 [parse_optional_update_operator] *)
Definition update_operator (t : token) : option update_op :=
  match t_value t with
  | VPunct PDoublePlus => Some UpIncrease
  | VPunct PDoubleMinus => Some UpDecrease
  | _ => None
  end.

(** The [Literal] a token carries (lexer/src/lib.rs:376-378 for templates). *)
Definition literal_node (l : tlit) : node :=
  match l with
  | TLString v d => LitString (mk_lit_string v d)
  | TLNumber raw => LitNumber raw
  | TLRegexp s => LitRegexp s
  | TLTemplate s => LitTemplate [TplString s]
  end.

(** [ImportClause], parser/src/module.rs:286-290. *)
Record import_clause := mk_import_clause {
  ic_default : option ident; ic_namespace : option ident; ic_named : option (list node) }.

(** ** Method names *)

Inductive nt : Set -> Type :=
(* lib.rs *)
| NIdentifier (c : ctx) : nt ident
| NIdentifierName : nt ident
| NPropertyName (c : ctx) : nt node
| NDirectives (c : ctx) (acc : list lit_string) : nt (list lit_string)
| NProgram (c : ctx) : nt node
(* cover.rs *)
| NCoverParen (c : ctx) : nt node
| NCoverAsync (c : ctx) : nt node
| NCoveredCall (c : ctx) : nt node
(* expr.rs *)
| NExpr (c : ctx) : nt node
| NSequence (c : ctx) (start : nat) (acc : list node) : nt node
| NAssignment (c : ctx) : nt node
| NConditionalOrArrow (c : ctx) : nt node
| NAssignmentAsync (c : ctx) : nt node
| NAssignRight (c : ctx) (start : nat) (left : node) (o : assign_op) : nt node
| NParenthesized (c : ctx) : nt node
| NYield (c : ctx) : nt node
| NConditional (c : ctx) : nt node
| NUnary (c : ctx) : nt node
| NUnaryOp (c : ctx) (start : nat) (o : unary_op) : nt node
| NAwait (c : ctx) : nt node
| NUpdate (c : ctx) : nt node
| NPrefixUpdate (c : ctx) (start : nat) (o : update_op) : nt node
| NLeftHandSide (c : ctx) : nt node
| NRecursiveCall (c : ctx) (start : nat) (e : node) : nt node
| NCallExpr (c : ctx) (start : nat) (callee : node) : nt node
| NSuperCall (c : ctx) : nt node
| NImportCall (c : ctx) : nt node
| NImportArgument (c : ctx) : nt (span * list node)
| NNewOrMember (c : ctx) : nt node
| NNewOrMemberLoop (c : ctx) (start : nat) (e : node) : nt node
| NTaggedTemplate (c : ctx) (start : nat) (callee : node) : nt node
| NMemberTerminal (c : ctx) : nt node
| NNewExpr (c : ctx) : nt node
| NSuperProperty (c : ctx) : nt node
| NImportMeta (c : ctx) : nt node
| NNewTarget (c : ctx) : nt node
| NArguments (c : ctx) : nt (span * list node)
| NArgumentsLoop (c : ctx) (acc : list node) : nt (list node)
| NArgument (c : ctx) : nt node
| NOptionalArguments (c : ctx) : nt (option span * list node)
| NPrimary (c : ctx) : nt node
| NInitializer (c : ctx) : nt node
(* binary_expr.rs *)
| NBinary (c : ctx) (l : level) : nt node
| NBinaryLoop (c : ctx) (l : level) (start : nat) (e : node) : nt node
(* literal.rs *)
| NTemplateExpr (c : ctx) : nt node
| NTemplate (c : ctx) : nt node
| NTemplateParts (c : ctx) (acc : list node) : nt (list node)
| NArrayLiteral (c : ctx) : nt node
| NArrayLoop (c : ctx) (acc : list node) : nt (list node)
| NArrayElement (c : ctx) : nt node
| NObjectLiteral (c : ctx) : nt node
| NObjectLoop (c : ctx) (acc : list node) : nt (list node)
| NPropertyDefinition (c : ctx) : nt node
| NComputedDefinition (c : ctx) : nt node
| NNamedDefinition (c : ctx) (start : nat) (name : node) : nt node
(* member_access.rs *)
| NMemberRight (c : ctx) (start : nat) (left : node) : nt node
| NOptionalExpr (c : ctx) (start : nat) (object : node) : nt node
| NOptionalCall (c : ctx) (start : nat) (callee : node) : nt node
| NOptionalMember (c : ctx) (start : nat) (object : node) : nt node
| NOptionalMemberProperty (c : ctx) : nt node
| NMemberProperty (c : ctx) : nt node
| NComputedProperty (c : ctx) : nt node
(* assignment_pattern.rs *)
| NAsgPattern (c : ctx) : nt node
| NArrayAsg (c : ctx) : nt node
| NArrayAsgLoop (c : ctx) (acc : list (option node)) : nt (list (option node) * option node)
| NAsgElement (c : ctx) : nt node
| NAsgTarget (c : ctx) : nt node
| NObjectAsg (c : ctx) : nt node
| NObjectAsgLoop (c : ctx) (acc : list node) : nt (list node * option node)
| NNamedAsg (c : ctx) : nt node
| NSingleAsg (c : ctx) : nt node
(* binding.rs *)
| NBindPattern (c : ctx) : nt node
| NObjectBind (c : ctx) : nt node
| NObjectBindLoop (c : ctx) (acc : list node) : nt (list node * option node)
| NSingleBind (c : ctx) : nt node
| NNamedBind (c : ctx) : nt node
| NArrayBind (c : ctx) : nt node
| NArrayBindLoop (c : ctx) (acc : list (option node)) : nt (list (option node) * option node)
| NBindElement (c : ctx) : nt node
| NBindRest (c : ctx) : nt node
| NRestBind (c : ctx) (expected_end : punct) : nt node
(* function.rs *)
| NArrowExpr (c : ctx) : nt node
| NAsyncArrowExpr (c : ctx) : nt node
| NArrow (c : ctx) (start : nat) (asynchronous : bool) : nt node
| NArrowParameters (c : ctx) : nt (bool * node)
| NConciseBody (c : ctx) : nt node
| NArrowIdent (c : ctx) : nt node
| NFunctionExpr (c : ctx) : nt node
| NAsyncFunctionExpr (c : ctx) : nt node
| NFunctionContent (c : ctx) (start : nat) : nt node
| NFunctionDecl (c : ctx) : nt node
| NAsyncFunctionDecl (c : ctx) : nt node
| NFunctionDeclContent (c : ctx) (start : nat) (i : ident) : nt node
| NFunctionIdentifier (c : ctx) : nt ident
| NFormalParameters (c : ctx) : nt node
| NFormalLoop (c : ctx) (acc : list node) : nt (list node * option node)
| NFunctionBody (c : ctx) : nt node
| NBodyStmts (c : ctx) (acc : list node) : nt (list node)
(* class.rs *)
| NClassDecl (c : ctx) : nt node
| NClassIdentifier (c : ctx) : nt ident
| NClassExpr (c : ctx) : nt node
| NClassTail (c : ctx) : nt (option node * list node)
| NClassBody (c : ctx) (has_super : bool) : nt (list node)
| NClassBodyLoop (c : ctx) (has_super : bool) (acc : list node) : nt (list node)
| NClassElement (c : ctx) (has_super : bool) : nt node
(* method.rs *)
| NMethodDefinition (c : ctx) : nt node
| NGeneratorMethod (c : ctx) (is_static : bool) : nt node
| NAccessor (c : ctx) (is_static : bool) (kind : method_kind) : nt node
| NAsyncMethod (c : ctx) (is_static : bool) : nt node
| NMethod (c : ctx) (start : nat) (is_static : bool) (name : node) (kind : method_kind) : nt node
(* variable.rs *)
| NVariableStmt (c : ctx) (kind : variable_kind) : nt node
| NVariableDecls (c : ctx) : nt (list node)
| NVariableDeclsLoop (c : ctx) (acc : list node) : nt (list node)
| NVariableDecl (c : ctx) : nt node
(* stmt.rs *)
| NAllStmts (c : ctx) (acc : list node) : nt (list node)
| NDeclOrStmt (c : ctx) : nt node
| NStmt (c : ctx) : nt node
| NDeclaration (c : ctx) : nt (option node)
| NBlock (c : ctx) : nt node
| NBlockLoop (c : ctx) (acc : list node) : nt (list node)
| NExprStmt (c : ctx) : nt node
| NLabeled (c : ctx) : nt node
| NEmptyStmt : nt node
| NBreak (c : ctx) : nt node
| NContinue (c : ctx) : nt node
| NReturn (c : ctx) : nt node
| NThrow (c : ctx) : nt node
| NDebugger : nt node
| NIf (c : ctx) : nt node
| NWith (c : ctx) : nt node
| NTry (c : ctx) : nt node
| NCatch (c : ctx) : nt node
| NSwitch (c : ctx) : nt node
| NCaseBlock (c : ctx) : nt (list node)
| NCaseBlockLoop (c : ctx) (acc : list node) : nt (list node)
| NCaseClause (c : ctx) : nt node
| NCaseStmts (c : ctx) (acc : list node) : nt (list node)
(* iteration.rs *)
| NDoWhile (c : ctx) : nt node
| NWhile (c : ctx) : nt node
| NFor (c : ctx) : nt node
| NForInOf (c : ctx) (start : nat) (asynchronous : bool) : nt node
| NForIn (c : ctx) (start : nat) (left : node) : nt node
| NForOf (c : ctx) (start : nat) (left : node) (asynchronous : bool) : nt node
| NForDeclaration (c : ctx) : nt node
| NOptionalForInit (c : ctx) : nt (option node)
| NForInit (c : ctx) : nt node
| NForInitDecl (c : ctx) (start : nat) (kind : variable_kind) : nt node
(* module.rs *)
| NExportDecl (c : ctx) : nt node
| NDefaultExport (c : ctx) (start : nat) : nt node
| NVarExport (c : ctx) (start : nat) : nt node
| NDeclExport (c : ctx) (start : nat) : nt node
| NDeclDefaultExport (c : ctx) (start : nat) : nt node
| NRequiredDecl (c : ctx) : nt node
| NNamespaceExport (start : nat) : nt node
| NNamedExport (start : nat) : nt node
| NImportDecl (c : ctx) : nt node
| NImportClause (c : ctx) : nt import_clause
| NModuleImport (start : nat) : nt node
| NModuleSpecifier : nt lit_string
| NNamespaceImport (c : ctx) : nt ident
| NNamedImports (c : ctx) : nt (list node)
| NNamedImportsLoop (c : ctx) (acc : list node) : nt (list node)
| NImportSpecifier (c : ctx) : nt node
| NNamedExports : nt (list node)
| NNamedExportsLoop (acc : list node) : nt (list node)
| NExportSpecifier : nt node.

Notation prg := (prog nt).
Local Open Scope prog_scope.

Section WithPlatform.
Context {PF : Platform}.

(** ** Reader access and small queries (parser/src/lib.rs) *)

Local Coercion VPunct : punct >-> tvalue.
Local Coercion VKeyword : keyword >-> tvalue.

Definition ofres {A : Set} (r : result A perr) : prg A := Ret r.

Definition cur_raw : prg rtoken := pop OCurrent.

(** parser/src/lib.rs:248-250 [current] *)
Definition current : prg token :=
  let? r := cur_raw in
  match r with Ok t => pret t | Err e => perror (lexer_error e) end.

(** parser/src/lib.rs:252-254 [consume] *)
Definition consume : prg token :=
  let? r := pop OConsume in
  match r with Ok t => pret t | Err e => perror (lexer_error e) end.

(** [self.consume().unwrap()] *)
Definition consume_unwrap : prg token :=
  let? r := pop OConsume in
  match r with Ok t => pret t | Err _ => Panic end.

Definition rok (r : rtoken) : option token :=
  match r with Ok t => Some t | Err _ => None end.

(** parser/src/lib.rs:256-258 [peek] *)
Definition peek : prg (option token) := let? r := pop OPeek in pret (rok r).

Definition is_eos (e : lex_error) : bool :=
  match le_kind e with EKEndOfStream => true | _ => false end.

(** parser/src/lib.rs:260-265 [is_end] *)
Definition is_end : prg bool :=
  let? r := cur_raw in
  pret (match r with Ok _ => false | Err e => is_eos e end).

(** parser/src/lib.rs:267-271 [position] *)
Definition position : prg nat :=
  let? r := cur_raw in
  match r with Ok t => pret (tstart t) | Err _ => pop OPosition end.

(** parser/src/lib.rs:274-276 [span_from] *)
Definition span_from (start : nat) : prg span :=
  let? p := pop OPosition in pret (mk_span start p).

Definition value_is (v : tvalue) (o : option token) : bool :=
  match o with
  | Some t => if tvalue_eq_dec (t_value t) v then true else false
  | None => false
  end.

(** parser/src/lib.rs:288-294 [current_matches] *)
Definition current_matches (v : tvalue) : prg bool :=
  let? r := cur_raw in pret (value_is v (rok r)).

(** parser/src/lib.rs:324-330 [peek_matches] *)
Definition peek_matches (v : tvalue) : prg bool :=
  let? o := peek in pret (value_is v o).

Definition is_string_literal (o : option token) : bool :=
  match o with
  | Some t => match t_value t with VLiteral (TLString _ _) => true | _ => false end
  | None => false
  end.

(** parser/src/lib.rs:297-305 [current_matches_string_literal] *)
Definition current_matches_string_literal : prg bool :=
  let? r := cur_raw in pret (is_string_literal (rok r)).

(** parser/src/lib.rs:309-321 [current_matches_identifier_or_literal] *)
Definition current_matches_identifier_or_literal (value : str) : prg bool :=
  let? r := cur_raw in
  pret (match r with
        | Ok t => match t_value t with
                  | VIdentifier s => str_eqb value s
                  | VLiteral (TLString s _) => str_eqb value s
                  | _ => false
                  end
        | Err _ => false
        end).

(** parser/src/lib.rs:333-339 [consume_assert] *)
Definition consume_assert (expected : tvalue) : prg token :=
  let? t := consume in
  if tvalue_eq_dec (t_value t) expected then pret t
  else perror (expected_other_token t expected).

(** parser/src/lib.rs:342-349 [maybe_consume] *)
Definition maybe_consume (v : tvalue) : prg bool :=
  let? b := current_matches v in
  if b then consume;? pret true else pret false.

Definition opt_fol (o : option token) : bool :=
  match o with Some t => t_fol t | None => false end.

(** parser/src/lib.rs:352-354 [followed_by_new_line] *)
Definition followed_by_new_line : prg bool := let? o := peek in pret (opt_fol o).

(** parser/src/lib.rs:357-359 [first_on_line] *)
Definition first_on_line : prg bool := let? r := cur_raw in pret (opt_fol (rok r)).

(** parser/src/lib.rs:501-513 [is_identifier] *)
Definition is_identifier_token (o : option token) (kc : kctx) : bool :=
  match o with
  | Some t => match t_value t with
              | VIdentifier _ => true
              | VKeyword k => is_allowed_as_identifier k kc
              | _ => false
              end
  | None => false
  end.

(** parser/src/lib.rs:362-364 [peek_is_identifier] *)
Definition peek_is_identifier (c : ctx) : prg bool :=
  let? o := peek in pret (is_identifier_token o (keyword_context c)).

(** parser/src/lib.rs:367-369 [is_identifier] *)
Definition is_identifier (c : ctx) : prg bool :=
  let? r := cur_raw in pret (is_identifier_token (rok r) (keyword_context c)).

Definition is_name_token (o : option token) : bool :=
  match o with
  | Some t => match t_value t with VIdentifier _ | VKeyword _ => true | _ => false end
  | None => false
  end.

(** parser/src/lib.rs:372-380 [is_identifier_name] *)
Definition is_identifier_name : prg bool := let? r := cur_raw in pret (is_name_token (rok r)).

(** parser/src/lib.rs:384-397 [parse_identifier] *)
Definition parse_identifier (c : ctx) : prg ident :=
  let? t := consume in
  match t_value t with
  | VIdentifier s => pret (mk_ident (t_span t) s)
  | VKeyword k =>
    if is_allowed_as_identifier k (keyword_context c)
    then pret (mk_ident (t_span t) (keyword_str k))
    else perror (forbidden_identifier (keyword_str k) (t_span t))
  | _ => perror (expected_ident t)
  end.

(** parser/src/lib.rs:400-407 [parse_identifier_name] *)
Definition parse_identifier_name : prg ident :=
  let? t := consume in
  match t_value t with
  | VIdentifier s => pret (mk_ident (t_span t) s)
  | VKeyword k => pret (mk_ident (t_span t) (keyword_str k))
  | _ => perror (expected_ident t)
  end.

(** parser/src/lib.rs:410-435 [parse_property_name] *)
Definition parse_property_name (c : ctx) : prg node :=
  let? t := current in
  match t_value t with
  | VLiteral _ =>
    let? t := consume in
    match t_value t with
    | VLiteral (TLString v d) => pret (NameString (mk_lit_string v d))
    | VLiteral (TLNumber raw) => pret (NameNumber raw)
    | _ => perror (unexpected_token t)
    end
  | VPunct PBraceOpen =>
    consume;?
    let? e := pcall (NAssignment c) in
    consume_assert PBraceClose;?
    pret (NameComputed e)
  | _ =>
    let? b := is_identifier_name in
    if b then let? i := pcall NIdentifierName in pret (NameIdent i)
    else let? t := consume in perror (unexpected_token t)
  end.

(** The string of a statement that is just a string literal. *)
Definition directive_of (stmt : node) : option lit_string :=
  match stmt with
  | SExpr _ (ELiteral _ (LitString s)) => Some s
  | _ => None
  end.

(** parser/src/lib.rs:437-466 [parse_directive_prologue] *)
Definition parse_directive_prologue (c : ctx) (acc : list lit_string) : prg (list lit_string) :=
  let? b := current_matches_string_literal in
  if negb b then pret acc else
  let? stmt_start_token := current in
  let? stmt := pcall (NDeclOrStmt c) in
  match directive_of stmt with
  | Some s => pcall (NDirectives c (acc ++ [s]))
  | None => pop (ORewind stmt_start_token);? pret acc
  end.

(** parser/src/lib.rs:470-477 [consume_list_delimiter] *)
Definition consume_list_delimiter (list_end : tvalue) : prg unit :=
  let? b := maybe_consume PComma in
  if b then pret tt else
  let? b := current_matches list_end in
  if b then pret tt else
  let? t := consume in perror (expected_other_token t PComma).

(** parser/src/lib.rs:488-496 [can_insert_semicolon] *)
Definition can_insert_semicolon : prg bool :=
  let? r := cur_raw in
  pret (match r with
        | Ok t => (value_is PBracketClose (Some t) || t_fol t)%bool
        | Err e => is_eos e
        end).

(** parser/src/lib.rs:480-485 [stmt_ended] *)
Definition stmt_ended : prg bool :=
  let? r := cur_raw in
  match r with
  | Err _ => pret true
  | Ok t => if value_is PSemiColon (Some t) then pret true else can_insert_semicolon
  end.

(** [b.then_try(f)], parser/src/lib.rs:40-53. *)
Definition then_try {A : Set} (b : bool) (m : prg A) : prg (option A) :=
  if b then let? a := m in pret (Some a) else pret None.

Definition pdebug_assert (b : bool) : prg unit :=
  if (debug_assertions && negb b)%bool then Panic else pret tt.

(** parser/src/lib.rs:185-213: [Parse for Program]. *)
Definition parse_program (c : ctx) : prg node :=
  let? span_start := position in
  let? directives := pcall (NDirectives c []) in
  let? stmts :=
    (if contains_strict directives then pcall (NAllStmts (with_strict true c) [])
     else pcall (NAllStmts c [])) in
  let? span := span_from span_start in
  pret (if c_module c then Module span directives stmts else Script span directives stmts).

(** ** Cover grammars (parser/src/cover.rs) *)

(** The two error kinds that make parser/src/cover.rs:18-46 [parse_cover_parenthesized_and_arrow_parameters] retry. *)
Definition retries_as_arrow (e : perr) : bool :=
  match pe_kind e with
  | PUnexpectedToken (VPunct PTripleDot) _ => true
  | PInitializedNameNotAllowed => true
  | _ => false
  end.

(** parser/src/cover.rs:18-46 [parse_cover_parenthesized_and_arrow_parameters] *)
Definition parse_cover_parenthesized_and_arrow_parameters (c : ctx) : prg node :=
  let? start_token := current in
  let? b := peek_matches PParenClose in
  let as_arrow := let? a := pcall (NArrowExpr c) in perror (arrow_function_not_allowed a) in
  if b then as_arrow else
  let? r := ptry (NParenthesized c) in
  match r with
  | Ok e =>
    let? b := current_matches PEqualGreater in
    if negb b then pret e else pop (ORewind start_token);? as_arrow
  | Err error =>
    if retries_as_arrow error then pop (ORewind start_token);? as_arrow else perror error
  end.

(** parser/src/cover.rs:49-59 [parse_cover_call_or_async_arrow_head] *)
Definition parse_cover_call_or_async_arrow_head (c : ctx) : prg node :=
  let? start_token := current in
  let? e := pcall (NCoveredCall c) in
  let? b := current_matches PEqualGreater in
  if negb b then pret e else pop (ORewind start_token);? pcall (NAsyncArrowExpr c).

(** parser/src/cover.rs:62-66 [parse_covered_call_expression] *)
Definition parse_covered_call_expression (c : ctx) : prg node :=
  let? span_start := position in
  let? i := pcall (NIdentifier c) in
  pcall (NCallExpr c span_start (EIdentRef i)).

(** ** Expressions (parser/src/expr.rs) *)

(** parser/src/expr.rs:27-36 [parse_expr] *)
Definition parse_expr (c : ctx) : prg node :=
  let? span_start := position in
  let? e := pcall (NAssignment c) in
  let? b := current_matches PComma in
  if b then pcall (NSequence c span_start [e]) else pret e.

(** parser/src/expr.rs:39-53 [parse_expr_sequence] *)
Definition parse_expr_sequence (c : ctx) (span_start : nat) (acc : list node) : prg node :=
  let? b := maybe_consume PComma in
  if b then
    let? e := pcall (NAssignment c) in
    pcall (NSequence c span_start (acc ++ [e]))
  else
    let? span := span_from span_start in pret (ESequence span acc).

(** parser/src/expr.rs:218-241 [parse_optional_assignment_operator] *)
Definition parse_optional_assignment_operator : prg (option assign_op) :=
  let? r := cur_raw in
  match r with
  | Ok t => match assignment_operator t with
            | Some o => consume_unwrap;? pret (Some o)
            | None => pret None
            end
  | Err _ => pret None
  end.

(** parser/src/expr.rs:140-160 [normalize_left_side_assignment] *)
Definition normalize_left_side_assignment (c : ctx) (start_token : token) (e : node) : prg node :=
  match e with
  | ELiteral _ (LitObject _) | ELiteral _ (LitArray _) =>
    pop (ORewind start_token);?
    let? pattern := pcall (NAsgPattern c) in
    consume_assert PEqual;?
    pret pattern
  | _ => ofres (early_errors_left_hand_side_expr c e);? pret e
  end.

(** parser/src/expr.rs:56-136 [parse_assignment_expr] *)
Definition parse_assignment_expr (c : ctx) : prg node :=
  let? span_start := position in
  let? r := cur_raw in
  if (value_is KYield (rok r) && c_yield c)%bool then pcall (NYield c)
  else if value_is KAsync (rok r) then pcall (NAssignmentAsync c)
  else
  let? arrow := peek_matches PEqualGreater in
  if (is_identifier_token (rok r) (keyword_context c) && arrow)%bool then pcall (NArrowExpr c)
  else
  let? start_token := current in
  let? r := ptry (NConditionalOrArrow c) in
  match r with
  | Ok e =>
    let? o := parse_optional_assignment_operator in
    match o with
    | Some AAssign =>
      let? left := normalize_left_side_assignment c start_token e in
      pcall (NAssignRight c span_start left AAssign)
    | Some o =>
      ofres (early_errors_left_hand_side_expr c e);?
      pcall (NAssignRight c span_start e o)
    | None => pret e
    end
  | Err error =>
    match pe_kind error with
    | PInitializedNameNotAllowed =>
      pop (ORewind start_token);?
      let? b1 := current_matches PBracketOpen in
      let? b2 := current_matches PBraceOpen in
      if (negb b1 && negb b2)%bool then perror error else
      let? pattern := pcall (NAsgPattern c) in
      let? o := parse_optional_assignment_operator in
      match o with
      | Some AAssign => pcall (NAssignRight c span_start pattern AAssign)
      | _ => perror error
      end
    | _ => perror error
    end
  end.

(** parser/src/expr.rs:165-182 [parse_conditional_expr_or_arrow_function] *)
Definition parse_conditional_expr_or_arrow_function (c : ctx) : prg node :=
  let? span_start := position in
  let? r := ptry (NConditional c) in
  match r with
  | Ok e => pret e
  | Err error =>
    if Nat.eqb (sp_start (pe_span error)) span_start then
      match pe_kind error with
      | PArrowFunctionNotAllowed e => pret e
      | _ => perror error
      end
    else perror error
  end.

(** parser/src/expr.rs:190-197 [parse_assignment_expr_async] *)
Definition parse_assignment_expr_async (c : ctx) : prg node :=
  let? o := peek in
  if value_is PEqualGreater o then pcall (NArrowExpr c)
  else if value_is PParenOpen o then pcall (NCoverAsync c)
  else if is_identifier_token o (keyword_context c) then pcall (NAsyncArrowExpr c)
  else pcall (NConditional c).

(** parser/src/expr.rs:200-216 [parse_assignment] *)
Definition parse_assignment (c : ctx) (span_start : nat) (left : node) (o : assign_op) : prg node :=
  let? right := pcall (NAssignment c) in
  let? span := span_from span_start in
  pret (EAssign span o left right).

(** parser/src/expr.rs:244-257 [parse_parenthesized_expr] *)
Definition parse_parenthesized_expr (c : ctx) : prg node :=
  let? span_start := position in
  consume_assert PParenOpen;?
  let? e := pcall (NExpr (with_in true c)) in
  consume_assert PParenClose;?
  let? span := span_from span_start in
  pret (EParenthesized span e).

(** parser/src/expr.rs:822-826 [expr_ended] *)
Definition expr_ended : prg bool :=
  let? a := stmt_ended in
  let? b := current_matches PParenClose in
  let? d := current_matches PBraceClose in
  pret (a || b || d)%bool.

(** parser/src/expr.rs:260-283 [parse_yield_expr] *)
Definition parse_yield_expr (c : ctx) : prg node :=
  let? span_start := position in
  consume_assert KYield;?
  let? e := is_end in
  let? e2 := expr_ended in
  if (e || e2)%bool then
    let? span := span_from span_start in pret (EYield span None false)
  else
    let? delegate := maybe_consume PStar in
    let? argument := pcall (NAssignment c) in
    let? span := span_from span_start in
    pret (EYield span (Some argument) delegate).

(** parser/src/expr.rs:286-308 [parse_conditional_expr] *)
Definition parse_conditional_expr (c : ctx) : prg node :=
  let? span_start := position in
  let? e := pcall (NBinary c LvCoalesce) in
  let? b := current_matches PQuestionMark in
  if b then
    consume;?
    let? consequent := pcall (NAssignment c) in
    consume_assert PColon;?
    let? alternate := pcall (NAssignment c) in
    let? span := span_from span_start in
    pret (EConditional span e consequent alternate)
  else pret e.

(** parser/src/expr.rs:347-364 [parse_optional_unary_operator] *)
Definition parse_optional_unary_operator : prg (option unary_op) :=
  let? r := cur_raw in
  match r with
  | Ok t => match unary_operator t with
            | Some o => consume_unwrap;? pret (Some o)
            | None => pret None
            end
  | Err _ => pret None
  end.

(** parser/src/expr.rs:311-324 [parse_unary_expr] *)
Definition parse_unary_expr (c : ctx) : prg node :=
  let? span_start := position in
  let? o := parse_optional_unary_operator in
  match o with
  | Some o => pcall (NUnaryOp c span_start o)
  | None =>
    if c_await c then
      let? t := current in
      if value_is KAwait (Some t) then pcall (NAwait c) else pcall (NUpdate c)
    else pcall (NUpdate c)
  end.

(** parser/src/expr.rs:327-345 [parse_unary_expr_with_operator] *)
Definition parse_unary_expr_with_operator (c : ctx) (span_start : nat) (o : unary_op) : prg node :=
  let? argument := pcall (NUnary c) in
  match o with
  | UDelete => ofres (early_errors_unary_delete c argument)
  | _ => pret tt
  end;?
  let? span := span_from span_start in
  pret (EUnary span o argument).

(** parser/src/expr.rs:367-375 [parse_await_expr] *)
Definition parse_await_expr (c : ctx) : prg node :=
  let? span_start := position in
  consume_assert KAwait;?
  let? argument := pcall (NUnary c) in
  let? span := span_from span_start in
  pret (EAwait span argument).

(** parser/src/expr.rs:440-452 [parse_optional_update_operator] *)
Definition parse_optional_update_operator : prg (option update_op) :=
  let? r := cur_raw in
  match r with
  | Ok t => match update_operator t with
            | Some o => consume_unwrap;? pret (Some o)
            | None => pret None
            end
  | Err _ => pret None
  end.

(** parser/src/expr.rs:422-437 [parse_postfix_update_expr] *)
Definition parse_postfix_update_expr (c : ctx) (argument : node) (o : update_op) : prg node :=
  ofres (early_errors_update_expr_argument c argument);?
  let? span := span_from (sp_start (node_span argument)) in
  pret (EUpdate span o false argument).

(** parser/src/expr.rs:378-400 [parse_update_expr] *)
Definition parse_update_expr (c : ctx) : prg node :=
  let? span_start := position in
  let? o := parse_optional_update_operator in
  match o with
  | Some o => pcall (NPrefixUpdate c span_start o)
  | None =>
    let? e := pcall (NLeftHandSide c) in
    let? f := first_on_line in
    if f then pret e else
    let? o := parse_optional_update_operator in
    match o with
    | Some o => parse_postfix_update_expr c e o
    | None => pret e
    end
  end.

(** parser/src/expr.rs:403-419 [parse_prefix_update_expr] *)
Definition parse_prefix_update_expr (c : ctx) (span_start : nat) (o : update_op) : prg node :=
  let? argument := pcall (NUnary c) in
  ofres (early_errors_update_expr_argument c argument);?
  let? span := span_from span_start in
  pret (EUpdate span o true argument).

(** [Expr::is_nested_new], ast/src/expr.rs:41-47. *)
Definition is_nested_new (e : node) : bool :=
  match e with
  | ENew _ (ENew _ _ _ _) _ _ => true
  | _ => false
  end.

(** parser/src/expr.rs:456-484 [parse_left_hand_side_expr] *)
Definition parse_left_hand_side_expr (c : ctx) : prg node :=
  let? span_start := position in
  let? r := cur_raw in
  let? paren := peek_matches PParenOpen in
  let? e :=
    (if (value_is KSuper (rok r) && paren)%bool then pcall (NSuperCall c)
     else if (value_is KImport (rok r) && paren)%bool then pcall (NImportCall c)
     else
       let? span_start := position in
       let? e := pcall (NNewOrMember c) in
       pcall (NRecursiveCall c span_start e)) in
  let? b := current_matches PQuestionMarkDot in
  if b then
    if is_nested_new e then let? t := consume in perror (unexpected_token t)
    else pcall (NOptionalExpr c span_start e)
  else pret e.

(** parser/src/expr.rs:487-508 [parse_recursive_call_expression] *)
Definition parse_recursive_call_expression (c : ctx) (span_start : nat) (e : node) : prg node :=
  let? r := cur_raw in
  match r with
  | Ok t =>
    match t_value t with
    | VPunct PParenOpen =>
      let? e := pcall (NCallExpr c span_start e) in pcall (NRecursiveCall c span_start e)
    | VPunct PDot | VPunct PBraceOpen =>
      let? e := pcall (NMemberRight c span_start e) in pcall (NRecursiveCall c span_start e)
    | VLiteral (TLTemplate _) =>
      let? e := pcall (NTaggedTemplate c span_start e) in pcall (NRecursiveCall c span_start e)
    | _ => pret e
    end
  | Err _ => pret e
  end.

(** parser/src/expr.rs:511-521 [parse_call_expr] *)
Definition parse_call_expr (c : ctx) (span_start : nat) (callee : node) : prg node :=
  let? ' (arguments_span, arguments) := pcall (NArguments c) in
  let? span := span_from span_start in
  pret (ECall span callee arguments_span arguments).

(** parser/src/expr.rs:524-545 [parse_super_call_expr] *)
Definition parse_super_call_expr (c : ctx) : prg node :=
  let? span_start := position in
  consume_assert KSuper;?
  let? ' (arguments_span, arguments) := pcall (NArguments c) in
  let? span := span_from span_start in
  if negb (c_super_call c) then perror (syntax_error "super() now allowed here" span)
  else pret (ECall span CalleeSuper arguments_span arguments).

(** parser/src/expr.rs:548-562 [parse_import_call_expr] *)
Definition parse_import_call_expr (c : ctx) : prg node :=
  let? span_start := position in
  consume;?
  let? ' (arguments_span, arguments) := pcall (NImportArgument c) in
  let? span := span_from span_start in
  pret (ECall span CalleeImport arguments_span arguments).

(** parser/src/expr.rs:564-573 [parse_import_argument] *)
Definition parse_import_argument (c : ctx) : prg (span * list node) :=
  let? span_start := position in
  consume_assert PParenOpen;?
  let? e := pcall (NAssignment c) in
  consume_assert PParenClose;?
  let? span := span_from span_start in
  pret (span, [ArgExpr e]).

(** parser/src/expr.rs:576-592 [parse_new_or_member_expr] *)
Definition parse_new_or_member_expr (c : ctx) : prg node :=
  let? span_start := position in
  let? e := pcall (NMemberTerminal c) in
  pcall (NNewOrMemberLoop c span_start e).

(** The loop of parser/src/expr.rs:576-592 [parse_new_or_member_expr] *)
Definition parse_new_or_member_loop (c : ctx) (span_start : nat) (e : node) : prg node :=
  let? r := cur_raw in
  match r with
  | Ok t =>
    match t_value t with
    | VPunct PDot | VPunct PBraceOpen =>
      let? e := pcall (NMemberRight c span_start e) in pcall (NNewOrMemberLoop c span_start e)
    | VTemplateHead _ | VLiteral (TLTemplate _) =>
      let? e := pcall (NTaggedTemplate c span_start e) in pcall (NNewOrMemberLoop c span_start e)
    | _ => pret e
    end
  | Err _ => pret e
  end.

(** parser/src/expr.rs:595-604 [parse_tagged_template] *)
Definition parse_tagged_template (c : ctx) (span_start : nat) (callee : node) : prg node :=
  let? template := pcall (NTemplate c) in
  let? span := span_from span_start in
  pret (ETaggedTemplate span callee template).

(** parser/src/expr.rs:607-622 [parse_member_expr_from_terminal] *)
Definition parse_member_expr_from_terminal (c : ctx) : prg node :=
  let? t := current in
  let? dot := peek_matches PDot in
  match t_value t with
  | VKeyword KSuper => pcall (NSuperProperty c)
  | VKeyword KNew => if dot then pcall (NNewTarget c) else pcall (NNewExpr c)
  | VKeyword KImport => if dot then pcall (NImportMeta c) else pcall (NPrimary c)
  | _ => pcall (NPrimary c)
  end.

(** parser/src/expr.rs:625-640 [parse_new_expr] *)
Definition parse_new_expr (c : ctx) : prg node :=
  let? span_start := position in
  consume;?
  let? callee := pcall (NNewOrMember c) in
  let? ' (arguments_span, arguments) := pcall (NOptionalArguments c) in
  let? span := span_from span_start in
  pret (ENew span callee arguments_span arguments).

(** parser/src/expr.rs:643-669 [parse_super_property] *)
Definition parse_super_property (c : ctx) : prg node :=
  let? span_start := position in
  let? super_token := consume in
  let? b1 := current_matches PDot in
  let? b2 := current_matches PBraceOpen in
  if negb (b1 || b2)%bool then
    let? span := span_from span_start in
    perror (syntax_error "`super` keyword not expected here" span)
  else if negb (c_in_method c) then
    let? span := span_from span_start in
    perror (syntax_error "`super` property access only valid inside methods" span)
  else pcall (NMemberRight c span_start (ObjSuper (t_span super_token))).

(** parser/src/expr.rs:672-689 [parse_import_meta] *)
Definition parse_import_meta (c : ctx) : prg node :=
  let? span_start := position in
  let? import_token := consume in
  consume;?
  let? property := pcall (NIdentifier c) in
  if negb (str_eqb (id_name property) (chars "meta")) then perror (unexpected_identifier property)
  else
    let? span := span_from span_start in
    pret (EMetaProperty span (mk_ident (t_span import_token) (chars "import")) property).

(** parser/src/expr.rs:692-709 [parse_new_target] *)
Definition parse_new_target (c : ctx) : prg node :=
  let? span_start := position in
  let? new_token := consume in
  consume;?
  let? property := pcall (NIdentifier c) in
  if negb (str_eqb (id_name property) (chars "target")) then perror (unexpected_identifier property)
  else
    let? span := span_from span_start in
    pret (EMetaProperty span (mk_ident (t_span new_token) (chars "new")) property).

(** parser/src/expr.rs:712-731 [parse_arguments] *)
Definition parse_arguments (c : ctx) : prg (span * list node) :=
  let? span_start := position in
  consume_assert PParenOpen;?
  let? arguments := pcall (NArgumentsLoop c []) in
  let? span := span_from span_start in
  pret (span, arguments).

(** The loop of parser/src/expr.rs:712-731 [parse_arguments] *)
Definition parse_arguments_loop (c : ctx) (acc : list node) : prg (list node) :=
  let? b := maybe_consume PParenClose in
  if b then pret acc else
  let? a := pcall (NArgument (with_in true c)) in
  consume_list_delimiter PParenClose;?
  pcall (NArgumentsLoop c (acc ++ [a])).

(** parser/src/expr.rs:733-739 [parse_argument] *)
Definition parse_argument (c : ctx) : prg node :=
  let? b := maybe_consume PTripleDot in
  if b then let? e := pcall (NAssignment c) in pret (ArgSpread e)
  else let? e := pcall (NAssignment c) in pret (ArgExpr e).

(** parser/src/expr.rs:742-749 [parse_optional_arguments] *)
Definition parse_optional_arguments (c : ctx) : prg (option span * list node) :=
  let? b := current_matches PParenOpen in
  if b then let? ' (sp, args) := pcall (NArguments c) in pret (Some sp, args)
  else pret (None, []).

(** parser/src/literal.rs:19-26 [consume_literal] *)
Definition consume_literal (l : node) : prg node :=
  let? t := consume in pret (ELiteral (t_span t) l).

(** parser/src/literal.rs:29-40 [parse_literal] *)
Definition parse_literal : prg node :=
  let? t := consume in
  match t_value t with
  | VLiteral l => pret (ELiteral (t_span t) (literal_node l))
  | _ => perror (unexpected_token t)
  end.

Definition is_regexp_node (e : node) : bool :=
  match e with ELiteral _ (LitRegexp _) => true | _ => false end.

(** parser/src/expr.rs:791-802 [parse_regexp_literal] *)
Definition parse_regexp_literal : prg node :=
  let? e := parse_literal in
  pdebug_assert (is_regexp_node e);?
  pret e.

(** parser/src/expr.rs:805-808 [parse_this_expr] *)
Definition parse_this_expr : prg node :=
  let? t := consume_assert KThis in pret (EThis (t_span t)).

(** parser/src/expr.rs:811-814 [parse_identifier_reference] *)
Definition parse_identifier_reference (c : ctx) : prg node :=
  let? i := pcall (NIdentifier c) in pret (EIdentRef i).

(** The last two arms of parser/src/expr.rs:752-788 [parse_primary_expr] *)
Definition parse_primary_other (c : ctx) : prg node :=
  let? b := is_identifier (ctx_default (c_module c)) in
  if b then parse_identifier_reference c
  else pop (OReread ls_regex_allowed);? parse_regexp_literal.

(** parser/src/expr.rs:752-788 [parse_primary_expr] *)
Definition parse_primary_expr (c : ctx) : prg node :=
  let? t := current in
  match t_value t with
  | VKeyword KThis => parse_this_expr
  | VKeyword KNull => consume_literal LitNull
  | VKeyword KTrue => consume_literal (LitBoolean true)
  | VKeyword KFalse => consume_literal (LitBoolean false)
  | VLiteral _ => parse_literal
  | VPunct PBraceOpen => pcall (NArrayLiteral c)
  | VPunct PBracketOpen => pcall (NObjectLiteral c)
  | VKeyword KFunction => pcall (NFunctionExpr c)
  | VKeyword KClass => pcall (NClassExpr (with_strict true c))
  | VKeyword KAsync =>
    let? nl := followed_by_new_line in
    if negb nl then pcall (NAsyncFunctionExpr c) else parse_primary_other c
  | VPunct PSlash => pop (OReread ls_regex_allowed);? parse_regexp_literal
  | VTemplateHead _ => pcall (NTemplateExpr c)
  | VPunct PParenOpen => pcall (NCoverParen c)
  | _ => parse_primary_other c
  end.

(** parser/src/expr.rs:817-820 [parse_initializer] *)
Definition parse_initializer (c : ctx) : prg node :=
  consume_assert PEqual;? pcall (NAssignment c).

(** ** Binary expressions (parser/src/binary_expr.rs) *)

Definition parse_next_level (c : ctx) (l : level) : prg node :=
  match next_level l with
  | Some l' => pcall (NBinary c l')
  | None => pcall (NUnary c)
  end.

(** parser/src/binary_expr.rs:196-222 [parse_recursive_binary_expr] as used by every level of
    parser/src/binary_expr.rs:17-190 *)
Definition parse_binary (c : ctx) (l : level) : prg node :=
  let? span_start := position in
  let? e := parse_next_level c l in
  pcall (NBinaryLoop c l span_start e).

(** The loop of parser/src/binary_expr.rs:196-222 [parse_recursive_binary_expr] *)
Definition parse_binary_loop (c : ctx) (l : level) (span_start : nat) (e : node) : prg node :=
  let? r := cur_raw in
  match r with
  | Ok t =>
    match map_operator l (c_in c) t with
    | Some o =>
      consume;?
      let? right := parse_next_level c l in
      let? span := span_from span_start in
      pcall (NBinaryLoop c l span_start (create_expr span e right o))
    | None => pret e
    end
  | Err _ => pret e
  end.

(** ** Literals (parser/src/literal.rs) *)

(** parser/src/literal.rs:43-53 [parse_template_literal_expr] *)
Definition parse_template_literal_expr (c : ctx) : prg node :=
  let? span_start := position in
  let? template := pcall (NTemplate c) in
  let? span := span_from span_start in
  pret (ELiteral span template).

Definition str_part (s : str) : list node := if is_empty s then [] else [TplString s].

(** parser/src/literal.rs:56-71 [parse_template_literal], with parser/src/literal.rs:103-110 [parse_non_substitution_template] and
    parser/src/literal.rs:113-119 [parse_template_literal_head_string] *)
Definition parse_template_literal (c : ctx) : prg node :=
  let? t := current in
  match t_value t with
  | VLiteral _ =>
    let? t := consume in
    match t_value t with
    | VLiteral (TLTemplate s) => pret (LitTemplate [TplString s])
    | _ => perror (unexpected_token t)
    end
  | _ =>
    let? head := consume in
    match t_value head with
    | VTemplateHead s =>
      let? parts := pcall (NTemplateParts c (str_part s)) in
      pret (LitTemplate parts)
    | _ => perror (unexpected_token head)
    end
  end.

(** parser/src/literal.rs:73-100 [parse_template_literal_parts] *)
Definition parse_template_literal_parts (c : ctx) (acc : list node) : prg (list node) :=
  let? e := pcall (NExpr c) in
  pop (OReread ls_inside_template);?
  let? t := consume in
  match t_value t with
  | VTemplateMiddle s => pcall (NTemplateParts c (acc ++ [TplExpr e] ++ str_part s))
  | VTemplateTail s => pret (acc ++ [TplExpr e] ++ str_part s)
  | _ => perror (unexpected_token t)
  end.

(** parser/src/literal.rs:122-146 [parse_array_literal] *)
Definition parse_array_literal (c : ctx) : prg node :=
  let? span_start := position in
  consume_assert PBraceOpen;?
  let? elements := pcall (NArrayLoop c []) in
  let? span := span_from span_start in
  pret (ELiteral span (LitArray elements)).

Definition is_elision (e : node) : bool := match e with ElemElision => true | _ => false end.

(** The loop of parser/src/literal.rs:122-146 [parse_array_literal] *)
Definition parse_array_loop (c : ctx) (acc : list node) : prg (list node) :=
  let? b := maybe_consume PBraceClose in
  if b then pret acc else
  let? element := pcall (NArrayElement c) in
  (if is_elision element then pret tt else consume_list_delimiter PBraceClose);?
  pcall (NArrayLoop c (acc ++ [element])).

(** parser/src/literal.rs:148-164 [parse_array_element] *)
Definition parse_array_element (c : ctx) : prg node :=
  let? t := current in
  match t_value t with
  | VPunct PComma => consume;? pret ElemElision
  | VPunct PTripleDot => consume;? let? e := pcall (NAssignment c) in pret (ElemSpread e)
  | _ => let? e := pcall (NAssignment c) in pret (ElemExpr e)
  end.

(** parser/src/literal.rs:167-200 [parse_object_literal] *)
Definition parse_object_literal (c : ctx) : prg node :=
  let? span_start := position in
  consume_assert PBracketOpen;?
  let? props := pcall (NObjectLoop c []) in
  let? span := span_from span_start in
  pret (ELiteral span (LitObject props)).

Definition is_def_ident_ref (p : node) : bool := match p with DefIdentRef _ => true | _ => false end.

(** The loop of parser/src/literal.rs:167-200 [parse_object_literal] *)
Definition parse_object_loop (c : ctx) (acc : list node) : prg (list node) :=
  let? b := maybe_consume PBracketClose in
  if b then pret acc else
  let? prop := pcall (NPropertyDefinition c) in
  let? b := current_matches PEqual in
  if (b && is_def_ident_ref prop)%bool then
    let? t := current in perror (initialized_name_not_allowed (t_span t))
  else
    consume_list_delimiter PBracketClose;?
    pcall (NObjectLoop c (acc ++ [prop])).

(** parser/src/literal.rs:262-270 [is_object_method_definition] *)
Definition is_object_method_definition : prg bool :=
  let? r := cur_raw in
  let? colon := peek_matches PColon in
  let? paren := peek_matches PParenOpen in
  pret (match r with
        | Ok t =>
          match t_value t with
          | VPunct PStar | VPunct PBraceOpen | VKeyword KStatic => true
          | VKeyword KAsync => (negb colon || paren)%bool
          | VKeyword KGet | VKeyword KSet => true
          | _ => paren
          end
        | Err _ => paren
        end).

(** parser/src/literal.rs:203-232 [parse_property_definition] *)
Definition parse_property_definition (c : ctx) : prg node :=
  let? t := current in
  if value_is PTripleDot (Some t) then
    consume;? let? e := pcall (NAssignment c) in pret (DefSpread e)
  else
  let? colon := peek_matches PColon in
  if colon then
    let? span_start := position in
    let? name := pcall (NPropertyName c) in
    pcall (NNamedDefinition c span_start name)
  else if value_is PBraceOpen (Some t) then pcall (NComputedDefinition c)
  else
  let? b := is_object_method_definition in
  if b then
    let? m := pcall (NMethodDefinition
      (with_super_call_allowed false
        (with_static_method_allowed false (with_in_method true c)))) in
    pret (DefMethod m)
  else
    let? i := pcall (NIdentifier c) in pret (DefIdentRef i).

(** parser/src/literal.rs:234-244 [parse_property_definition_with_computed_name] *)
Definition parse_property_definition_with_computed_name (c : ctx) : prg node :=
  let? span_start := position in
  let? name := pcall (NPropertyName c) in
  let? b := current_matches PColon in
  if b then pcall (NNamedDefinition c span_start name)
  else let? m := pcall (NMethod c span_start false name MKMethod) in pret (DefMethod m).

(** parser/src/literal.rs:246-260 [parse_named_property_definition] *)
Definition parse_named_property_definition (c : ctx) (span_start : nat) (name : node) : prg node :=
  consume_assert PColon;?
  let? value := pcall (NAssignment c) in
  let? span := span_from span_start in
  pret (DefNamed span name value).

(** ** Member access (parser/src/member_access.rs) *)

(** parser/src/member_access.rs:17-30 [parse_member_expr_right_side] *)
Definition parse_member_expr_right_side (c : ctx) (span_start : nat) (left : node) : prg node :=
  let? property := pcall (NMemberProperty c) in
  let? span := span_from span_start in
  pret (EMember span left property).

(** parser/src/member_access.rs:69-81 [validate_no_template_in_optional_chain] *)
Definition validate_no_template_in_optional_chain (t : token) : result unit perr :=
  match t_value t with
  | VTemplateHead _ | VLiteral (TLTemplate _) =>
    Err (syntax_error "Invalid tagged template on optional chain" (t_span t))
  | _ => Ok tt
  end.

(** parser/src/member_access.rs:33-66 [parse_optional_expr] *)
Definition parse_optional_expr (c : ctx) (span_start : nat) (object : node) : prg node :=
  let? r := cur_raw in
  match r with
  | Ok t =>
    match t_value t with
    | VPunct PQuestionMarkDot =>
      let? paren := peek_matches PParenOpen in
      if paren then
        let? o := pcall (NOptionalCall c span_start object) in pcall (NOptionalExpr c span_start o)
      else
        let? p := peek in
        match p with
        | Some t => ofres (validate_no_template_in_optional_chain t)
        | None => pret tt
        end;?
        let? o := pcall (NOptionalMember c span_start object) in pcall (NOptionalExpr c span_start o)
    | VPunct PDot | VPunct PBraceOpen =>
      let? o := pcall (NOptionalMember c span_start object) in pcall (NOptionalExpr c span_start o)
    | VPunct PParenOpen =>
      let? o := pcall (NOptionalCall c span_start object) in pcall (NOptionalExpr c span_start o)
    | _ => ofres (validate_no_template_in_optional_chain t);? pret object
    end
  | Err _ => pret object
  end.

(** parser/src/member_access.rs:83-96 [parse_optional_call_expr] *)
Definition parse_optional_call_expr (c : ctx) (span_start : nat) (callee : node) : prg node :=
  let? optional := maybe_consume PQuestionMarkDot in
  let? ' (arguments_span, arguments) := pcall (NArguments c) in
  let? span := span_from span_start in
  pret (EOptionalCall span callee arguments_span arguments optional).

(** parser/src/member_access.rs:98-110 [parse_optional_member_expr] *)
Definition parse_optional_member_expr (c : ctx) (span_start : nat) (object : node) : prg node :=
  let? optional := current_matches PQuestionMarkDot in
  let? property := pcall (NOptionalMemberProperty c) in
  let? span := span_from span_start in
  pret (EOptionalMember span object property optional).

(** parser/src/member_access.rs:112-130 [parse_optional_member_property] *)
Definition parse_optional_member_property (c : ctx) : prg node :=
  let? r := cur_raw in
  match r with
  | Ok t =>
    match t_value t with
    | VPunct PQuestionMarkDot =>
      let? b := peek_matches PBraceOpen in
      if b then consume;? let? p := pcall (NComputedProperty c) in pret (PropExpr p)
      else consume;? let? i := pcall (NIdentifier c) in pret (PropIdent i)
    | VPunct PBraceOpen => let? p := pcall (NComputedProperty c) in pret (PropExpr p)
    | VPunct PDot => consume;? let? i := pcall (NIdentifier c) in pret (PropIdent i)
    | _ => Panic
    end
  | Err _ => Panic
  end.

(** parser/src/member_access.rs:132-147 [parse_member_property] *)
Definition parse_member_property (c : ctx) : prg node :=
  let? r := cur_raw in
  match r with
  | Ok t =>
    match t_value t with
    | VPunct PDot => consume;? let? i := pcall NIdentifierName in pret (PropIdent i)
    | VPunct PBraceOpen => let? p := pcall (NComputedProperty (with_in true c)) in pret (PropExpr p)
    | _ => Panic
    end
  | Err _ => Panic
  end.

(** parser/src/member_access.rs:149-155 [parse_computed_property] *)
Definition parse_computed_property (c : ctx) : prg node :=
  consume_assert PBraceOpen;?
  let? e := pcall (NExpr c) in
  consume_assert PBraceClose;?
  pret e.

(** ** Assignment patterns (parser/src/assignment_pattern.rs) *)

(** parser/src/assignment_pattern.rs:22-28 [parse_assignment_pattern] *)
Definition parse_assignment_pattern (c : ctx) : prg node :=
  let? t := current in
  match t_value t with
  | VPunct PBraceOpen => pcall (NArrayAsg c)
  | VPunct PBracketOpen => pcall (NObjectAsg c)
  | _ => Panic
  end.

Definition msg_rest_last : string := "Rest element must be last element".

(** parser/src/assignment_pattern.rs:30-73 [parse_array_assignment_pattern] *)
Definition parse_array_assignment_pattern (c : ctx) : prg node :=
  let? span_start := position in
  consume_assert PBraceOpen;?
  let? ' (elements, rest) := pcall (NArrayAsgLoop c []) in
  let? span := span_from span_start in
  pret (AsgArray span elements rest).

(** The loop of parser/src/assignment_pattern.rs:30-73 [parse_array_assignment_pattern] *)
Definition parse_array_assignment_loop (c : ctx) (acc : list (option node))
  : prg (list (option node) * option node) :=
  let? t := current in
  match t_value t with
  | VPunct PBraceClose => consume;? pret (acc, None)
  | VPunct PTripleDot =>
    consume;?
    let? rest := pcall (NAsgTarget c) in
    let? b := maybe_consume PBraceClose in
    if negb b then perror (syntax_error msg_rest_last (node_span rest))
    else pret (acc, Some rest)
  | VPunct PComma => consume;? pcall (NArrayAsgLoop c (acc ++ [None]))
  | _ =>
    let? e := pcall (NAsgElement c) in pcall (NArrayAsgLoop c (acc ++ [Some e]))
  end.

(** parser/src/assignment_pattern.rs:75-93 [parse_assignment_element] *)
Definition parse_assignment_element (c : ctx) : prg node :=
  let? span_start := position in
  let? target := pcall (NAsgTarget c) in
  let? b := current_matches PEqual in
  let? init := then_try b (pcall (NInitializer (with_in true c))) in
  let? span := span_from span_start in
  pret (AsgElement span target init).

(** parser/src/assignment_pattern.rs:95-113 [parse_destructuring_assignment_target] *)
Definition parse_destructuring_assignment_target (c : ctx) : prg node :=
  let? t := current in
  match t_value t with
  | VPunct PBracketOpen | VPunct PBraceOpen => pcall (NAsgPattern c)
  | _ =>
    let? e := pcall (NLeftHandSide c) in
    ofres (check_simple "Invalid destructuring assignment target" c e);?
    pret e
  end.

(** parser/src/assignment_pattern.rs:116-161 [parse_object_assignment_pattern] *)
Definition parse_object_assignment_pattern (c : ctx) : prg node :=
  let? span_start := position in
  consume_assert PBracketOpen;?
  let? ' (props, rest) := pcall (NObjectAsgLoop c []) in
  let? span := span_from span_start in
  pret (AsgObject span props rest).

(** The loop of parser/src/assignment_pattern.rs:116-161 [parse_object_assignment_pattern] *)
Definition parse_object_assignment_loop (c : ctx) (acc : list node) : prg (list node * option node) :=
  let? t := current in
  match t_value t with
  | VPunct PBracketClose => consume;? pret (acc, None)
  | VPunct PTripleDot =>
    consume;?
    let? rest := pcall (NAsgTarget c) in
    let? b := maybe_consume PBracketClose in
    if negb b then perror (syntax_error msg_rest_last (node_span rest))
    else pret (acc, Some rest)
  | _ =>
    let? colon := peek_matches PColon in
    if (value_is PBraceOpen (Some t) || colon)%bool then
      let? p := pcall (NNamedAsg c) in
      consume_list_delimiter PBracketClose;?
      pcall (NObjectAsgLoop c (acc ++ [p]))
    else
      let? p := pcall (NSingleAsg c) in
      consume_list_delimiter PBracketClose;?
      pcall (NObjectAsgLoop c (acc ++ [p]))
  end.

(** parser/src/assignment_pattern.rs:164-182 [parse_named_assignment_prop] *)
Definition parse_named_assignment_prop (c : ctx) : prg node :=
  let? span_start := position in
  let? name := pcall (NPropertyName c) in
  consume_assert PColon;?
  let? element := pcall (NAsgElement c) in
  let? span := span_from span_start in
  match element with
  | AsgElement _ target init => pret (AsgNamed span name target init)
  | _ => Panic (* the Rust type of parse_assignment_element rules this out *)
  end.

(** parser/src/assignment_pattern.rs:185-199 [parse_single_name_assignment_prop] *)
Definition parse_single_name_assignment_prop (c : ctx) : prg node :=
  let? span_start := position in
  let? i := pcall (NIdentifier c) in
  let? b := current_matches PEqual in
  let? init := then_try b (pcall (NInitializer c)) in
  let? span := span_from span_start in
  pret (AsgSingle span i init).

(** ** Binding patterns (parser/src/binding.rs) *)

(** parser/src/binding.rs:19-29 [parse_binding_pattern] *)
Definition parse_binding_pattern (c : ctx) : prg node :=
  let? t := current in
  match t_value t with
  | VPunct PBracketOpen => pcall (NObjectBind c)
  | VPunct PBraceOpen => pcall (NArrayBind c)
  | _ => let? i := pcall (NIdentifier c) in pret (BindIdent i)
  end.

(** parser/src/binding.rs:32-62 [parse_object_binding_pattern] *)
Definition parse_object_binding_pattern (c : ctx) : prg node :=
  let? span_start := position in
  consume_assert PBracketOpen;?
  let? ' (props, rest) := pcall (NObjectBindLoop c []) in
  let? span := span_from span_start in
  pret (BindObject span props rest).

(** The loop of parser/src/binding.rs:32-62 [parse_object_binding_pattern] *)
Definition parse_object_binding_loop (c : ctx) (acc : list node) : prg (list node * option node) :=
  let? t := current in
  match t_value t with
  | VPunct PBracketClose => consume;? pret (acc, None)
  | VPunct PTripleDot => let? rest := pcall (NRestBind c PBracketClose) in pret (acc, Some rest)
  | _ =>
    let? colon := peek_matches PColon in
    if (value_is PBraceOpen (Some t) || colon)%bool then
      let? p := pcall (NNamedBind c) in
      consume_list_delimiter PBracketClose;?
      pcall (NObjectBindLoop c (acc ++ [p]))
    else
      let? p := pcall (NSingleBind c) in
      consume_list_delimiter PBracketClose;?
      pcall (NObjectBindLoop c (acc ++ [p]))
  end.

(** parser/src/binding.rs:65-80 [parse_single_name_binding] *)
Definition parse_single_name_binding (c : ctx) : prg node :=
  let? span_start := position in
  let? i := pcall (NIdentifier c) in
  let? b := current_matches PEqual in
  let? init := then_try b (pcall (NInitializer (with_in true c))) in
  let? span := span_from span_start in
  pret (BindSingle span i init).

(** parser/src/binding.rs:83-96 [parse_named_binding] *)
Definition parse_named_binding (c : ctx) : prg node :=
  let? span_start := position in
  let? property := pcall (NPropertyName c) in
  consume_assert PColon;?
  let? binding := pcall (NBindElement c) in
  let? span := span_from span_start in
  pret (BindNamed span property binding).

(** parser/src/binding.rs:99-134 [parse_array_binding_pattern] *)
Definition parse_array_binding_pattern (c : ctx) : prg node :=
  let? span_start := position in
  consume_assert PBraceOpen;?
  let? ' (elements, rest) := pcall (NArrayBindLoop c []) in
  let? span := span_from span_start in
  pret (BindArray span elements rest).

(** The loop of parser/src/binding.rs:99-134 [parse_array_binding_pattern], with
    parser/src/binding.rs:136-142 [is_binding_element] *)
Definition parse_array_binding_loop (c : ctx) (acc : list (option node))
  : prg (list (option node) * option node) :=
  let? t := current in
  match t_value t with
  | VPunct PBraceClose => consume;? pret (acc, None)
  | VPunct PComma => consume;? pcall (NArrayBindLoop c (acc ++ [None]))
  | VPunct PTripleDot => let? rest := pcall (NRestBind c PBraceClose) in pret (acc, Some rest)
  | _ =>
    if (value_is PBracketOpen (Some t) || value_is PBraceOpen (Some t)
        || is_identifier_token (Some t) (keyword_context c))%bool then
      let? e := pcall (NBindElement c) in
      consume_list_delimiter PBraceClose;?
      pcall (NArrayBindLoop c (acc ++ [Some e]))
    else let? t := consume in perror (unexpected_token t)
  end.

(** parser/src/binding.rs:145-159 [parse_binding_element] *)
Definition parse_binding_element (c : ctx) : prg node :=
  let? span_start := position in
  let? pattern := pcall (NBindPattern c) in
  let? b := current_matches PEqual in
  let? init := then_try b (pcall (NInitializer (with_in true c))) in
  let? span := span_from span_start in
  pret (BindElement span pattern init).

(** parser/src/binding.rs:162-165 [parse_binding_rest_element] *)
Definition parse_binding_rest_element (c : ctx) : prg node :=
  consume_assert PTripleDot;? pcall (NBindPattern c).

(** parser/src/binding.rs:169-189 [parse_rest_binding_ident] ([Ok(None)] is never returned) *)
Definition parse_rest_binding_ident (c : ctx) (expected_end : punct) : prg node :=
  let? dots := consume_assert PTripleDot in
  let? pattern := pcall (NBindPattern c) in
  let? end_token := consume in
  if value_is expected_end (Some end_token) then pret pattern
  else perror (syntax_error msg_rest_last (mk_span (tstart dots) (sp_end (node_span pattern)))).

(** ** Functions (parser/src/function.rs) *)

(** parser/src/function.rs:19-23 [parse_arrow_function_expr] *)
Definition parse_arrow_function_expr (c : ctx) : prg node :=
  let? span_start := position in pcall (NArrow c span_start false).

(** parser/src/function.rs:26-31 [parse_async_arrow_function_expr] *)
Definition parse_async_arrow_function_expr (c : ctx) : prg node :=
  let? span_start := position in
  consume_assert KAsync;?
  pcall (NArrow c span_start true).

(** The context of the body in parser/src/function.rs:33-63 [parse_arrow_function] *)
Definition arrow_body_ctx (c : ctx) (asynchronous : bool) : ctx :=
  with_await asynchronous (with_in (c_in c) (reset_parameters c)).

(** parser/src/function.rs:33-63 [parse_arrow_function] *)
Definition parse_arrow_function (c : ctx) (span_start : nat) (asynchronous : bool) : prg node :=
  let? ' (binding_parameter, parameters) := pcall (NArrowParameters c) in
  let? arrow := consume_assert PEqualGreater in
  if t_fol arrow then perror (unexpected_token arrow) else
  let? b := pcall (NConciseBody (arrow_body_ctx c asynchronous)) in
  let? span := span_from span_start in
  pret (EArrow span asynchronous binding_parameter parameters b).

(** parser/src/function.rs:67-75 [parse_arrow_function_parameters] *)
Definition parse_arrow_function_parameters (c : ctx) : prg (bool * node) :=
  let? b := is_identifier c in
  if b then let? p := pcall (NArrowIdent c) in pret (true, p)
  else let? p := pcall (NFormalParameters c) in pret (false, p).

(** parser/src/function.rs:78-86 [parse_concise_body] *)
Definition parse_concise_body (c : ctx) : prg node :=
  let? b := current_matches PBracketOpen in
  if b then pcall (NFunctionBody c) else pcall (NAssignment c).

(** parser/src/function.rs:89-102 [parse_arrow_identifier_argument] *)
Definition parse_arrow_identifier_argument (c : ctx) : prg node :=
  let? span_start := position in
  let? i := pcall (NIdentifier c) in
  let? span := span_from span_start in
  pret (FormalParameters span [BindElement span (BindIdent i) None] None).

(** The context of parameters and body in parser/src/function.rs:105-118 [parse_function_expr] and its variants. *)
Definition function_ctx (c : ctx) (generator asynchronous : bool) : ctx :=
  with_super_call_allowed false
    (with_in_method false (with_await asynchronous (with_yield generator c))).

(** parser/src/function.rs:105-118 [parse_function_expr] *)
Definition parse_function_expr (c : ctx) : prg node :=
  let? span_start := position in
  consume_assert KFunction;?
  let? generator := maybe_consume PStar in
  pcall (NFunctionContent (function_ctx c generator false) span_start).

(** parser/src/function.rs:121-138 [parse_async_function_expr] *)
Definition parse_async_function_expr (c : ctx) : prg node :=
  let? span_start := position in
  consume_assert KAsync;?
  let? function_token := consume_assert KFunction in
  pdebug_assert (negb (t_fol function_token));?
  let? generator := maybe_consume PStar in
  pcall (NFunctionContent (function_ctx c generator true) span_start).

(** parser/src/function.rs:142-157 [parse_function_expr_content] *)
Definition parse_function_expr_content (c : ctx) (span_start : nat) : prg node :=
  let? b := is_identifier c in
  let? i := then_try b (pcall (NIdentifier c)) in
  let? parameters := pcall (NFormalParameters c) in
  let? body := pcall (NFunctionBody c) in
  let? span := span_from span_start in
  pret (EFunction span (c_await c) (c_yield c) i parameters body).

(** parser/src/function.rs:160-175 [parse_function_declaration] *)
Definition parse_function_declaration (c : ctx) : prg node :=
  let? span_start := position in
  consume_assert KFunction;?
  let? generator := maybe_consume PStar in
  let? i := pcall (NFunctionIdentifier c) in
  pcall (NFunctionDeclContent (function_ctx c generator false) span_start i).

(** parser/src/function.rs:178-196 [parse_async_function_declaration] *)
Definition parse_async_function_declaration (c : ctx) : prg node :=
  let? span_start := position in
  consume_assert KAsync;?
  let? function_token := consume_assert KFunction in
  pdebug_assert (negb (t_fol function_token));?
  let? generator := maybe_consume PStar in
  let? i := pcall (NFunctionIdentifier c) in
  pcall (NFunctionDeclContent (function_ctx c generator true) span_start i).

(** parser/src/function.rs:200-218 [parse_function_decl_content] *)
Definition parse_function_decl_content (c : ctx) (span_start : nat) (i : ident) : prg node :=
  let? parameters := pcall (NFormalParameters c) in
  let? body := pcall (NFunctionBody c) in
  let? span := span_from span_start in
  pret (SFunctionDecl span (c_await c) (c_yield c) i parameters body).

(** parser/src/function.rs:222-230 [parse_function_identifier] *)
Definition parse_function_identifier (c : ctx) : prg ident :=
  let? r := cur_raw in
  match r with
  | Ok t =>
    if (c_default c && value_is PParenOpen (Some t))%bool then pret (ident_dummy (tstart t))
    else pcall (NIdentifier c)
  | Err _ => pcall (NIdentifier c)
  end.

(** parser/src/function.rs:233-264 [parse_formal_parameters] *)
Definition parse_formal_parameters (c : ctx) : prg node :=
  let? span_start := position in
  consume_assert PParenOpen;?
  let? ' (parameters, rest) := pcall (NFormalLoop c []) in
  let? span := span_from span_start in
  pret (FormalParameters span parameters rest).

(** The loop of parser/src/function.rs:233-264 [parse_formal_parameters] *)
Definition parse_formal_loop (c : ctx) (acc : list node) : prg (list node * option node) :=
  let? t := current in
  match t_value t with
  | VPunct PParenClose => consume;? pret (acc, None)
  | VPunct PTripleDot =>
    let? rest := pcall (NBindRest c) in
    consume_assert PParenClose;?
    pret (acc, Some rest)
  | _ =>
    let? p := pcall (NBindElement c) in
    consume_list_delimiter PParenClose;?
    pcall (NFormalLoop c (acc ++ [p]))
  end.

(** parser/src/function.rs:267-284 [parse_function_body] *)
Definition parse_function_body (c : ctx) : prg node :=
  let? span_start := position in
  consume_assert PBracketOpen;?
  let? directives := pcall (NDirectives c []) in
  let is_strict := (c_strict c || contains_strict directives)%bool in
  let? statements := pcall (NBodyStmts (with_return true (with_strict is_strict c)) []) in
  let? span := span_from span_start in
  pret (Body span directives statements).

(** parser/src/function.rs:286-296 [parse_function_body_stmt_list] *)
Definition parse_function_body_stmt_list (c : ctx) (acc : list node) : prg (list node) :=
  let? b := maybe_consume PBracketClose in
  if b then pret acc else
  let? stmt := pcall (NDeclOrStmt c) in
  pcall (NBodyStmts c (acc ++ [stmt])).

(** ** Classes (parser/src/class.rs) *)

(** parser/src/class.rs:15-30 [parse_class_decl] *)
Definition parse_class_decl (c : ctx) : prg node :=
  let? span_start := position in
  consume_assert KClass;?
  let? i := pcall (NClassIdentifier c) in
  let? ' (super_class, body) := pcall (NClassTail c) in
  let? span := span_from span_start in
  pret (SClassDecl span i super_class body).

(** parser/src/class.rs:33-40 [parse_optional_class_identifier] *)
Definition parse_optional_class_identifier (c : ctx) : prg ident :=
  let? r := cur_raw in
  match r with
  | Ok t =>
    if (c_default c && value_is PBracketOpen (Some t))%bool then pret (ident_dummy (tstart t))
    else pcall (NIdentifier c)
  | Err _ => pcall (NIdentifier c)
  end.

(** parser/src/class.rs:43-60 [parse_class_expr] *)
Definition parse_class_expr (c : ctx) : prg node :=
  let? span_start := position in
  consume_assert KClass;?
  let? b := is_identifier c in
  let? i :=
    (if b then
       let? r := ptry (NIdentifier c) in
       match r with Ok i => pret (Some i) | Err _ => Panic end
     else pret None) in
  let? ' (super_class, body) := pcall (NClassTail c) in
  let? span := span_from span_start in
  pret (EClass span i super_class body).

(** parser/src/class.rs:63-71 [parse_class_tail] *)
Definition parse_class_tail (c : ctx) : prg (option node * list node) :=
  let? b := maybe_consume KExtends in
  let? super_class := then_try b (pcall (NLeftHandSide c)) in
  let? body := pcall (NClassBody c (is_some super_class)) in
  pret (super_class, body).

(** parser/src/class.rs:74-93 [parse_class_body] *)
Definition parse_class_body (c : ctx) (has_super : bool) : prg (list node) :=
  consume_assert PBracketOpen;? pcall (NClassBodyLoop c has_super []).

(** The loop of parser/src/class.rs:74-93 [parse_class_body] *)
Definition parse_class_body_loop (c : ctx) (has_super : bool) (acc : list node) : prg (list node) :=
  let? b := current_matches PBracketClose in
  if b then consume;? pret acc else
  let? b := current_matches PSemiColon in
  if b then consume;? pcall (NClassBodyLoop c has_super acc) else
  let? e := pcall (NClassElement c has_super) in
  pcall (NClassBodyLoop c has_super (acc ++ [e])).

(** parser/src/class.rs:96-106 [parse_class_element] *)
Definition parse_class_element (c : ctx) (has_super : bool) : prg node :=
  let? b := current_matches_identifier_or_literal (chars "constructor") in
  pcall (NMethodDefinition
    (with_super_call_allowed (has_super && b)
      (with_static_method_allowed true (with_in_method true c)))).

(** ** Methods (parser/src/method.rs) *)

(** parser/src/method.rs:17-39 [parse_method_definition] *)
Definition parse_method_definition (c : ctx) : prg node :=
  let? is_static :=
    (if c_static_method c then
       let? p := peek_matches PParenOpen in
       if negb p then maybe_consume KStatic else pret false
     else pret false) in
  let? t := current in
  let? paren := peek_matches PParenOpen in
  let? nl := followed_by_new_line in
  let other :=
    let? span_start := position in
    let? name := pcall (NPropertyName c) in
    pcall (NMethod c span_start is_static name MKMethod) in
  match t_value t with
  | VPunct PStar => pcall (NGeneratorMethod c is_static)
  | VKeyword KGet => if negb paren then pcall (NAccessor c is_static MKGet) else other
  | VKeyword KSet => if negb paren then pcall (NAccessor c is_static MKSet) else other
  | VKeyword KAsync => if negb nl then pcall (NAsyncMethod c is_static) else other
  | _ => other
  end.

(** parser/src/method.rs:42-49 [parse_generator_method] *)
Definition parse_generator_method (c : ctx) (is_static : bool) : prg node :=
  let? span_start := position in
  consume_assert PStar;?
  let? name := pcall (NPropertyName c) in
  pcall (NMethod (with_await false (with_yield true c)) span_start is_static name MKMethod).

(** parser/src/method.rs:51-61 [parse_getter_or_setter] *)
Definition parse_getter_or_setter (c : ctx) (is_static : bool) (kind : method_kind) : prg node :=
  let? span_start := position in
  consume;?
  let? name := pcall (NPropertyName c) in
  pcall (NMethod c span_start is_static name kind).

(** parser/src/method.rs:64-72 [parse_async_method] *)
Definition parse_async_method (c : ctx) (is_static : bool) : prg node :=
  let? span_start := position in
  consume_assert KAsync;?
  let? generator := maybe_consume PStar in
  let? name := pcall (NPropertyName c) in
  pcall (NMethod (with_await true (with_yield generator c)) span_start is_static name MKMethod).

Definition body_directives (b : node) : list lit_string :=
  match b with Body _ ds _ => ds | _ => [] end.

(** parser/src/method.rs:74-106 [parse_method] *)
Definition parse_method (c : ctx) (span_start : nat) (is_static : bool) (name : node)
    (kind : method_kind) : prg node :=
  let? parameters := pcall (NFormalParameters (with_yield false c)) in
  let? body := pcall (NFunctionBody c) in
  ofres (match kind with
         | MKMethod => early_errors_method parameters (body_directives body)
         | MKGet => early_errors_getter parameters
         | MKSet => early_errors_setter parameters (body_directives body)
         end);?
  let? span := span_from span_start in
  pret (Method span name kind parameters body (c_yield c) (c_await c) is_static).

(** ** Variables (parser/src/variable.rs) *)

(** parser/src/variable.rs:14-33 [parse_variable_stmt] *)
Definition parse_variable_stmt (c : ctx) (kind : variable_kind) : prg node :=
  let? t := consume in
  let? declarations :=
    match kind with
    | VKVar => pcall (NVariableDecls (with_in true c))
    | _ => pcall (NVariableDecls c)
    end in
  maybe_consume PSemiColon;?
  let? span := span_from (tstart t) in
  pret (SVariable span kind declarations).

(** parser/src/variable.rs:35-47 [parse_variable_declarations] *)
Definition parse_variable_declarations (c : ctx) : prg (list node) :=
  let? d := pcall (NVariableDecl c) in pcall (NVariableDeclsLoop c [d]).

(** The loop of parser/src/variable.rs:35-47 [parse_variable_declarations] *)
Definition parse_variable_declarations_loop (c : ctx) (acc : list node) : prg (list node) :=
  let? b := maybe_consume PComma in
  if b then
    let? d := pcall (NVariableDecl c) in pcall (NVariableDeclsLoop c (acc ++ [d]))
  else pret acc.

(** parser/src/variable.rs:49-53 [peek_matches_lexical_binding] *)
Definition peek_matches_lexical_binding (c : ctx) : prg bool :=
  let? o := peek in
  pret (value_is PBracketOpen o || value_is PBraceOpen o
        || is_identifier_token o (keyword_context c))%bool.

Definition is_bind_ident (p : node) : bool := match p with BindIdent _ => true | _ => false end.

(** parser/src/variable.rs:56-77 [parse_variable_declaration] *)
Definition parse_variable_declaration (c : ctx) : prg node :=
  let? span_start := position in
  let? pattern := pcall (NBindPattern c) in
  let? b := current_matches PEqual in
  if (negb (is_bind_ident pattern) && negb b)%bool then
    let? span := span_from span_start in
    perror (syntax_error "Missing initializer in destructuring declaration" span)
  else
    let? init := then_try b (pcall (NInitializer c)) in
    let? span := span_from span_start in
    pret (VarDecl span pattern init).

(** ** Statements (parser/src/stmt.rs) *)

(** parser/src/stmt.rs:20-31 [parse_all_stmts] *)
Definition parse_all_stmts (c : ctx) (acc : list node) : prg (list node) :=
  let? e := is_end in
  if e then pret acc else
  let? stmt := pcall (NDeclOrStmt c) in
  pcall (NAllStmts c (acc ++ [stmt])).

(** parser/src/stmt.rs:33-40 [parse_declaration_or_statement] *)
Definition parse_declaration_or_statement (c : ctx) : prg node :=
  let? decl := pcall (NDeclaration c) in
  match decl with
  | Some d => pret d
  | None => pcall (NStmt c)
  end.

(** parser/src/stmt.rs:111-128 [is_expr_stmt] *)
Definition is_expr_stmt : prg bool :=
  let? t := current in
  let? o := peek in
  pret (match t_value t with
        | VPunct PBracketOpen | VKeyword KFunction | VKeyword KClass => false
        | VKeyword KLet => negb (value_is PBraceOpen o)
        | VKeyword KAsync => if value_is KFunction o then opt_fol o else true
        | _ => true
        end).

(** The last three arms of parser/src/stmt.rs:42-67 [parse_stmt] *)
Definition parse_stmt_other (c : ctx) (t : token) : prg node :=
  let? i := is_identifier c in
  let? colon := peek_matches PColon in
  if (i && colon)%bool then pcall (NLabeled c) else
  let? b := is_expr_stmt in
  if b then pcall (NExprStmt (with_in true c)) else perror (unexpected_token t).

(** parser/src/stmt.rs:42-67 [parse_stmt] *)
Definition parse_stmt (c : ctx) : prg node :=
  let? t := current in
  match t_value t with
  | VPunct PSemiColon => pcall NEmptyStmt
  | VPunct PBracketOpen => pcall (NBlock c)
  | VKeyword KVar => pcall (NVariableStmt c VKVar)
  | VKeyword KIf => pcall (NIf c)
  | VKeyword KBreak => pcall (NBreak c)
  | VKeyword KContinue => pcall (NContinue c)
  | VKeyword KReturn => pcall (NReturn c)
  | VKeyword KWith => pcall (NWith c)
  | VKeyword KThrow => pcall (NThrow c)
  | VKeyword KTry => pcall (NTry c)
  | VKeyword KDebugger => pcall NDebugger
  | VKeyword KDo => pcall (NDoWhile c)
  | VKeyword KWhile => pcall (NWhile c)
  | VKeyword KFor => pcall (NFor c)
  | VKeyword KSwitch => pcall (NSwitch c)
  | _ => parse_stmt_other c t
  end.

(** parser/src/stmt.rs:69-107 [parse_declaration] *)
Definition parse_declaration (c : ctx) : prg (option node) :=
  let? t := current in
  let some m := (let? d := m in pret (Some d)) : prg (option node) in
  match t_value t with
  | VKeyword KFunction => some (pcall (NFunctionDecl c))
  | VKeyword KAsync =>
    let? f := peek_matches KFunction in
    if f then some (pcall (NAsyncFunctionDecl c)) else pret None
  | VKeyword KClass => some (pcall (NClassDecl (with_strict true c)))
  | VKeyword KImport =>
    if negb (c_module c)
    then perror (syntax_error "Cannot use `import` statement outside a module" (t_span t))
    else some (pcall (NImportDecl c))
  | VKeyword KExport =>
    if negb (c_module c)
    then perror (syntax_error "Cannot use `export` statement outside a module" (t_span t))
    else some (pcall (NExportDecl c))
  | VKeyword KConst => some (pcall (NVariableStmt c VKConst))
  | VKeyword KLet =>
    let? b := peek_matches_lexical_binding c in
    if b then some (pcall (NVariableStmt c VKLet)) else pret None
  | _ => pret None
  end.

(** parser/src/stmt.rs:450-456 [consume_optional_semicolon] *)
Definition consume_optional_semicolon : prg unit :=
  let? b := maybe_consume PSemiColon in
  if b then pret tt else
  let? i := can_insert_semicolon in
  if i then pret tt else
  let? t := consume in perror (unexpected_token t).

(** parser/src/stmt.rs:131-147 [parse_block_stmt] *)
Definition parse_block_stmt (c : ctx) : prg node :=
  let? span_start := position in
  consume_assert PBracketOpen;?
  let? statements := pcall (NBlockLoop c []) in
  let? span := span_from span_start in
  pret (SBlock span statements).

(** The loop of parser/src/stmt.rs:131-147 [parse_block_stmt] *)
Definition parse_block_loop (c : ctx) (acc : list node) : prg (list node) :=
  let? b := maybe_consume PBracketClose in
  if b then pret acc else
  let? stmt := pcall (NDeclOrStmt c) in
  pcall (NBlockLoop c (acc ++ [stmt])).

(** parser/src/stmt.rs:150-162 [parse_expr_stmt] *)
Definition parse_expr_stmt (c : ctx) : prg node :=
  let? span_start := position in
  let? e := pcall (NExpr (with_in true c)) in
  consume_optional_semicolon;?
  let? span := span_from span_start in
  pret (SExpr span e).

(** parser/src/stmt.rs:165-177 [parse_labeled_stmt] *)
Definition parse_labeled_stmt (c : ctx) : prg node :=
  let? span_start := position in
  let? label := pcall (NIdentifier c) in
  consume_assert PColon;?
  let? body := pcall (NStmt c) in
  let? span := span_from span_start in
  pret (SLabeled span label body).

(** parser/src/stmt.rs:180-183 [parse_empty_stmt] *)
Definition parse_empty_stmt : prg node :=
  let? t := consume_assert PSemiColon in pret (SEmpty (t_span t)).

(** parser/src/stmt.rs:186-195 [parse_break_stmt] *)
Definition parse_break_stmt (c : ctx) : prg node :=
  let? span_start := position in
  consume_assert KBreak;?
  let? ended := stmt_ended in
  let? label := then_try (negb ended) (pcall (NIdentifier c)) in
  maybe_consume PSemiColon;?
  let? span := span_from span_start in
  pret (SBreak span label).

(** parser/src/stmt.rs:198-207 [parse_continue_stmt] *)
Definition parse_continue_stmt (c : ctx) : prg node :=
  let? span_start := position in
  consume_assert KContinue;?
  let? ended := stmt_ended in
  let? label := then_try (negb ended) (pcall (NIdentifier c)) in
  maybe_consume PSemiColon;?
  let? span := span_from span_start in
  pret (SContinue span label).

(** parser/src/stmt.rs:210-231 [parse_return_stmt] *)
Definition parse_return_stmt (c : ctx) : prg node :=
  let? span_start := position in
  consume_assert KReturn;?
  if negb (c_return c) then
    let? span := span_from span_start in perror (syntax_error "Illegal return statement" span)
  else
  let? ended := stmt_ended in
  let? argument := then_try (negb ended) (pcall (NExpr (with_in true c))) in
  maybe_consume PSemiColon;?
  let? span := span_from span_start in
  pret (SReturn span argument).

(** parser/src/stmt.rs:234-260 [parse_throw_stmt] *)
Definition parse_throw_stmt (c : ctx) : prg node :=
  let? span_start := position in
  let? throw := consume_assert KThrow in
  let? r := cur_raw in
  match r with
  | Err _ => let? t := consume in perror (unexpected_token t)
  | Ok t =>
    if value_is PSemiColon (Some t) then let? t := consume in perror (unexpected_token t)
    else if t_fol t then perror (syntax_error "Illegal newline after throw" (t_span throw))
    else
      let? argument := pcall (NExpr (with_in true c)) in
      maybe_consume PSemiColon;?
      let? span := span_from span_start in
      pret (SThrow span argument)
  end.

(** parser/src/stmt.rs:263-271 [parse_debugger_stmt] *)
Definition parse_debugger_stmt : prg node :=
  let? span_start := position in
  consume_assert KDebugger;?
  maybe_consume PSemiColon;?
  let? span := span_from span_start in
  pret (SDebugger span).

(** parser/src/stmt.rs:274-295 [parse_if_stmt] *)
Definition parse_if_stmt (c : ctx) : prg node :=
  let? span_start := position in
  consume_assert KIf;?
  consume_assert PParenOpen;?
  let? condition := pcall (NExpr (with_in true c)) in
  consume_assert PParenClose;?
  let? consequent := pcall (NStmt c) in
  let? b := maybe_consume KElse in
  let? alternate := then_try b (pcall (NStmt c)) in
  let? span := span_from span_start in
  pret (SIf span condition consequent alternate).

(** parser/src/stmt.rs:298-315 [parse_with_stmt] *)
Definition parse_with_stmt (c : ctx) : prg node :=
  let? span_start := position in
  consume_assert KWith;?
  consume_assert PParenOpen;?
  let? object := pcall (NExpr c) in
  consume_assert PParenClose;?
  let? body := pcall (NStmt c) in
  let? span := span_from span_start in
  pret (SWith span object body).

(** parser/src/stmt.rs:318-347 [parse_try_stmt] ([unwrap_block_stmt] is on the result of
    parser/src/stmt.rs:131-147 [parse_block_stmt], which is always a block). *)
Definition parse_try_stmt (c : ctx) : prg node :=
  let? span_start := position in
  consume_assert KTry;?
  let? block := pcall (NBlock c) in
  let? b := current_matches KCatch in
  let? handler := then_try b (pcall (NCatch c)) in
  let? b := maybe_consume KFinally in
  let? finalizer := then_try b (pcall (NBlock c)) in
  let? span := span_from span_start in
  if (is_none handler && is_none finalizer)%bool
  then perror (syntax_error "Missing catch or finally after try" span)
  else pret (STry span block handler finalizer).

(** parser/src/stmt.rs:350-368 [parse_catch_clause] *)
Definition parse_catch_clause (c : ctx) : prg node :=
  let? span_start := position in
  consume_assert KCatch;?
  let? b := maybe_consume PParenOpen in
  let? parameter := then_try b
    (let? pattern := pcall (NBindPattern c) in consume_assert PParenClose;? pret pattern) in
  let? body := pcall (NBlock c) in
  let? span := span_from span_start in
  pret (CatchClause span parameter body).

(** parser/src/stmt.rs:371-389 [parse_switch_stmt] *)
Definition parse_switch_stmt (c : ctx) : prg node :=
  let? span_start := position in
  consume_assert KSwitch;?
  consume_assert PParenOpen;?
  let? discriminant := pcall (NExpr (with_in true c)) in
  consume_assert PParenClose;?
  let? cases := pcall (NCaseBlock c) in
  let? span := span_from span_start in
  pret (SSwitch span discriminant cases).

(** parser/src/stmt.rs:392-407 [parse_case_block] *)
Definition parse_case_block (c : ctx) : prg (list node) :=
  consume_assert PBracketOpen;?
  let? cases := pcall (NCaseBlockLoop c []) in
  consume_assert PBracketClose;?
  pret cases.

(** The loop of parser/src/stmt.rs:392-407 [parse_case_block] *)
Definition parse_case_block_loop (c : ctx) (acc : list node) : prg (list node) :=
  let? b := current_matches PBracketClose in
  if b then pret acc else
  let? cl := pcall (NCaseClause c) in
  pcall (NCaseBlockLoop c (acc ++ [cl])).

(** parser/src/stmt.rs:410-429 [parse_case_clause] *)
Definition parse_case_clause (c : ctx) : prg node :=
  let? span_start := position in
  let? b := maybe_consume KCase in
  let? test :=
    (if b then
       let? test := pcall (NExpr (with_in true c)) in
       consume_assert PColon;?
       pret (Some test)
     else
       consume_assert KDefault;?
       consume_assert PColon;?
       pret None) in
  let? consequent := pcall (NCaseStmts c []) in
  let? span := span_from span_start in
  pret (SwitchCase span test consequent).

(** parser/src/stmt.rs:431-446 [parse_switch_case_stmt_list] *)
Definition parse_switch_case_stmt_list (c : ctx) (acc : list node) : prg (list node) :=
  let? r := cur_raw in
  if (value_is PBracketClose (rok r) || value_is KCase (rok r) || value_is KDefault (rok r))%bool
  then pret acc
  else
    let? stmt := pcall (NDeclOrStmt c) in
    pcall (NCaseStmts c (acc ++ [stmt])).

(** ** Loops (parser/src/iteration.rs) *)

(** parser/src/iteration.rs:20-41 [parse_do_while_stmt] *)
Definition parse_do_while_stmt (c : ctx) : prg node :=
  let? span_start := position in
  consume_assert KDo;?
  let? body := pcall (NStmt c) in
  consume_assert KWhile;?
  consume_assert PParenOpen;?
  let? test := pcall (NExpr (with_in true c)) in
  consume_assert PParenClose;?
  maybe_consume PSemiColon;?
  let? span := span_from span_start in
  pret (SDoWhile span body test).

(** parser/src/iteration.rs:44-62 [parse_while_stmt] *)
Definition parse_while_stmt (c : ctx) : prg node :=
  let? span_start := position in
  consume_assert KWhile;?
  consume_assert PParenOpen;?
  let? test := pcall (NExpr (with_in true c)) in
  consume_assert PParenClose;?
  let? body := pcall (NStmt c) in
  let? span := span_from span_start in
  pret (SWhile span test body).

Definition msg_for_await : string := "'for await' loops must be used with 'of'".

(** parser/src/iteration.rs:85-124 [try_parse_for] *)
Definition try_parse_for (c : ctx) (span_start : nat) (asynchronous : bool) : prg (option node) :=
  let? r := ptry (NOptionalForInit c) in
  match r with
  | Err _ => pret None
  | Ok init =>
    let? b := maybe_consume PSemiColon in
    if negb b then pret None else
    if asynchronous then
      let? span := span_from span_start in perror (syntax_error msg_for_await span)
    else
    let? b := current_matches PSemiColon in
    let? test := then_try (negb b) (pcall (NExpr (with_in true c))) in
    consume_assert PSemiColon;?
    let? b := current_matches PParenClose in
    let? update := then_try (negb b) (pcall (NExpr (with_in true c))) in
    consume_assert PParenClose;?
    let? body := pcall (NStmt c) in
    let? span := span_from span_start in
    pret (Some (SFor span init test update body))
  end.

(** parser/src/iteration.rs:65-80 [parse_for_stmt] *)
Definition parse_for_stmt (c : ctx) : prg node :=
  let? span_start := position in
  consume_assert KFor;?
  let? asynchronous := (if c_await c then maybe_consume KAwait else pret false) in
  consume_assert PParenOpen;?
  let? start_token := current in
  let? o := try_parse_for c span_start asynchronous in
  match o with
  | Some stmt => pret stmt
  | None =>
    pop (ORewind start_token);?
    pcall (NForInOf c span_start asynchronous)
  end.

(** parser/src/iteration.rs:128-148 [parse_for_in_of] *)
Definition parse_for_in_of (c : ctx) (span_start : nat) (asynchronous : bool) : prg node :=
  let? declaration := pcall (NForDeclaration c) in
  let? t := current in
  match t_value t with
  | VKeyword KOf => pcall (NForOf c span_start declaration asynchronous)
  | VKeyword KIn =>
    if asynchronous then
      let? span := span_from span_start in perror (syntax_error msg_for_await span)
    else pcall (NForIn c span_start declaration)
  | _ => let? t := consume in perror (unexpected_token t)
  end.

(** parser/src/iteration.rs:150-166 [parse_for_in] *)
Definition parse_for_in (c : ctx) (span_start : nat) (left : node) : prg node :=
  consume_assert KIn;?
  let? right := pcall (NExpr (with_in true c)) in
  consume_assert PParenClose;?
  let? body := pcall (NStmt c) in
  let? span := span_from span_start in
  pret (SForIn span left right body).

(** parser/src/iteration.rs:168-190 [parse_for_of] *)
Definition parse_for_of (c : ctx) (span_start : nat) (left : node) (asynchronous : bool) : prg node :=
  consume_assert KOf;?
  let? right := pcall (NExpr (with_in true c)) in
  consume_assert PParenClose;?
  let? body := pcall (NStmt c) in
  let? span := span_from span_start in
  pret (SForOf span left right body asynchronous).

(** parser/src/iteration.rs:261-276 [parse_optional_variable_kind] *)
Definition parse_optional_variable_kind (c : ctx) : prg (option variable_kind) :=
  let? t := current in
  let? lex := peek_matches_lexical_binding c in
  match t_value t with
  | VKeyword KVar => consume;? pret (Some VKVar)
  | VKeyword KLet => if lex then consume;? pret (Some VKLet) else pret None
  | VKeyword KConst => consume;? pret (Some VKConst)
  | _ => pret None
  end.

(** parser/src/iteration.rs:193-218 [parse_for_declaration] *)
Definition parse_for_declaration (c : ctx) : prg node :=
  let? span_start := position in
  let? kind := parse_optional_variable_kind c in
  match kind with
  | Some kind =>
    let? binding := pcall (NBindPattern c) in
    let? span := span_from span_start in
    pret (ForBinding span kind binding)
  | None =>
    let? t := current in
    match t_value t with
    | VPunct PBraceOpen | VPunct PBracketOpen => pcall (NAsgPattern c)
    | _ =>
      let? e := pcall (NLeftHandSide c) in
      ofres (early_errors_left_hand_side_expr c e);?
      pret e
    end
  end.

(** parser/src/iteration.rs:222-228 [parse_optional_for_init] *)
Definition parse_optional_for_init (c : ctx) : prg (option node) :=
  let? b := current_matches PSemiColon in
  if b then pret None else
  let? i := pcall (NForInit c) in pret (Some i).

(** parser/src/iteration.rs:230-242 [parse_for_init] *)
Definition parse_for_init (c : ctx) : prg node :=
  let? span_start := position in
  let? kind := parse_optional_variable_kind c in
  match kind with
  | Some kind => pcall (NForInitDecl c span_start kind)
  | None => pcall (NExpr (with_in false c))
  end.

(** parser/src/iteration.rs:244-259 [parse_for_init_variable_declaration] *)
Definition parse_for_init_variable_declaration (c : ctx) (span_start : nat) (kind : variable_kind)
  : prg node :=
  let? declarations := pcall (NVariableDecls (with_in false c)) in
  let? span := span_from span_start in
  pret (SVariable span kind declarations).

(** ** Modules (parser/src/module.rs) *)

(** parser/src/module.rs:19-37 [parse_export_declaration] *)
Definition parse_export_declaration (c : ctx) : prg node :=
  let? span_start := position in
  consume_assert KExport;?
  let? r := cur_raw in
  let unexpected := let? t := consume in perror (unexpected_token t) in
  match r with
  | Ok t =>
    match t_value t with
    | VPunct PBracketOpen => pcall (NNamedExport span_start)
    | VPunct PStar => pcall (NNamespaceExport span_start)
    | VKeyword KVar => pcall (NVarExport c span_start)
    | VKeyword KLet | VKeyword KConst | VKeyword KFunction | VKeyword KClass =>
      pcall (NDeclExport c span_start)
    | VKeyword KAsync =>
      let? f := peek_matches KFunction in
      if f then pcall (NDeclExport c span_start) else unexpected
    | VKeyword KDefault => pcall (NDefaultExport c span_start)
    | _ => unexpected
    end
  | Err _ => unexpected
  end.

(** parser/src/module.rs:39-61 [parse_default_export] *)
Definition parse_default_export (c : ctx) (span_start : nat) : prg node :=
  consume_assert KDefault;?
  let? t := current in
  let? f := peek_matches KFunction in
  if (value_is KClass (Some t) || value_is KFunction (Some t)
      || (value_is KAsync (Some t) && f))%bool then
    pcall (NDeclDefaultExport (with_default true c) span_start)
  else
    let? e := pcall (NAssignment (with_in true c)) in
    consume_optional_semicolon;?
    let? span := span_from span_start in
    pret (XDefaultExpr span e).

(** parser/src/module.rs:64-72 [parse_varible_statement_export] *)
Definition parse_varible_statement_export (c : ctx) (span_start : nat) : prg node :=
  let? stmt := pcall (NVariableStmt c VKVar) in
  let? span := span_from span_start in
  pret (XDecl span stmt).

(** parser/src/module.rs:75-83 [parse_declaration_export] *)
Definition parse_declaration_export (c : ctx) (span_start : nat) : prg node :=
  let? decl := pcall (NRequiredDecl c) in
  let? span := span_from span_start in
  pret (XDecl span decl).

(** parser/src/module.rs:86-94 [parse_declaration_default_export] *)
Definition parse_declaration_default_export (c : ctx) (span_start : nat) : prg node :=
  let? decl := pcall (NRequiredDecl c) in
  let? span := span_from span_start in
  pret (XDefaultDecl span decl).

(** parser/src/module.rs:96-104 [parse_required_declaration] *)
Definition parse_required_declaration (c : ctx) : prg node :=
  let? decl := pcall (NDeclaration c) in
  match decl with
  | Some d => pret d
  | None =>
    let? p := position in
    let? span := span_from p in perror (syntax_error "Expected statement" span)
  end.

(** parser/src/module.rs:107-117 [parse_namespace_export] *)
Definition parse_namespace_export (span_start : nat) : prg node :=
  consume_assert PStar;?
  let? b := maybe_consume KAs in
  let? alias := then_try b (pcall NIdentifierName) in
  consume_assert KFrom;?
  let? from := pcall NModuleSpecifier in
  consume_optional_semicolon;?
  let? span := span_from span_start in
  pret (XNamespace span alias from).

(** parser/src/module.rs:120-133 [parse_named_export] *)
Definition parse_named_export (span_start : nat) : prg node :=
  let? named := pcall NNamedExports in
  let? b := maybe_consume KFrom in
  let? from := then_try b (pcall NModuleSpecifier) in
  consume_optional_semicolon;?
  let? span := span_from span_start in
  pret (XNamed span named from).

(** parser/src/module.rs:136-161 [parse_import_declaration] *)
Definition parse_import_declaration (c : ctx) : prg node :=
  let? span_start := position in
  consume_assert KImport;?
  let? b := current_matches_string_literal in
  if b then pcall (NModuleImport span_start) else
  let? clause := pcall (NImportClause c) in
  consume_assert KFrom;?
  let? from := pcall NModuleSpecifier in
  consume_optional_semicolon;?
  let? span := span_from span_start in
  pret (SImport span (ic_default clause) (ic_namespace clause) (ic_named clause) from).

(** parser/src/module.rs:164-185 [parse_import_clause] *)
Definition parse_import_clause (c : ctx) : prg import_clause :=
  let? i := is_identifier c in
  let? default_binding := then_try i (pcall (NIdentifier c)) in
  let? more := (if is_none default_binding then pret true else maybe_consume PComma) in
  if more then
    let? r := cur_raw in
    if value_is PStar (rok r) then
      let? ns := pcall (NNamespaceImport c) in
      pret (mk_import_clause default_binding (Some ns) None)
    else if value_is PBracketOpen (rok r) then
      let? named := pcall (NNamedImports c) in
      pret (mk_import_clause default_binding None (Some named))
    else let? t := consume in perror (unexpected_token t)
  else pret (mk_import_clause default_binding None None).

(** parser/src/module.rs:187-200 [parse_module_import] *)
Definition parse_module_import (span_start : nat) : prg node :=
  let? from := pcall NModuleSpecifier in
  consume_optional_semicolon;?
  let? span := span_from span_start in
  pret (SImport span None None None from).

(** parser/src/module.rs:203-210 [parse_module_specifier]: [unwrap_string] panics on any other literal. *)
Definition parse_module_specifier : prg lit_string :=
  let? l := parse_literal in
  match l with
  | ELiteral _ (LitString s) => pret s
  | _ => Panic
  end.

(** parser/src/module.rs:213-217 [parse_namespace_import] *)
Definition parse_namespace_import (c : ctx) : prg ident :=
  consume_assert PStar;?
  consume_assert KAs;?
  pcall (NIdentifier c).

(** parser/src/module.rs:220-235 [parse_named_imports] *)
Definition parse_named_imports (c : ctx) : prg (list node) :=
  consume_assert PBracketOpen;? pcall (NNamedImportsLoop c []).

(** The loop of parser/src/module.rs:220-235 [parse_named_imports] *)
Definition parse_named_imports_loop (c : ctx) (acc : list node) : prg (list node) :=
  let? b := current_matches PBracketClose in
  if b then consume;? pret acc else
  let? i := pcall (NImportSpecifier c) in
  consume_list_delimiter PBracketClose;?
  pcall (NNamedImportsLoop c (acc ++ [i])).

(** parser/src/module.rs:238-246 [parse_import_specifier] *)
Definition parse_import_specifier (c : ctx) : prg node :=
  let? span_start := position in
  let? name := pcall NIdentifierName in
  let? b := maybe_consume KAs in
  let? alias := then_try b (pcall (NIdentifier c)) in
  let? span := span_from span_start in
  pret (NamedImport span name alias).

(** parser/src/module.rs:249-264 [parse_named_exports] *)
Definition parse_named_exports : prg (list node) :=
  consume_assert PBracketOpen;? pcall (NNamedExportsLoop []).

(** The loop of parser/src/module.rs:249-264 [parse_named_exports] *)
Definition parse_named_exports_loop (acc : list node) : prg (list node) :=
  let? b := current_matches PBracketClose in
  if b then consume;? pret acc else
  let? e := pcall NExportSpecifier in
  consume_list_delimiter PBracketClose;?
  pcall (NNamedExportsLoop (acc ++ [e])).

(** parser/src/module.rs:266-283 [parse_export_specifier] *)
Definition parse_export_specifier : prg node :=
  let? span_start := position in
  let? name := pcall NIdentifierName in
  let? b := maybe_consume KAs in
  let? alias := then_try b (pcall NIdentifierName) in
  let? span := span_from span_start in
  pret (match alias with
        | Some alias => NamedExport span alias (Some name)
        | None => NamedExport span name None
        end).

(** ** The table of methods *)

Definition body (B : Set) (n : nt B) : prg B :=
  match n in nt B return prg B with
  | NIdentifier c => parse_identifier c
  | NIdentifierName => parse_identifier_name
  | NPropertyName c => parse_property_name c
  | NDirectives c acc => parse_directive_prologue c acc
  | NProgram c => parse_program c
  | NCoverParen c => parse_cover_parenthesized_and_arrow_parameters c
  | NCoverAsync c => parse_cover_call_or_async_arrow_head c
  | NCoveredCall c => parse_covered_call_expression c
  | NExpr c => parse_expr c
  | NSequence c start acc => parse_expr_sequence c start acc
  | NAssignment c => parse_assignment_expr c
  | NConditionalOrArrow c => parse_conditional_expr_or_arrow_function c
  | NAssignmentAsync c => parse_assignment_expr_async c
  | NAssignRight c start lhs o => parse_assignment c start lhs o
  | NParenthesized c => parse_parenthesized_expr c
  | NYield c => parse_yield_expr c
  | NConditional c => parse_conditional_expr c
  | NUnary c => parse_unary_expr c
  | NUnaryOp c start o => parse_unary_expr_with_operator c start o
  | NAwait c => parse_await_expr c
  | NUpdate c => parse_update_expr c
  | NPrefixUpdate c start o => parse_prefix_update_expr c start o
  | NLeftHandSide c => parse_left_hand_side_expr c
  | NRecursiveCall c start e => parse_recursive_call_expression c start e
  | NCallExpr c start callee => parse_call_expr c start callee
  | NSuperCall c => parse_super_call_expr c
  | NImportCall c => parse_import_call_expr c
  | NImportArgument c => parse_import_argument c
  | NNewOrMember c => parse_new_or_member_expr c
  | NNewOrMemberLoop c start e => parse_new_or_member_loop c start e
  | NTaggedTemplate c start callee => parse_tagged_template c start callee
  | NMemberTerminal c => parse_member_expr_from_terminal c
  | NNewExpr c => parse_new_expr c
  | NSuperProperty c => parse_super_property c
  | NImportMeta c => parse_import_meta c
  | NNewTarget c => parse_new_target c
  | NArguments c => parse_arguments c
  | NArgumentsLoop c acc => parse_arguments_loop c acc
  | NArgument c => parse_argument c
  | NOptionalArguments c => parse_optional_arguments c
  | NPrimary c => parse_primary_expr c
  | NInitializer c => parse_initializer c
  | NBinary c l => parse_binary c l
  | NBinaryLoop c l start e => parse_binary_loop c l start e
  | NTemplateExpr c => parse_template_literal_expr c
  | NTemplate c => parse_template_literal c
  | NTemplateParts c acc => parse_template_literal_parts c acc
  | NArrayLiteral c => parse_array_literal c
  | NArrayLoop c acc => parse_array_loop c acc
  | NArrayElement c => parse_array_element c
  | NObjectLiteral c => parse_object_literal c
  | NObjectLoop c acc => parse_object_loop c acc
  | NPropertyDefinition c => parse_property_definition c
  | NComputedDefinition c => parse_property_definition_with_computed_name c
  | NNamedDefinition c start name => parse_named_property_definition c start name
  | NMemberRight c start lhs => parse_member_expr_right_side c start lhs
  | NOptionalExpr c start object => parse_optional_expr c start object
  | NOptionalCall c start callee => parse_optional_call_expr c start callee
  | NOptionalMember c start object => parse_optional_member_expr c start object
  | NOptionalMemberProperty c => parse_optional_member_property c
  | NMemberProperty c => parse_member_property c
  | NComputedProperty c => parse_computed_property c
  | NAsgPattern c => parse_assignment_pattern c
  | NArrayAsg c => parse_array_assignment_pattern c
  | NArrayAsgLoop c acc => parse_array_assignment_loop c acc
  | NAsgElement c => parse_assignment_element c
  | NAsgTarget c => parse_destructuring_assignment_target c
  | NObjectAsg c => parse_object_assignment_pattern c
  | NObjectAsgLoop c acc => parse_object_assignment_loop c acc
  | NNamedAsg c => parse_named_assignment_prop c
  | NSingleAsg c => parse_single_name_assignment_prop c
  | NBindPattern c => parse_binding_pattern c
  | NObjectBind c => parse_object_binding_pattern c
  | NObjectBindLoop c acc => parse_object_binding_loop c acc
  | NSingleBind c => parse_single_name_binding c
  | NNamedBind c => parse_named_binding c
  | NArrayBind c => parse_array_binding_pattern c
  | NArrayBindLoop c acc => parse_array_binding_loop c acc
  | NBindElement c => parse_binding_element c
  | NBindRest c => parse_binding_rest_element c
  | NRestBind c expected_end => parse_rest_binding_ident c expected_end
  | NArrowExpr c => parse_arrow_function_expr c
  | NAsyncArrowExpr c => parse_async_arrow_function_expr c
  | NArrow c start asynchronous => parse_arrow_function c start asynchronous
  | NArrowParameters c => parse_arrow_function_parameters c
  | NConciseBody c => parse_concise_body c
  | NArrowIdent c => parse_arrow_identifier_argument c
  | NFunctionExpr c => parse_function_expr c
  | NAsyncFunctionExpr c => parse_async_function_expr c
  | NFunctionContent c start => parse_function_expr_content c start
  | NFunctionDecl c => parse_function_declaration c
  | NAsyncFunctionDecl c => parse_async_function_declaration c
  | NFunctionDeclContent c start i => parse_function_decl_content c start i
  | NFunctionIdentifier c => parse_function_identifier c
  | NFormalParameters c => parse_formal_parameters c
  | NFormalLoop c acc => parse_formal_loop c acc
  | NFunctionBody c => parse_function_body c
  | NBodyStmts c acc => parse_function_body_stmt_list c acc
  | NClassDecl c => parse_class_decl c
  | NClassIdentifier c => parse_optional_class_identifier c
  | NClassExpr c => parse_class_expr c
  | NClassTail c => parse_class_tail c
  | NClassBody c has_super => parse_class_body c has_super
  | NClassBodyLoop c has_super acc => parse_class_body_loop c has_super acc
  | NClassElement c has_super => parse_class_element c has_super
  | NMethodDefinition c => parse_method_definition c
  | NGeneratorMethod c is_static => parse_generator_method c is_static
  | NAccessor c is_static kind => parse_getter_or_setter c is_static kind
  | NAsyncMethod c is_static => parse_async_method c is_static
  | NMethod c start is_static name kind => parse_method c start is_static name kind
  | NVariableStmt c kind => parse_variable_stmt c kind
  | NVariableDecls c => parse_variable_declarations c
  | NVariableDeclsLoop c acc => parse_variable_declarations_loop c acc
  | NVariableDecl c => parse_variable_declaration c
  | NAllStmts c acc => parse_all_stmts c acc
  | NDeclOrStmt c => parse_declaration_or_statement c
  | NStmt c => parse_stmt c
  | NDeclaration c => parse_declaration c
  | NBlock c => parse_block_stmt c
  | NBlockLoop c acc => parse_block_loop c acc
  | NExprStmt c => parse_expr_stmt c
  | NLabeled c => parse_labeled_stmt c
  | NEmptyStmt => parse_empty_stmt
  | NBreak c => parse_break_stmt c
  | NContinue c => parse_continue_stmt c
  | NReturn c => parse_return_stmt c
  | NThrow c => parse_throw_stmt c
  | NDebugger => parse_debugger_stmt
  | NIf c => parse_if_stmt c
  | NWith c => parse_with_stmt c
  | NTry c => parse_try_stmt c
  | NCatch c => parse_catch_clause c
  | NSwitch c => parse_switch_stmt c
  | NCaseBlock c => parse_case_block c
  | NCaseBlockLoop c acc => parse_case_block_loop c acc
  | NCaseClause c => parse_case_clause c
  | NCaseStmts c acc => parse_switch_case_stmt_list c acc
  | NDoWhile c => parse_do_while_stmt c
  | NWhile c => parse_while_stmt c
  | NFor c => parse_for_stmt c
  | NForInOf c start asynchronous => parse_for_in_of c start asynchronous
  | NForIn c start lhs => parse_for_in c start lhs
  | NForOf c start lhs asynchronous => parse_for_of c start lhs asynchronous
  | NForDeclaration c => parse_for_declaration c
  | NOptionalForInit c => parse_optional_for_init c
  | NForInit c => parse_for_init c
  | NForInitDecl c start kind => parse_for_init_variable_declaration c start kind
  | NExportDecl c => parse_export_declaration c
  | NDefaultExport c start => parse_default_export c start
  | NVarExport c start => parse_varible_statement_export c start
  | NDeclExport c start => parse_declaration_export c start
  | NDeclDefaultExport c start => parse_declaration_default_export c start
  | NRequiredDecl c => parse_required_declaration c
  | NNamespaceExport start => parse_namespace_export start
  | NNamedExport start => parse_named_export start
  | NImportDecl c => parse_import_declaration c
  | NImportClause c => parse_import_clause c
  | NModuleImport start => parse_module_import start
  | NModuleSpecifier => parse_module_specifier
  | NNamespaceImport c => parse_namespace_import c
  | NNamedImports c => parse_named_imports c
  | NNamedImportsLoop c acc => parse_named_imports_loop c acc
  | NImportSpecifier c => parse_import_specifier c
  | NNamedExports => parse_named_exports
  | NNamedExportsLoop acc => parse_named_exports_loop acc
  | NExportSpecifier => parse_export_specifier
  end.

(** ** Entry points (parser/src/lib.rs:55-73, 160-213) *)

Inductive target : Set := TExpr | TStmt | TProgram.

(** parser/src/lib.rs:160-213: the [Parse] implementations. *)
Definition entry (tg : target) (m : bool) : nt node :=
  match tg with
  | TExpr => NExpr (with_in true (ctx_default m))
  | TStmt => NDeclOrStmt (ctx_default m)
  | TProgram => NProgram (ctx_default m)
  end.

(** parser/src/lib.rs:62-73: [parse::<T>(source, source_type)]; [m] is
    [source_type == Module].  [fuel] bounds the recursion depth. *)
Definition parse_fuel (fuel : nat) (tg : target) (source : str) (m : bool) : out node :=
  match pst_new source m with
  | SDone _ s => run body fuel node (entry tg m) s
  | SPanic => OPanic
  | SFuel => OFuel
  end.

End WithPlatform.
