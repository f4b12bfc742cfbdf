(** * Written: how programs are written (the specification of C41).

    A grammar of the language, independent of the parser: [G k c ts x] says
    that the tokens [ts] are a [k] (an expression, a statement, a list of
    parameters ..), in the context [c], and what tree it stands for.  Trees
    carry no positions ([Bare.z]).  Of a token only the value and "first on
    its line" matter.

    The context is the record of flags of [Parser.v]: are we in an async
    function or generator, is a top-level [in] an operator, is the code strict,
    and so on.

    A regular expression comes as two tokens, the [/] or [/=] it starts with and the whole of it;
    so does the rest of a template after a substitution (Source.v).

    What the grammar leaves out is listed in DESIGN.md (C41): names [let] and [async] as
    expressions, [yield] without an operand, .. *)

From Verif Require Import Base Tokens Ast Source Parser AstSpec Layout Bare.
Local Open Scope string_scope.
Local Open Scope list_scope.

(** ** Tokens *)

Definition pu (p : punct) (t : token) : Prop := t_value t = VPunct p.
Definition kw (k : keyword) (t : token) : Prop := t_value t = VKeyword k.

(** The keywords that may be used as names. *)
Definition usable (c : ctx) (k : keyword) : bool :=
  match k with
  | KAs | KAsync | KFrom | KGet | KOf | KSet | KTarget => true
  | KAwait => negb (c_await c)
  | KYield => negb (c_yield c) && negb (c_strict c)
  | KImplements | KInterface | KLet | KPackage | KPrivate | KProtected | KPublic | KStatic => negb (c_strict c)
  | _ => false
  end.

Definition name (c : ctx) (x : str) (t : token) : Prop :=
  t_value t = VIdentifier x \/ exists k, t_value t = VKeyword k /\ usable c k = true /\ x = keyword_str k.
(** Any identifier or keyword (after a dot, or as the name of a property). *)
Definition anyname (x : str) (t : token) : Prop :=
  t_value t = VIdentifier x \/ exists k, t_value t = VKeyword k /\ x = keyword_str k.
Definition id (x : str) : ident := mk_ident z x.

(** A token after which, on the same line or the next, an expression goes on. *)
Definition continues (t : token) : bool :=
  match t_value t with
  | VPunct PDoublePlus | VPunct PDoubleMinus => negb (t_fol t)
  | VPunct (PParenClose | PBraceClose | PBracketOpen | PBracketClose | PTripleDot | PSemiColon | PExclamation
            | PTilde | PColon) => false
  | VPunct _ => true
  | VKeyword KIn | VKeyword KInstanceof => true
  | VLiteral (TLTemplate _) | VTemplateHead _ => true
  | _ => false
  end.

(** The end of a statement: a semicolon, or none if one is inserted.  [nx] is
    the token after it. *)
Definition inserted (nx : option token) : Prop :=
  match nx with
  | None => True
  | Some t => (pu PBracketClose t \/ t_fol t = true) /\ ~ pu PSemiColon t /\ ~ pu PColon t
  end.
(** (No statement starts with a semicolon that could end this one, or with a colon.) *)
Definition ends (ts : list token) (nx : option token) : Prop :=
  (exists t, ts = [t] /\ pu PSemiColon t) \/ (ts = [] /\ inserted nx).
(** The same after an expression. *)
Definition ends_expr (ts : list token) (nx : option token) : Prop :=
  (exists t, ts = [t] /\ pu PSemiColon t) \/
  (ts = [] /\ inserted nx /\ match nx with Some t => continues t = false | None => True end).

Definition first (ts : list token) (nx : option token) : option token :=
  match ts with t :: _ => Some t | [] => nx end.
(** The first token is not one of these. *)
Definition not_first (l : list tvalue) (ts : list token) : Prop :=
  match ts with t :: _ => ~ In (t_value t) l | [] => False end.

(** ** Trees *)

(** What can be assigned to. *)
Fixpoint target_ok (strict : bool) (n : node) : Prop :=
  match n with
  | EIdentRef i => strict = true -> id_name i <> chars "eval" /\ id_name i <> chars "arguments"
  | EMember _ _ _ => True
  | EParenthesized _ n' => target_ok strict n'
  | _ => False
  end.

(** The text between the substitutions of a template; empty text is left out. *)
Definition text (s : str) : list node := match s with [] => [] | _ => [TplString s] end.

Definition is_new (n : node) : bool := match n with ENew _ _ _ _ => true | _ => false end.
(** [new new a], with or without arguments. *)
Definition double_new (n : node) : bool := match n with ENew _ f _ _ => is_new f | _ => false end.

(** ** Contexts *)

Definition fun_ctx (asynchronous generator : bool) (c : ctx) : ctx :=
  with_super_call_allowed false (with_in_method false (with_await asynchronous (with_yield generator c))).
Definition arrow_ctx (asynchronous : bool) (c : ctx) : ctx :=
  with_await asynchronous (with_in (c_in c) (reset_parameters c)).
Definition body_ctx (ds : list lit_string) (c : ctx) : ctx :=
  with_return true (with_strict (c_strict c || use_strict ds) c).
Definition member_ctx (super_call static_allowed : bool) (c : ctx) : ctx :=
  with_super_call_allowed super_call (with_static_method_allowed static_allowed (with_in_method true c)).

(** ** Categories *)

Inductive cat : Set :=
| CE (k : nat)        (* an expression of precedence [k] (see [AstSpec.prec]) or more; 18: a member expression, 19: a primary expression *)
| CNew                (* a member expression, or [new] without arguments *)
| CCall               (* a call, or a member of one *)
| COpt                (* an optional chain *)
| CArgs               (* arguments and the closing parenthesis *)
| CArg
| CElems              (* elements of an array and the closing bracket *)
| CElem
| CTpl                (* the rest of a template after [${] *)
| CProps              (* properties of an object literal and the closing brace *)
| CProp
| CName               (* the name of a property *)
| CSeq                (* one or more assignment expressions separated by commas *)
| CPat                (* a binding pattern *)
| CBind               (* a pattern with an optional initial value *)
| CInit               (* an optional initial value *)
| CPats               (* elements of an array pattern and the closing bracket *)
| CBProps             (* properties of an object pattern and the closing brace *)
| CBProp
| CAsg                (* an assignment pattern *)
| CAsgTarget          (* what is assigned to in one: a pattern, a variable or a member *)
| CAsgElem            (* the same with an optional initial value *)
| CAsgs               (* elements of an array assignment pattern and the closing bracket *)
| CAsgProps           (* properties of an object assignment pattern and the closing brace *)
| CAsgProp
| CAsgSeq             (* elements, separated by commas *)
| CParams             (* parameters and the closing parenthesis *)
| CBody               (* the body of a function, with braces *)
| CConcise            (* the body of an arrow function *)
| CHeritage
| CMembers (derived : bool) (* the members of a class and the closing brace *)
| CMethod (is_static : bool)
| CDecls              (* declarations, separated by commas *)
| CDecl
| CVar (nx : option token) (kind : variable_kind)   (* the statement they make *)
| CHoist              (* the declaration of a function or class *)
| CLex (nx : option token)     (* the same, or [let] or [const] *)
| CForInit            (* what comes before the first semicolon in [for (;;)] *)
| COptE               (* an optional expression *)
| CForLeft            (* what comes before [in] or [of] *)
| CStmt (nx : option token)    (* a statement; [nx] comes after it *)
| CItem (nx : option token)    (* a statement or declaration *)
| CItems (nx : option token)
| CTop (nx : option token)     (* the same, or [import] or [export] *)
| CTops (nx : option token)
| CDirs (nx : option token)    (* directives *)
| CNoDir (nx : option token)   (* what comes after the directives *)
| CBlock              (* statements in braces *)
| CCatch | CFinally
| CCases              (* the cases of a [switch] and the closing brace *)
| CClause             (* what an import declaration imports *)
| CImports | CExports (* specifiers and the closing brace *)
| CImport | CExport
| CProgram.

Inductive res : Set :=
| N (n : node)
| NS (l : list node)
| OP (o : option node)
| NR (l : list node) (r : option node)
| OR (l : list (option node)) (r : option node)
| DS (l : list lit_string)
| IC (def : option ident) (namespace : option ident) (named : option (list node)).

Definition optname (c : ctx) (o : option ident) (ts : list token) : Prop :=
  (o = None /\ ts = []) \/ exists x t, o = Some (id x) /\ ts = [t] /\ name c x t.
(** The name of a declaration (of a default export, there may be none). *)
Definition dname (c : ctx) (x : str) (ts : list token) : Prop :=
  (exists t, ts = [t] /\ name c x t) \/ (c_default c = true /\ ts = [] /\ x = []).
Definition star (b : bool) (ts : list token) : Prop :=
  if b then exists t, ts = [t] /\ pu PStar t else ts = [].

Definition str_tok (s : lit_string) (t : token) : Prop :=
  t_value t = VLiteral (TLString (ls_value s) (ls_delimiter s)).
Definition is_str (t : token) : bool :=
  match t_value t with VLiteral (TLString _ _) => true | _ => false end.
(** A token that names a constructor. *)
Definition says_constructor (t : token) : bool :=
  match t_value t with
  | VIdentifier x | VLiteral (TLString x _) => str_eqb (chars "constructor") x
  | _ => false
  end.

(** What must hold of the parameters of a method with the directives [ds]. *)
Definition method_ok (p : list node) (r : option node) (ds : list lit_string) : Prop :=
  NoDup (params_names (FormalParameters z p r)) /\
  (use_strict ds = true -> simple_params (FormalParameters z p r)).

(** ** The grammar *)

Inductive G : cat -> ctx -> list token -> res -> Prop :=

(* --- expressions, from the tightest to the loosest --- *)
| g_up k c ts a : k < 16 -> G (CE (S k)) c ts (N a) -> G (CE k) c ts (N a)

(* primary *)
| g_ident c x t : name c x t -> ~ kw KLet t -> ~ kw KAsync t -> G (CE 19) c [t] (N (EIdentRef (id x)))
| g_this c t : kw KThis t -> G (CE 19) c [t] (N (EThis z))
| g_null c t : kw KNull t -> G (CE 19) c [t] (N (ELiteral z LitNull))
| g_true c t : kw KTrue t -> G (CE 19) c [t] (N (ELiteral z (LitBoolean true)))
| g_false c t : kw KFalse t -> G (CE 19) c [t] (N (ELiteral z (LitBoolean false)))
| g_number c t r : t_value t = VLiteral (TLNumber r) -> G (CE 19) c [t] (N (ELiteral z (LitNumber r)))
| g_string c t s : str_tok s t -> G (CE 19) c [t] (N (ELiteral z (LitString s)))
| g_template c t s : t_value t = VLiteral (TLTemplate s) ->
    G (CE 19) c [t] (N (ELiteral z (LitTemplate [TplString s])))
| g_template_head c t s ts l : t_value t = VTemplateHead s -> G CTpl c ts (NS l) ->
    G (CE 19) c (t :: ts) (N (ELiteral z (LitTemplate (text s ++ l))))
| g_regexp c o t s : pu PSlash o \/ pu PSlashEqual o -> t_value t = VLiteral (TLRegexp s) ->
    G (CE 19) c [o; t] (N (ELiteral z (LitRegexp s)))
| g_paren c o ts cl a : pu PParenOpen o -> G (CE 0) (with_in true c) ts (N a) -> pu PParenClose cl ->
    G (CE 19) c (o :: ts ++ [cl]) (N (EParenthesized z a))
| g_array c o ts l : pu PBraceOpen o -> G CElems c ts (NS l) -> G (CE 19) c (o :: ts) (N (ELiteral z (LitArray l)))
| g_object c o ts l : pu PBracketOpen o -> G CProps c ts (NS l) ->
    G (CE 19) c (o :: ts) (N (ELiteral z (LitObject l)))
| g_function c f gt g nt x o ps p r bs b :
    kw KFunction f -> star g gt -> optname (fun_ctx false g c) x nt -> pu PParenOpen o ->
    G CParams (fun_ctx false g c) ps (NR p r) -> G CBody (fun_ctx false g c) bs (N b) ->
    G (CE 19) c (f :: gt ++ nt ++ o :: ps ++ bs) (N (EFunction z false g x (FormalParameters z p r) b))
| g_async_function c s f gt g nt x o ps p r bs b :
    kw KAsync s -> kw KFunction f -> t_fol f = false -> star g gt -> optname (fun_ctx true g c) x nt -> pu PParenOpen o ->
    G CParams (fun_ctx true g c) ps (NR p r) -> G CBody (fun_ctx true g c) bs (N b) ->
    G (CE 19) c (s :: f :: gt ++ nt ++ o :: ps ++ bs) (N (EFunction z true g x (FormalParameters z p r) b))
| g_class c t nt x hs h o ms l :
    kw KClass t -> optname (with_strict true c) x nt -> G CHeritage (with_strict true c) hs (OP h) ->
    pu PBracketOpen o -> G (CMembers (is_some h)) (with_strict true c) ms (NS l) ->
    G (CE 19) c (t :: nt ++ hs ++ o :: ms) (N (EClass z x h l))

(* member *)
| g_primary c ts a : G (CE 19) c ts (N a) -> G (CE 18) c ts (N a)
| g_dot c ts a d t x : G (CE 18) c ts (N a) -> pu PDot d -> anyname x t ->
    G (CE 18) c (ts ++ [d; t]) (N (EMember z a (PropIdent (id x))))
| g_index c ts a o es e cl : G (CE 18) c ts (N a) -> pu PBraceOpen o -> G (CE 0) (with_in true c) es (N e) ->
    pu PBraceClose cl -> G (CE 18) c (ts ++ o :: es ++ [cl]) (N (EMember z a (PropExpr e)))
| g_tagged c ts a t s : G (CE 18) c ts (N a) -> t_value t = VLiteral (TLTemplate s) ->
    G (CE 18) c (ts ++ [t]) (N (ETaggedTemplate z a (LitTemplate [TplString s])))
| g_tagged_head c ts a t s us l : G (CE 18) c ts (N a) -> t_value t = VTemplateHead s -> G CTpl c us (NS l) ->
    G (CE 18) c (ts ++ t :: us) (N (ETaggedTemplate z a (LitTemplate (text s ++ l))))
| g_new_args c n ts a o bs l : kw KNew n -> G (CE 18) c ts (N a) -> pu PParenOpen o -> G CArgs c bs (NS l) ->
    G (CE 18) c (n :: ts ++ o :: bs) (N (ENew z a (Some z) l))
| g_super_dot c s d t x : c_in_method c = true -> kw KSuper s -> pu PDot d -> anyname x t ->
    G (CE 18) c [s; d; t] (N (EMember z (ObjSuper z) (PropIdent (id x))))
| g_super_index c s o es e cl : c_in_method c = true -> kw KSuper s -> pu PBraceOpen o ->
    G (CE 0) (with_in true c) es (N e) -> pu PBraceClose cl ->
    G (CE 18) c (s :: o :: es ++ [cl]) (N (EMember z (ObjSuper z) (PropExpr e)))
| g_new_target c n d t : kw KNew n -> pu PDot d -> kw KTarget t ->
    G (CE 18) c [n; d; t] (N (EMetaProperty z (id (chars "new")) (id (chars "target"))))
| g_import_meta c n d t : kw KImport n -> pu PDot d -> t_value t = VIdentifier (chars "meta") ->
    G (CE 18) c [n; d; t] (N (EMetaProperty z (id (chars "import")) (id (chars "meta"))))

(* new without arguments *)
| g_member c ts a : G (CE 18) c ts (N a) -> G CNew c ts (N a)
| g_new c n ts a : kw KNew n -> G CNew c ts (N a) -> G CNew c (n :: ts) (N (ENew z a None []))

(* calls *)
| g_call c ts a o bs l : G (CE 18) c ts (N a) -> pu PParenOpen o -> G CArgs c bs (NS l) ->
    G CCall c (ts ++ o :: bs) (N (ECall z a z l))
| g_call_call c ts a o bs l : G CCall c ts (N a) -> pu PParenOpen o -> G CArgs c bs (NS l) ->
    G CCall c (ts ++ o :: bs) (N (ECall z a z l))
| g_call_dot c ts a d t x : G CCall c ts (N a) -> pu PDot d -> anyname x t ->
    G CCall c (ts ++ [d; t]) (N (EMember z a (PropIdent (id x))))
| g_call_index c ts a o es e cl : G CCall c ts (N a) -> pu PBraceOpen o -> G (CE 0) (with_in true c) es (N e) ->
    pu PBraceClose cl -> G CCall c (ts ++ o :: es ++ [cl]) (N (EMember z a (PropExpr e)))
| g_call_tagged c ts a t s : G CCall c ts (N a) -> t_value t = VLiteral (TLTemplate s) ->
    G CCall c (ts ++ [t]) (N (ETaggedTemplate z a (LitTemplate [TplString s])))

(* optional chains *)
| g_opt_start_call c ts a o p bs l : G (CE 17) c ts (N a) -> double_new a = false ->
    pu PQuestionMarkDot o -> pu PParenOpen p -> G CArgs c bs (NS l) ->
    G COpt c (ts ++ o :: p :: bs) (N (EOptionalCall z a z l true))
| g_opt_start_dot c ts a o t x : G (CE 17) c ts (N a) -> double_new a = false ->
    pu PQuestionMarkDot o -> name c x t ->
    G COpt c (ts ++ [o; t]) (N (EOptionalMember z a (PropIdent (id x)) true))
| g_opt_start_index c ts a o b es e cl : G (CE 17) c ts (N a) -> double_new a = false ->
    pu PQuestionMarkDot o -> pu PBraceOpen b -> G (CE 0) c es (N e) -> pu PBraceClose cl ->
    G COpt c (ts ++ o :: b :: es ++ [cl]) (N (EOptionalMember z a (PropExpr e) true))
| g_opt_opt_call c ts a o p bs l : G COpt c ts (N a) ->
    pu PQuestionMarkDot o -> pu PParenOpen p -> G CArgs c bs (NS l) ->
    G COpt c (ts ++ o :: p :: bs) (N (EOptionalCall z a z l true))
| g_opt_opt_dot c ts a o t x : G COpt c ts (N a) -> pu PQuestionMarkDot o -> name c x t ->
    G COpt c (ts ++ [o; t]) (N (EOptionalMember z a (PropIdent (id x)) true))
| g_opt_opt_index c ts a o b es e cl : G COpt c ts (N a) ->
    pu PQuestionMarkDot o -> pu PBraceOpen b -> G (CE 0) c es (N e) -> pu PBraceClose cl ->
    G COpt c (ts ++ o :: b :: es ++ [cl]) (N (EOptionalMember z a (PropExpr e) true))
| g_opt_call c ts a o bs l : G COpt c ts (N a) -> pu PParenOpen o -> G CArgs c bs (NS l) ->
    G COpt c (ts ++ o :: bs) (N (EOptionalCall z a z l false))
| g_opt_dot c ts a d t x : G COpt c ts (N a) -> pu PDot d -> name c x t ->
    G COpt c (ts ++ [d; t]) (N (EOptionalMember z a (PropIdent (id x)) false))
| g_opt_index c ts a o es e cl : G COpt c ts (N a) -> pu PBraceOpen o -> G (CE 0) c es (N e) ->
    pu PBraceClose cl -> G COpt c (ts ++ o :: es ++ [cl]) (N (EOptionalMember z a (PropExpr e) false))

(* left-hand sides *)
| g_lhs_new c ts a : G CNew c ts (N a) -> G (CE 17) c ts (N a)
| g_lhs_call c ts a : G CCall c ts (N a) -> G (CE 17) c ts (N a)
| g_super_call c s o bs l : c_super_call c = true -> kw KSuper s -> pu PParenOpen o -> G CArgs c bs (NS l) ->
    G (CE 17) c (s :: o :: bs) (N (ECall z CalleeSuper z l))
| g_import_call c s o es e cl : kw KImport s -> pu PParenOpen o -> G (CE 1) c es (N e) -> pu PParenClose cl ->
    G (CE 17) c (s :: o :: es ++ [cl]) (N (ECall z CalleeImport z [ArgExpr e]))

(* ++ and -- *)
| g_lhs c ts a : G (CE 17) c ts (N a) -> G (CE 16) c ts (N a)
| g_lhs_opt c ts a : G COpt c ts (N a) -> G (CE 16) c ts (N a)
| g_postfix c ts a t o : G (CE 17) c ts (N a) -> target_ok (c_strict c) a ->
    symbol (update_string o) t -> t_fol t = false ->
    G (CE 16) c (ts ++ [t]) (N (EUpdate z o false a))
| g_prefix c ts a t o : G (CE 15) c ts (N a) -> target_ok (c_strict c) a -> symbol (update_string o) t ->
    G (CE 16) c (t :: ts) (N (EUpdate z o true a))

(* unary operators *)
| g_unary c ts a t o : symbol (unary_string o) t -> G (CE 15) c ts (N a) ->
    (o = UDelete -> c_strict c = true -> ~ names_variable a) ->
    G (CE 15) c (t :: ts) (N (EUnary z o a))
| g_await c ts a t : c_await c = true -> kw KAwait t -> G (CE 15) c ts (N a) ->
    G (CE 15) c (t :: ts) (N (EAwait z a))

(* binary operators: the left one is applied first *)
| g_binary c o ts a t us b : G (CE (bin_prec o)) c ts (N a) -> symbol (bin_string o) t ->
    (o = BIn -> c_in c = true) -> G (CE (S (bin_prec o))) c us (N b) ->
    G (CE (bin_prec o)) c (ts ++ t :: us) (N (EBinary z o a b))
| g_logical c o ts a t us b : G (CE (log_prec o)) c ts (N a) -> symbol (log_string o) t ->
    G (CE (S (log_prec o))) c us (N b) ->
    G (CE (log_prec o)) c (ts ++ t :: us) (N (ELogical z o a b))

| g_conditional c ts a q us b d vs e : G (CE 3) c ts (N a) -> pu PQuestionMark q -> G (CE 1) c us (N b) ->
    pu PColon d -> G (CE 1) c vs (N e) ->
    G (CE 2) c (ts ++ q :: us ++ d :: vs) (N (EConditional z a b e))

(* assignment, yield, arrow functions *)
| g_assign c o ts a t us b : G (CE 17) c ts (N a) -> not_first [VKeyword KAsync] ts -> target_ok (c_strict c) a ->
    symbol (assign_string o) t -> G (CE 1) c us (N b) -> G (CE 1) c (ts ++ t :: us) (N (EAssign z o a b))
| g_assign_pattern c ts p t us b : G CAsg c ts (N p) -> pu PEqual t -> G (CE 1) c us (N b) ->
    G (CE 1) c (ts ++ t :: us) (N (EAssign z AAssign p b))
| g_yield c y ts a : c_yield c = true -> kw KYield y -> G (CE 1) c ts (N a) ->
    (forall t, first ts None = Some t -> t_fol t = false) ->
    G (CE 1) c (y :: ts) (N (EYield z (Some a) false))
| g_yield_star c y s ts a : c_yield c = true -> kw KYield y -> pu PStar s -> t_fol s = false -> G (CE 1) c ts (N a) ->
    G (CE 1) c (y :: s :: ts) (N (EYield z (Some a) true))
| g_arrow_name c x t a bs b : name c x t -> ~ kw KLet t -> pu PEqualGreater a -> t_fol a = false ->
    G CConcise (arrow_ctx false c) bs (N b) ->
    G (CE 1) c (t :: a :: bs)
      (N (EArrow z false true (FormalParameters z [BindElement z (BindIdent (id x)) None] None) b))
| g_arrow_none c o cl a bs b : pu PParenOpen o -> pu PParenClose cl -> pu PEqualGreater a -> t_fol a = false ->
    G CConcise (arrow_ctx false c) bs (N b) ->
    G (CE 1) c (o :: cl :: a :: bs) (N (EArrow z false false (FormalParameters z [] None) b))

(* parenthesised parameters also read as an expression, but for a rest parameter *)
| g_arrow c o es e cl p r a bs b : pu PParenOpen o -> G (CE 0) (with_in true c) es (N e) -> pu PParenClose cl ->
    G CParams c (es ++ [cl]) (NR p r) -> pu PEqualGreater a -> t_fol a = false ->
    G CConcise (arrow_ctx false c) bs (N b) ->
    G (CE 1) c (o :: es ++ cl :: a :: bs) (N (EArrow z false false (FormalParameters z p r) b))
| g_arrow_rest c o d ps p r a bs b : pu PParenOpen o -> pu PTripleDot d -> G CParams c (d :: ps) (NR p r) ->
    pu PEqualGreater a -> t_fol a = false -> G CConcise (arrow_ctx false c) bs (N b) ->
    G (CE 1) c (o :: d :: ps ++ a :: bs) (N (EArrow z false false (FormalParameters z p r) b))
| g_arrow_more c o es l k d ps p r a bs b : pu PParenOpen o -> G CSeq (with_in true c) es (NS l) -> pu PComma k ->
    pu PTripleDot d -> G CParams c (es ++ k :: d :: ps) (NR p r) -> pu PEqualGreater a -> t_fol a = false ->
    G CConcise (arrow_ctx false c) bs (N b) ->
    G (CE 1) c (o :: es ++ k :: d :: ps ++ a :: bs) (N (EArrow z false false (FormalParameters z p r) b))
(* .. or as elements of an assignment pattern, which may have initial values of properties *)
| g_arrow_cover c o es l cl p r a bs b : pu PParenOpen o -> G CAsgSeq (with_in true c) es (NS l) -> pu PParenClose cl ->
    G CParams c (es ++ [cl]) (NR p r) -> pu PEqualGreater a -> t_fol a = false ->
    G CConcise (arrow_ctx false c) bs (N b) ->
    G (CE 1) c (o :: es ++ cl :: a :: bs) (N (EArrow z false false (FormalParameters z p r) b))
| g_arrow_cover_more c o es l k d ps p r a bs b : pu PParenOpen o -> G CAsgSeq (with_in true c) es (NS l) -> pu PComma k ->
    pu PTripleDot d -> G CParams c (es ++ k :: d :: ps) (NR p r) -> pu PEqualGreater a -> t_fol a = false ->
    G CConcise (arrow_ctx false c) bs (N b) ->
    G (CE 1) c (o :: es ++ k :: d :: ps ++ a :: bs) (N (EArrow z false false (FormalParameters z p r) b))
| g_async_arrow_name c s x t a bs b : kw KAsync s -> name c x t -> ~ kw KAwait t -> t_fol t = false ->
    pu PEqualGreater a -> t_fol a = false -> G CConcise (arrow_ctx true c) bs (N b) ->
    G (CE 1) c (s :: t :: a :: bs)
      (N (EArrow z true true (FormalParameters z [BindElement z (BindIdent (id x)) None] None) b))
(* the parameters also read as arguments *)
| g_async_arrow c s o ps l p r a bs b : kw KAsync s -> pu PParenOpen o -> t_fol o = false -> G CArgs c ps (NS l) ->
    G CParams c ps (NR p r) -> pu PEqualGreater a -> t_fol a = false -> G CConcise (arrow_ctx true c) bs (N b) ->
    G (CE 1) c (s :: o :: ps ++ a :: bs) (N (EArrow z true false (FormalParameters z p r) b))

| g_sequence c ts a t us l : G (CE 1) c ts (N a) -> pu PComma t -> G CSeq c us (NS l) ->
    G (CE 0) c (ts ++ t :: us) (N (ESequence z (a :: l)))
| g_seq_one c ts a : G (CE 1) c ts (N a) -> G CSeq c ts (NS [a])
| g_seq_more c ts a t us l : G (CE 1) c ts (N a) -> pu PComma t -> G CSeq c us (NS l) ->
    G CSeq c (ts ++ t :: us) (NS (a :: l))

(* --- parts of expressions --- *)
| g_args_end c t : pu PParenClose t -> G CArgs c [t] (NS [])
| g_args_last c ts a t : G CArg (with_in true c) ts (N a) -> pu PParenClose t -> G CArgs c (ts ++ [t]) (NS [a])
| g_args_more c ts a t us l : G CArg (with_in true c) ts (N a) -> pu PComma t -> G CArgs c us (NS l) ->
    G CArgs c (ts ++ t :: us) (NS (a :: l))
| g_arg c ts a : G (CE 1) c ts (N a) -> G CArg c ts (N (ArgExpr a))
| g_arg_spread c d ts a : pu PTripleDot d -> G (CE 1) c ts (N a) -> G CArg c (d :: ts) (N (ArgSpread a))

| g_tpl_tail c ts a t u s : G (CE 0) c ts (N a) -> pu PBracketClose t -> t_value u = VTemplateTail s ->
    G CTpl c (ts ++ [t; u]) (NS (TplExpr a :: text s))
| g_tpl_middle c ts a t u s us l : G (CE 0) c ts (N a) -> pu PBracketClose t -> t_value u = VTemplateMiddle s ->
    G CTpl c us (NS l) -> G CTpl c (ts ++ t :: u :: us) (NS (TplExpr a :: text s ++ l))

| g_elem c ts a : G (CE 1) c ts (N a) -> G CElem c ts (N (ElemExpr a))
| g_elem_spread c d ts a : pu PTripleDot d -> G (CE 1) c ts (N a) -> G CElem c (d :: ts) (N (ElemSpread a))
| g_elems_end c t : pu PBraceClose t -> G CElems c [t] (NS [])
| g_elems_hole c t ts l : pu PComma t -> G CElems c ts (NS l) -> G CElems c (t :: ts) (NS (ElemElision :: l))
| g_elems_last c ts a t : G CElem c ts (N a) -> pu PBraceClose t -> G CElems c (ts ++ [t]) (NS [a])
| g_elems_more c ts a t us l : G CElem c ts (N a) -> pu PComma t -> G CElems c us (NS l) ->
    G CElems c (ts ++ t :: us) (NS (a :: l))

| g_props_end c t : pu PBracketClose t -> G CProps c [t] (NS [])
| g_props_last c ts a t : G CProp c ts (N a) -> pu PBracketClose t -> G CProps c (ts ++ [t]) (NS [a])
| g_props_more c ts a t us l : G CProp c ts (N a) -> pu PComma t -> G CProps c us (NS l) ->
    G CProps c (ts ++ t :: us) (NS (a :: l))
| g_prop_short c x t : name c x t -> ~ In (t_value t) [VKeyword KStatic; VKeyword KAsync; VKeyword KGet; VKeyword KSet] ->
    G CProp c [t] (N (DefIdentRef (id x)))
| g_prop_named c ns n t ts a : G CName c ns (N n) -> pu PColon t -> G (CE 1) c ts (N a) ->
    G CProp c (ns ++ t :: ts) (N (DefNamed z n a))
| g_prop_method c ts m : G (CMethod false) (member_ctx false false c) ts (N m) -> not_first [VPunct PBraceOpen] ts ->
    G CProp c ts (N (DefMethod m))
| g_prop_computed_method c o ts a cl po ps p r bs ds l : c_yield c = false -> c_await c = false ->
    pu PBraceOpen o -> G (CE 1) c ts (N a) -> pu PBraceClose cl -> pu PParenOpen po -> G CParams c ps (NR p r) ->
    G CBody c bs (N (Body z ds l)) -> method_ok p r ds ->
    G CProp c (o :: ts ++ cl :: po :: ps ++ bs)
      (N (DefMethod (Method z (NameComputed a) MKMethod (FormalParameters z p r) (Body z ds l) false false false)))
| g_prop_spread c d ts a : pu PTripleDot d -> G (CE 1) c ts (N a) -> G CProp c (d :: ts) (N (DefSpread a))

| g_name_ident c x t : anyname x t -> G CName c [t] (N (NameIdent (id x)))
| g_name_string c s t : str_tok s t -> G CName c [t] (N (NameString s))
| g_name_number c r t : t_value t = VLiteral (TLNumber r) -> G CName c [t] (N (NameNumber r))
| g_name_computed c o ts a cl : pu PBraceOpen o -> G (CE 1) c ts (N a) -> pu PBraceClose cl ->
    G CName c (o :: ts ++ [cl]) (N (NameComputed a))

(* --- patterns --- *)
| g_pat_ident c x t : name c x t -> G CPat c [t] (N (BindIdent (id x)))
| g_pat_array c o ts l r : pu PBraceOpen o -> G CPats c ts (OR l r) -> G CPat c (o :: ts) (N (BindArray z l r))
| g_pat_object c o ts l r : pu PBracketOpen o -> G CBProps c ts (NR l r) -> G CPat c (o :: ts) (N (BindObject z l r))
| g_bind c ts p us i : G CPat c ts (N p) -> G CInit (with_in true c) us (OP i) -> G CBind c (ts ++ us) (N (BindElement z p i))
| g_init_none c : G CInit c [] (OP None)
| g_init c t ts a : pu PEqual t -> G (CE 1) c ts (N a) -> G CInit c (t :: ts) (OP (Some a))
| g_pats_end c t : pu PBraceClose t -> G CPats c [t] (OR [] None)
| g_pats_rest c d ts p cl : pu PTripleDot d -> G CPat c ts (N p) -> pu PBraceClose cl ->
    G CPats c (d :: ts ++ [cl]) (OR [] (Some p))
| g_pats_hole c t ts l r : pu PComma t -> G CPats c ts (OR l r) -> G CPats c (t :: ts) (OR (None :: l) r)
| g_pats_last c ts a t : G CBind c ts (N a) -> pu PBraceClose t -> G CPats c (ts ++ [t]) (OR [Some a] None)
| g_pats_more c ts a t us l r : G CBind c ts (N a) -> pu PComma t -> G CPats c us (OR l r) ->
    G CPats c (ts ++ t :: us) (OR (Some a :: l) r)
| g_bprops_end c t : pu PBracketClose t -> G CBProps c [t] (NR [] None)
| g_bprops_rest c d ts p cl : pu PTripleDot d -> G CPat c ts (N p) -> pu PBracketClose cl ->
    G CBProps c (d :: ts ++ [cl]) (NR [] (Some p))
| g_bprops_last c ts a t : G CBProp c ts (N a) -> pu PBracketClose t -> G CBProps c (ts ++ [t]) (NR [a] None)
| g_bprops_more c ts a t us l r : G CBProp c ts (N a) -> pu PComma t -> G CBProps c us (NR l r) ->
    G CBProps c (ts ++ t :: us) (NR (a :: l) r)
| g_bprop_single c x t us i : name c x t -> G CInit (with_in true c) us (OP i) ->
    G CBProp c (t :: us) (N (BindSingle z (id x) i))
| g_bprop_named c ns n t ts b : G CName c ns (N n) -> pu PColon t -> G CBind c ts (N b) ->
    G CBProp c (ns ++ t :: ts) (N (BindNamed z n b))

(* assignment patterns; the tree of an array pattern has a hole for every comma *)
| g_asg_array c o ts l r : pu PBraceOpen o -> G CAsgs c ts (OR l r) -> G CAsg c (o :: ts) (N (AsgArray z l r))
| g_asg_object c o ts l r : pu PBracketOpen o -> G CAsgProps c ts (NR l r) -> G CAsg c (o :: ts) (N (AsgObject z l r))
| g_target_pattern c ts p : G CAsg c ts (N p) -> G CAsgTarget c ts (N p)
| g_target c ts a : G (CE 17) c ts (N a) -> target_ok (c_strict c) a ->
    not_first [VPunct PBraceOpen; VPunct PBracketOpen; VKeyword KAsync] ts -> G CAsgTarget c ts (N a)
(* (before the first semicolon of a [for], an initial value is not an [in]) *)
| g_asg_elem c ts p us i : G CAsgTarget c ts (N p) -> G CInit c us (OP i) -> G CInit (with_in true c) us (OP i) ->
    G CAsgElem c (ts ++ us) (N (AsgElement z p i))
| g_asgs_end c t : pu PBraceClose t -> G CAsgs c [t] (OR [] None)
| g_asgs_rest c d ts p cl : pu PTripleDot d -> G CAsgTarget c ts (N p) -> pu PBraceClose cl ->
    G CAsgs c (d :: ts ++ [cl]) (OR [] (Some p))
| g_asgs_hole c t ts l r : pu PComma t -> G CAsgs c ts (OR l r) -> G CAsgs c (t :: ts) (OR (None :: l) r)
| g_asgs_last c ts a t : G CAsgElem c ts (N a) -> pu PBraceClose t -> G CAsgs c (ts ++ [t]) (OR [Some a] None)
| g_asgs_more c ts a t us l r : G CAsgElem c ts (N a) -> pu PComma t -> G CAsgs c us (OR l r) ->
    G CAsgs c (ts ++ t :: us) (OR (Some a :: None :: l) r)
| g_asgprops_end c t : pu PBracketClose t -> G CAsgProps c [t] (NR [] None)
| g_asgprops_rest c d ts p cl : pu PTripleDot d -> G CAsgTarget c ts (N p) -> pu PBracketClose cl ->
    G CAsgProps c (d :: ts ++ [cl]) (NR [] (Some p))
| g_asgprops_last c ts a t : G CAsgProp c ts (N a) -> pu PBracketClose t -> G CAsgProps c (ts ++ [t]) (NR [a] None)
| g_asgprops_more c ts a t us l r : G CAsgProp c ts (N a) -> pu PComma t -> G CAsgProps c us (NR l r) ->
    G CAsgProps c (ts ++ t :: us) (NR (a :: l) r)
| g_asgprop_single c x t us i : name c x t ->
    ~ In (t_value t) [VKeyword KStatic; VKeyword KAsync; VKeyword KGet; VKeyword KSet] -> G CInit c us (OP i) ->
    G CAsgProp c (t :: us) (N (AsgSingle z (id x) i))
| g_asgprop_named c ns n t ts p i : G CName c ns (N n) -> pu PColon t -> G CAsgElem c ts (N (AsgElement z p i)) ->
    G CAsgProp c (ns ++ t :: ts) (N (AsgNamed z n p i))
| g_asgseq_one c ts a : G CAsgElem c ts (N a) -> G CAsgSeq c ts (NS [a])
| g_asgseq_more c ts a t us l : G CAsgElem c ts (N a) -> pu PComma t -> G CAsgSeq c us (NS l) ->
    G CAsgSeq c (ts ++ t :: us) (NS (a :: l))

(* --- functions --- *)
| g_params_end c t : pu PParenClose t -> G CParams c [t] (NR [] None)
| g_params_rest c d ts p cl : pu PTripleDot d -> G CPat c ts (N p) -> pu PParenClose cl ->
    G CParams c (d :: ts ++ [cl]) (NR [] (Some p))
| g_params_last c ts a t : G CBind c ts (N a) -> pu PParenClose t -> G CParams c (ts ++ [t]) (NR [a] None)
| g_params_more c ts a t us l r : G CBind c ts (N a) -> pu PComma t -> G CParams c us (NR l r) ->
    G CParams c (ts ++ t :: us) (NR (a :: l) r)
| g_body c o ds dl ts l cl : pu PBracketOpen o -> G (CDirs (first ts (Some cl))) c ds (DS dl) ->
    G (CNoDir (Some cl)) c ts (NS []) ->
    G (CItems (Some cl)) (body_ctx dl c) ts (NS l) -> pu PBracketClose cl ->
    G CBody c (o :: ds ++ ts ++ [cl]) (N (Body z dl l))
| g_dirs_end nx c : G (CDirs nx) c [] (DS [])
| g_dirs nx c s t us vs l : str_tok s t -> ends_expr us (first vs nx) -> G (CDirs nx) c vs (DS l) ->
    G (CDirs nx) c (t :: us ++ vs) (DS (s :: l))
(* the next statement does not start with a string, or does but goes on *)
| g_nodir nx c ts : (forall t, first ts nx = Some t -> is_str t = false) -> G (CNoDir nx) c ts (NS [])
| g_nodir_expr nx c ts a us : G (CItem (first us nx)) c ts (N a) -> ord_hd us ->
    (forall s, a <> SExpr z (ELiteral z (LitString s))) -> G (CNoDir nx) c (ts ++ us) (NS [])
| g_concise_body c ts b : G CBody c ts (N b) -> G CConcise c ts (N b)
| g_concise c ts a : G (CE 1) c ts (N a) -> not_first [VPunct PBracketOpen] ts -> G CConcise c ts (N a)

(* --- classes --- *)
| g_heritage_none c : G CHeritage c [] (OP None)
| g_heritage c t ts a : kw KExtends t -> G (CE 17) c ts (N a) -> G CHeritage c (t :: ts) (OP (Some a))
| g_members_end b c t : pu PBracketClose t -> G (CMembers b) c [t] (NS [])
| g_members_semi b c t ts l : pu PSemiColon t -> G (CMembers b) c ts (NS l) -> G (CMembers b) c (t :: ts) (NS l)
| g_members_more b c ts m us l :
    (forall t, first ts None = Some t ->
       G (CMethod false) (member_ctx (b && says_constructor t) true c) ts (N m)) -> ts <> [] ->
    G (CMembers b) c us (NS l) -> G (CMembers b) c (ts ++ us) (NS (m :: l))
| g_members_static b c s ts m us l : kw KStatic s ->
    G (CMethod true) (member_ctx false true c) ts (N m) ->
    G (CMembers b) c us (NS l) -> G (CMembers b) c (s :: ts ++ us) (NS (m :: l))

| g_method st c ns n o ps p r bs ds l : c_yield c = false -> c_await c = false ->
    G CName c ns (N n) -> not_first [VKeyword KAsync] ns -> pu PParenOpen o -> G CParams c ps (NR p r) ->
    G CBody c bs (N (Body z ds l)) -> method_ok p r ds ->
    G (CMethod st) c (ns ++ o :: ps ++ bs)
      (N (Method z n MKMethod (FormalParameters z p r) (Body z ds l) false false st))
| g_getter st c k ns n o cl bs b : c_yield c = false -> c_await c = false -> kw KGet k ->
    G CName c ns (N n) -> pu PParenOpen o -> pu PParenClose cl -> G CBody c bs (N b) ->
    G (CMethod st) c (k :: ns ++ o :: cl :: bs) (N (Method z n MKGet (FormalParameters z [] None) b false false st))
| g_setter st c k ns n o ps p cl bs ds l : c_yield c = false -> c_await c = false -> kw KSet k ->
    G CName c ns (N n) -> pu PParenOpen o -> G CBind c ps (N p) -> pu PParenClose cl ->
    G CBody c bs (N (Body z ds l)) -> (use_strict ds = true -> simple_params (FormalParameters z [p] None)) ->
    G (CMethod st) c (k :: ns ++ o :: ps ++ cl :: bs)
      (N (Method z n MKSet (FormalParameters z [p] None) (Body z ds l) false false st))
| g_generator_method st c s ns n o ps p r bs ds l :
    pu PStar s -> G CName c ns (N n) -> pu PParenOpen o -> G CParams (with_await false (with_yield false c)) ps (NR p r) ->
    G CBody (with_await false (with_yield true c)) bs (N (Body z ds l)) -> method_ok p r ds ->
    G (CMethod st) c (s :: ns ++ o :: ps ++ bs)
      (N (Method z n MKMethod (FormalParameters z p r) (Body z ds l) true false st))
| g_async_method st c s gt g ns n o ps p r bs ds l :
    kw KAsync s -> (forall t, first (gt ++ ns) None = Some t -> t_fol t = false) -> star g gt ->
    G CName c ns (N n) -> pu PParenOpen o -> G CParams (with_await true (with_yield false c)) ps (NR p r) ->
    G CBody (with_await true (with_yield g c)) bs (N (Body z ds l)) -> method_ok p r ds ->
    G (CMethod st) c (s :: gt ++ ns ++ o :: ps ++ bs)
      (N (Method z n MKMethod (FormalParameters z p r) (Body z ds l) g true st))

(* --- statements --- *)
| g_empty nx c t : pu PSemiColon t -> G (CStmt nx) c [t] (N (SEmpty z))
| g_block_stmt nx c ts a : G CBlock c ts (N a) -> G (CStmt nx) c ts (N a)
| g_block c o ts l cl : pu PBracketOpen o -> G (CItems (Some cl)) c ts (NS l) -> pu PBracketClose cl ->
    G CBlock c (o :: ts ++ [cl]) (N (SBlock z l))
| g_var_stmt nx c ts a : G (CVar nx VKVar) c ts (N a) -> G (CStmt nx) c ts (N a)
| g_expr_stmt nx c ts a us : G (CE 0) (with_in true c) ts (N a) ->
    not_first [VPunct PBracketOpen; VKeyword KFunction; VKeyword KClass; VKeyword KImport] ts ->
    (forall t u vs, ts = t :: u :: vs -> ~ (kw KAsync t /\ kw KFunction u)) ->
    ends_expr us nx -> G (CStmt nx) c (ts ++ us) (N (SExpr z a))
| g_if nx c t o cs a cl ts b : kw KIf t -> pu PParenOpen o -> G (CE 0) (with_in true c) cs (N a) ->
    pu PParenClose cl -> G (CStmt nx) c ts (N b) -> (forall u, nx = Some u -> ~ kw KElse u) ->
    G (CStmt nx) c (t :: o :: cs ++ cl :: ts) (N (SIf z a b None))
| g_if_else nx c t o cs a cl ts b e us d : kw KIf t -> pu PParenOpen o -> G (CE 0) (with_in true c) cs (N a) ->
    pu PParenClose cl -> G (CStmt (Some e)) c ts (N b) -> kw KElse e -> G (CStmt nx) c us (N d) ->
    G (CStmt nx) c (t :: o :: cs ++ cl :: ts ++ e :: us) (N (SIf z a b (Some d)))
| g_while nx c t o cs a cl ts b : kw KWhile t -> pu PParenOpen o -> G (CE 0) (with_in true c) cs (N a) ->
    pu PParenClose cl -> G (CStmt nx) c ts (N b) ->
    G (CStmt nx) c (t :: o :: cs ++ cl :: ts) (N (SWhile z a b))
| g_with nx c t o cs a cl ts b : kw KWith t -> pu PParenOpen o -> G (CE 0) c cs (N a) ->
    pu PParenClose cl -> G (CStmt nx) c ts (N b) ->
    G (CStmt nx) c (t :: o :: cs ++ cl :: ts) (N (SWith z a b))
| g_do nx c d ts b w o cs a cl us : kw KDo d -> G (CStmt (Some w)) c ts (N b) -> kw KWhile w -> pu PParenOpen o ->
    G (CE 0) (with_in true c) cs (N a) -> pu PParenClose cl ->
    ((exists t, us = [t] /\ pu PSemiColon t) \/ (us = [] /\ forall t, nx = Some t -> ~ pu PSemiColon t)) ->
    G (CStmt nx) c (d :: ts ++ w :: o :: cs ++ cl :: us) (N (SDoWhile z b a))
| g_for nx c t o is i s1 es e s2 us u cl ts b : kw KFor t -> pu PParenOpen o -> G CForInit c is (OP i) ->
    pu PSemiColon s1 -> G COptE (with_in true c) es (OP e) -> pu PSemiColon s2 ->
    G COptE (with_in true c) us (OP u) -> pu PParenClose cl -> G (CStmt nx) c ts (N b) ->
    G (CStmt nx) c (t :: o :: is ++ s1 :: es ++ s2 :: us ++ cl :: ts) (N (SFor z i e u b))
| g_for_in nx c t o ls l n es e cl ts b : kw KFor t -> pu PParenOpen o -> G CForLeft c ls (N l) -> kw KIn n ->
    G (CE 0) (with_in true c) es (N e) -> pu PParenClose cl -> G (CStmt nx) c ts (N b) ->
    G (CStmt nx) c (t :: o :: ls ++ n :: es ++ cl :: ts) (N (SForIn z l e b))
| g_for_of nx c t o ls l n es e cl ts b : kw KFor t -> pu PParenOpen o -> G CForLeft c ls (N l) -> kw KOf n ->
    G (CE 0) (with_in true c) es (N e) -> pu PParenClose cl -> G (CStmt nx) c ts (N b) ->
    G (CStmt nx) c (t :: o :: ls ++ n :: es ++ cl :: ts) (N (SForOf z l e b false))
| g_for_await nx c t w o ls l n es e cl ts b : c_await c = true -> kw KFor t -> kw KAwait w -> pu PParenOpen o ->
    G CForLeft c ls (N l) -> kw KOf n ->
    G (CE 0) (with_in true c) es (N e) -> pu PParenClose cl -> G (CStmt nx) c ts (N b) ->
    G (CStmt nx) c (t :: w :: o :: ls ++ n :: es ++ cl :: ts) (N (SForOf z l e b true))
| g_continue nx c t us : kw KContinue t -> ends us nx -> G (CStmt nx) c (t :: us) (N (SContinue z None))
| g_continue_label nx c t l x us : kw KContinue t -> name c x l -> t_fol l = false -> ends us nx ->
    G (CStmt nx) c (t :: l :: us) (N (SContinue z (Some (id x))))
| g_break nx c t us : kw KBreak t -> ends us nx -> G (CStmt nx) c (t :: us) (N (SBreak z None))
| g_break_label nx c t l x us : kw KBreak t -> name c x l -> t_fol l = false -> ends us nx ->
    G (CStmt nx) c (t :: l :: us) (N (SBreak z (Some (id x))))
| g_return nx c t us : c_return c = true -> kw KReturn t -> ends us nx -> G (CStmt nx) c (t :: us) (N (SReturn z None))
| g_return_value nx c t ts a us : c_return c = true -> kw KReturn t -> G (CE 0) (with_in true c) ts (N a) ->
    (forall u, first ts None = Some u -> t_fol u = false) -> ends_expr us nx ->
    G (CStmt nx) c (t :: ts ++ us) (N (SReturn z (Some a)))
| g_throw nx c t ts a us : kw KThrow t -> G (CE 0) (with_in true c) ts (N a) ->
    (forall u, first ts None = Some u -> t_fol u = false) -> ends_expr us nx ->
    G (CStmt nx) c (t :: ts ++ us) (N (SThrow z a))
| g_debugger nx c t us : kw KDebugger t -> ends us nx -> G (CStmt nx) c (t :: us) (N (SDebugger z))
| g_label nx c l x d ts b : name c x l -> pu PColon d -> G (CStmt nx) c ts (N b) ->
    G (CStmt nx) c (l :: d :: ts) (N (SLabeled z (id x) b))
| g_try nx c t bs b hs h fs f : kw KTry t -> G CBlock c bs (N b) -> G CCatch c hs (OP h) -> G CFinally c fs (OP f) ->
    (h <> None \/ f <> None) ->
    (forall u, nx = Some u -> ~ kw KCatch u /\ ~ kw KFinally u) ->
    G (CStmt nx) c (t :: bs ++ hs ++ fs) (N (STry z b h f))
| g_catch_none c : G CCatch c [] (OP None)
| g_catch c t bs b : kw KCatch t -> G CBlock c bs (N b) -> G CCatch c (t :: bs) (OP (Some (CatchClause z None b)))
| g_catch_param c t o ps p cl bs b : kw KCatch t -> pu PParenOpen o -> G CPat c ps (N p) -> pu PParenClose cl ->
    G CBlock c bs (N b) -> G CCatch c (t :: o :: ps ++ cl :: bs) (OP (Some (CatchClause z (Some p) b)))
| g_finally_none c : G CFinally c [] (OP None)
| g_finally c t bs b : kw KFinally t -> G CBlock c bs (N b) -> G CFinally c (t :: bs) (OP (Some b))
| g_switch nx c t o es e cl b cs l : kw KSwitch t -> pu PParenOpen o -> G (CE 0) (with_in true c) es (N e) ->
    pu PParenClose cl -> pu PBracketOpen b -> G CCases c cs (NS l) ->
    G (CStmt nx) c (t :: o :: es ++ cl :: b :: cs) (N (SSwitch z e l))
| g_cases_end c t : pu PBracketClose t -> G CCases c [t] (NS [])
| g_case c t es e d ts l us m : kw KCase t -> G (CE 0) (with_in true c) es (N e) -> pu PColon d ->
    G (CItems (first us None)) c ts (NS l) -> G CCases c us (NS m) ->
    G CCases c (t :: es ++ d :: ts ++ us) (NS (SwitchCase z (Some e) l :: m))
| g_default c t d ts l us m : kw KDefault t -> pu PColon d ->
    G (CItems (first us None)) c ts (NS l) -> G CCases c us (NS m) ->
    G CCases c (t :: d :: ts ++ us) (NS (SwitchCase z None l :: m))

(* declarations *)
| g_stmt nx c ts a : G (CStmt nx) c ts (N a) -> G (CItem nx) c ts (N a)
| g_item_lex nx c ts a : G (CLex nx) c ts (N a) -> G (CItem nx) c ts (N a)
| g_lex_hoist nx c ts a : G CHoist c ts (N a) -> G (CLex nx) c ts (N a)
| g_lex nx c ts a k : G (CVar nx k) c ts (N a) -> k <> VKVar -> G (CLex nx) c ts (N a)
| g_var nx c t ts l us : kw KVar t -> G CDecls (with_in true c) ts (NS l) -> ends_expr us nx ->
    G (CVar nx VKVar) c (t :: ts ++ us) (N (SVariable z VKVar l))
| g_let nx c t ts l us : kw KLet t -> G CDecls c ts (NS l) -> ends_expr us nx ->
    G (CVar nx VKLet) c (t :: ts ++ us) (N (SVariable z VKLet l))
| g_const nx c t ts l us : kw KConst t -> G CDecls c ts (NS l) -> ends_expr us nx ->
    G (CVar nx VKConst) c (t :: ts ++ us) (N (SVariable z VKConst l))
| g_decls_one c ts d : G CDecl c ts (N d) -> G CDecls c ts (NS [d])
| g_decls_more c ts d t us l : G CDecl c ts (N d) -> pu PComma t -> G CDecls c us (NS l) ->
    G CDecls c (ts ++ t :: us) (NS (d :: l))
| g_decl c ts p us i : G CPat c ts (N p) -> G CInit c us (OP i) -> (i = None -> exists x, p = BindIdent x) ->
    G CDecl c (ts ++ us) (N (VarDecl z p i))
| g_function_decl c f gt g nt x o ps p r bs b :
    kw KFunction f -> star g gt -> dname c x nt -> pu PParenOpen o ->
    G CParams (fun_ctx false g c) ps (NR p r) -> G CBody (fun_ctx false g c) bs (N b) ->
    G CHoist c (f :: gt ++ nt ++ o :: ps ++ bs) (N (SFunctionDecl z false g (id x) (FormalParameters z p r) b))
| g_async_function_decl c a f gt g nt x o ps p r bs b :
    kw KAsync a -> kw KFunction f -> t_fol f = false -> star g gt -> dname c x nt -> pu PParenOpen o ->
    G CParams (fun_ctx true g c) ps (NR p r) -> G CBody (fun_ctx true g c) bs (N b) ->
    G CHoist c (a :: f :: gt ++ nt ++ o :: ps ++ bs) (N (SFunctionDecl z true g (id x) (FormalParameters z p r) b))
| g_class_decl c t nt x hs h o ms l :
    kw KClass t -> dname (with_strict true c) x nt -> G CHeritage (with_strict true c) hs (OP h) ->
    (nt = [] -> hs = []) -> pu PBracketOpen o -> G (CMembers (is_some h)) (with_strict true c) ms (NS l) ->
    G CHoist c (t :: nt ++ hs ++ o :: ms) (N (SClassDecl z (id x) h l))
| g_items_end nx c : G (CItems nx) c [] (NS [])
| g_items nx c ts a us l : G (CItem (first us nx)) c ts (N a) -> G (CItems nx) c us (NS l) ->
    G (CItems nx) c (ts ++ us) (NS (a :: l))

(* loops *)
| g_opte_none c : G COptE c [] (OP None)
| g_opte c ts a : G (CE 0) c ts (N a) -> G COptE c ts (OP (Some a))
| g_forinit_none c : G CForInit c [] (OP None)
| g_forinit c ts a : G (CE 0) (with_in false c) ts (N a) -> G CForInit c ts (OP (Some a))
| g_forinit_decl c t k ts l : symbol (kind_string k) t -> G CDecls (with_in false c) ts (NS l) ->
    G CForInit c (t :: ts) (OP (Some (SVariable z k l)))
| g_forleft_decl c t k ts p : symbol (kind_string k) t ->
    (forall b, G CPat (with_in b c) ts (N p)) -> G CForLeft c (t :: ts) (N (ForBinding z k p))
| g_forleft c ts a : (forall b, G (CE 17) (with_in b c) ts (N a)) -> target_ok (c_strict c) a ->
    not_first [VPunct PBraceOpen; VPunct PBracketOpen] ts -> G CForLeft c ts (N a)
| g_forleft_pattern c ts p : (forall b, G CAsg (with_in b c) ts (N p)) -> G CForLeft c ts (N p)

(* programs *)
| g_top nx c ts a : G (CItem nx) c ts (N a) -> G (CTop nx) c ts (N a)
| g_import_bare nx c i t s us : c_module c = true -> kw KImport i -> str_tok s t -> ends us nx ->
    G (CTop nx) c (i :: t :: us) (N (SImport z None None None s))
| g_import nx c i cs d ns nm f t s us : c_module c = true -> kw KImport i -> G CClause c cs (IC d ns nm) -> kw KFrom f ->
    str_tok s t -> ends us nx ->
    G (CTop nx) c (i :: cs ++ f :: t :: us) (N (SImport z d ns nm s))
| g_clause_default c x t : name c x t -> G CClause c [t] (IC (Some (id x)) None None)
| g_clause_namespace c s a t x : pu PStar s -> kw KAs a -> name c x t -> G CClause c [s; a; t] (IC None (Some (id x)) None)
| g_clause_named c o ts l : pu PBracketOpen o -> G CImports c ts (NS l) -> G CClause c (o :: ts) (IC None None (Some l))
| g_clause_default_namespace c y u k s a t x : name c y u -> pu PComma k -> pu PStar s -> kw KAs a -> name c x t ->
    G CClause c [u; k; s; a; t] (IC (Some (id y)) (Some (id x)) None)
| g_clause_default_named c y u k o ts l : name c y u -> pu PComma k -> pu PBracketOpen o -> G CImports c ts (NS l) ->
    G CClause c (u :: k :: o :: ts) (IC (Some (id y)) None (Some l))
| g_imports_end c t : pu PBracketClose t -> G CImports c [t] (NS [])
| g_imports_last c ts a t : G CImport c ts (N a) -> pu PBracketClose t -> G CImports c (ts ++ [t]) (NS [a])
| g_imports_more c ts a t us l : G CImport c ts (N a) -> pu PComma t -> G CImports c us (NS l) ->
    G CImports c (ts ++ t :: us) (NS (a :: l))
| g_import_name c x t : name c x t -> G CImport c [t] (N (NamedImport z (id x) None))
| g_import_as c x t a y u : anyname x t -> kw KAs a -> name c y u ->
    G CImport c [t; a; u] (N (NamedImport z (id x) (Some (id y))))
| g_export_named nx c e o ts l us : c_module c = true -> kw KExport e -> pu PBracketOpen o -> G CExports c ts (NS l) ->
    ends us nx -> (forall t, nx = Some t -> ~ kw KFrom t) ->
    G (CTop nx) c (e :: o :: ts ++ us) (N (XNamed z l None))
| g_export_from nx c e o ts l f t s us : c_module c = true -> kw KExport e -> pu PBracketOpen o ->
    G CExports c ts (NS l) -> kw KFrom f -> str_tok s t -> ends us nx ->
    G (CTop nx) c (e :: o :: ts ++ f :: t :: us) (N (XNamed z l (Some s)))
| g_exports_end c t : pu PBracketClose t -> G CExports c [t] (NS [])
| g_exports_last c ts a t : G CExport c ts (N a) -> pu PBracketClose t -> G CExports c (ts ++ [t]) (NS [a])
| g_exports_more c ts a t us l : G CExport c ts (N a) -> pu PComma t -> G CExports c us (NS l) ->
    G CExports c (ts ++ t :: us) (NS (a :: l))
| g_export_name c x t : anyname x t -> G CExport c [t] (N (NamedExport z (id x) None))
| g_export_as c x t a y u : anyname x t -> kw KAs a -> anyname y u ->
    G CExport c [t; a; u] (N (NamedExport z (id y) (Some (id x))))
| g_export_all nx c e s f t m us : c_module c = true -> kw KExport e -> pu PStar s -> kw KFrom f -> str_tok m t ->
    ends us nx -> G (CTop nx) c (e :: s :: f :: t :: us) (N (XNamespace z None m))
| g_export_all_as nx c e s a u x f t m us : c_module c = true -> kw KExport e -> pu PStar s -> kw KAs a -> anyname x u ->
    kw KFrom f -> str_tok m t -> ends us nx ->
    G (CTop nx) c (e :: s :: a :: u :: f :: t :: us) (N (XNamespace z (Some (id x)) m))
| g_export_var nx c e ts a : c_module c = true -> kw KExport e -> G (CVar nx VKVar) c ts (N a) ->
    G (CTop nx) c (e :: ts) (N (XDecl z a))
| g_export_decl nx c e ts a : c_module c = true -> kw KExport e -> G (CLex nx) c ts (N a) ->
    G (CTop nx) c (e :: ts) (N (XDecl z a))
| g_export_default_decl nx c e d ts a : c_module c = true -> kw KExport e -> kw KDefault d ->
    G CHoist (with_default true c) ts (N a) ->
    G (CTop nx) c (e :: d :: ts) (N (XDefaultDecl z a))
| g_export_default nx c e d ts a us : c_module c = true -> kw KExport e -> kw KDefault d ->
    G (CE 1) (with_in true c) ts (N a) -> not_first [VKeyword KFunction; VKeyword KClass] ts ->
    (forall t u vs, ts = t :: u :: vs -> ~ (kw KAsync t /\ kw KFunction u)) -> ends_expr us nx ->
    G (CTop nx) c (e :: d :: ts ++ us) (N (XDefaultExpr z a))
| g_tops_end nx c : G (CTops nx) c [] (NS [])
| g_tops nx c ts a us l : G (CTop (first us nx)) c ts (N a) -> G (CTops nx) c us (NS l) ->
    G (CTops nx) c (ts ++ us) (NS (a :: l))
| g_program c ds dl ts l : G (CDirs (first ts None)) c ds (DS dl) -> G (CNoDir None) c ts (NS []) ->
    G (CTops None) (with_strict (c_strict c || use_strict dl) c) ts (NS l) ->
    G CProgram c (ds ++ ts) (N (if c_module c then Module z dl l else Script z dl l)).
