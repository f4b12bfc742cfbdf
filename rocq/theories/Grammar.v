(** * Grammar: the language the parser accepts, as a declarative grammar.

    [der D s c it ts] says that, in the context [c], the tokens [ts] of the
    source [D] form a phrase of the sort [s] whose tree is [it].  The rules are
    written like the productions of a language standard: they mention neither
    the parser's state nor its lookahead, backtracking or errors.  That every
    successful parse has such a derivation is the theorem [parse_sound] of
    [AllOk.v]; the properties of accepted programs are proved from the
    rules alone.

    Where a rule is laxer than ECMAScript it is because the code is
    (e.g. [d_asgarr_elem]: no commas needed between the elements of an array
    assignment pattern). *)

From Verif Require Import Base Tokens CharReader Lexer Ast Prog TokChain ParseState Parser.
Local Open Scope string_scope.
Local Open Scope list_scope.

(** ** Sorts *)

Inductive sort : Set :=
| YName                                  (* property name *)
| YExpr | YAssign | YArrow | YConcise | YCond | YBin (l : level) | YUnary | YUpdate
| YLhs | YLhs0 | YOpt | YRec | YMember | YTerm | YPrimary
| YProp | YOptProp (optional : bool) | YArgs | YArg
| YTemplate | YTpl
| YArr | YElem | YPropDef
| YMethod | YParams | YBody | YFunction | YClass
| YHeritage | YClassBody (has_super : bool) | YClassElem (has_super : bool)
| YPat | YBindElem | YBindProp | YBindArr | YInit
| YAsg | YAsgTarget | YAsgElem | YAsgProp | YAsgArr
| YVarDecl | YForInit | YOptExpr | YForDecl
| YItem | YDecl | YStmt | YBlock | YCatch | YOptCatch | YFinally | YCase | YOptStmt
| YImportClause | YImportSpec | YExportSpec
| YProgram
| YSep (s : sort)                        (* one or more, separated by commas *)
| YMany (s : sort)                       (* any number *)
| YList (s : sort) (close : punct)       (* comma separated, up to and with [close] *)
| YRList (s r : sort) (close : punct).   (* the same, with an optional [...r] at the end *)

Inductive item : Set :=
| I (n : node)
| L (l : list node)
| O (o : option node)
| R (l : list node) (r : option node)
| RO (l : list (option node)) (r : option node)
| Im (default_binding namespace_binding : option ident) (named : option (list node)).

(** ** Tokens *)

Definition isp (p : punct) (t : token) : Prop := t_value t = VPunct p.
Definition isk (k : keyword) (t : token) : Prop := t_value t = VKeyword k.

(** [t] is an identifier token, or a keyword usable as one in [c]. *)
Definition ident_tok (c : ctx) (t : token) (i : ident) : Prop :=
  id_span i = t_span t /\
  (t_value t = VIdentifier (id_name i) \/
   exists k, t_value t = VKeyword k /\ is_allowed_as_identifier k (keyword_context c) = true /\
             id_name i = keyword_str k).

(** [t] is any identifier name (keywords included). *)
Definition name_tok (t : token) (i : ident) : Prop :=
  id_span i = t_span t /\
  (t_value t = VIdentifier (id_name i) \/
   exists k, t_value t = VKeyword k /\ id_name i = keyword_str k).

Definition str_tok (t : token) (s : lit_string) : Prop :=
  t_value t = VLiteral (TLString (ls_value s) (ls_delimiter s)).

(** What may be assigned to (checked before [=], [op=], [++], [--], in
    destructuring and in for-in/of heads). *)
Fixpoint simple_target (c : ctx) (e : node) : Prop :=
  match e with
  | EIdentRef i => c_strict c = true -> id_name i <> chars "arguments" /\ id_name i <> chars "eval"
  | EMember _ _ _ => True
  | EParenthesized _ e' => simple_target c e'
  | _ => False
  end.

(** The argument of [delete]. *)
Fixpoint deletable (e : node) : Prop :=
  match e with
  | EIdentRef _ => False
  | EParenthesized _ e' => deletable e'
  | _ => True
  end.

Definition async_prefix (a : bool) (pre : list token) : Prop :=
  match pre with
  | [] => a = false
  | [t] => a = true /\ isk KAsync t
  | _ => False
  end.
Definition star_prefix (g : bool) (pre : list token) : Prop :=
  match pre with
  | [] => g = false
  | [t] => g = true /\ isp PStar t
  | _ => False
  end.

(** The tokens before the name of a method, its kind, and the context of its
    parameters and body. *)
Inductive mhead (c : ctx) : method_kind -> ctx -> list token -> Prop :=
| mh_plain : mhead c MKMethod c []
| mh_generator t : isp PStar t -> mhead c MKMethod (with_await false (with_yield true c)) [t]
| mh_get t : isk KGet t -> mhead c MKGet c [t]
| mh_set t : isk KSet t -> mhead c MKSet c [t]
| mh_async t g tg : isk KAsync t -> star_prefix g tg ->
    mhead c MKMethod (with_await true (with_yield g c)) (t :: tg).

Definition method_checks (k : method_kind) (p b : node) : Prop :=
  match k with
  | MKMethod => early_errors_method p (body_directives b)
  | MKGet => early_errors_getter p
  | MKSet => early_errors_setter p (body_directives b)
  end = Ok tt.

Definition static_prefix (c : ctx) (st : bool) (pre : list token) : Prop :=
  match pre with
  | [] => st = false
  | [t] => st = true /\ c_static_method c = true /\ isk KStatic t
  | _ => False
  end.

(** [constructor] as an identifier or a string. *)
Definition constructor_tok (t : token) : Prop :=
  t_value t = VIdentifier (chars "constructor") \/
  exists d, t_value t = VLiteral (TLString (chars "constructor") d).

(** The name of a function or class declaration; after [export default] it may
    be missing. [p] is where the next token starts. *)
Definition decl_name (c : ctx) (p : nat) (i : ident) (ts : list token) : Prop :=
  match ts with
  | [] => c_default c = true /\ i = ident_dummy p
  | [t] => ident_tok c t i
  | _ => False
  end.
Definition opt_name (c : ctx) (o : option ident) (ts : list token) : Prop :=
  match ts with
  | [] => o = None
  | [t] => exists i, o = Some i /\ ident_tok c t i
  | _ => False
  end.

Definition kind_tok (k : variable_kind) (t : token) : Prop :=
  isk (match k with VKVar => KVar | VKLet => KLet | VKConst => KConst end) t.

Definition opt_semi (ts : list token) : Prop :=
  match ts with
  | [] => True
  | [t] => isp PSemiColon t
  | _ => False
  end.

Definition next_sort (l : level) : sort :=
  match next_level l with Some l' => YBin l' | None => YUnary end.

Section Der.
Context {PF : Platform}.
Variable D : str.

(** A semicolon may be inserted after the token that ends at [p]: the source
    ends there, or the next token is [}], or is the first of its line. *)
Definition asi_at (p : nat) : Prop :=
  exists toks pre f,
    chain D [] true toks pre f /\ tfin toks = p /\
    (eos_at D pre f \/
     exists t pre' f', tok_at D pre f t pre' f' /\ (isp PBracketClose t \/ t_fol t = true)).

(** The end of a statement whose last token before the semicolon is the last of [ts]. *)
Definition terminated (ts semi : list token) : Prop :=
  match semi with
  | [] => asi_at (tfin ts)
  | [t] => isp PSemiColon t
  | _ => False
  end.

Inductive der : sort -> ctx -> item -> list token -> Prop :=
(* ---- lists ---- *)
| d_sep_one s c x ts : der s c (I x) ts -> der (YSep s) c (L [x]) ts
| d_sep_snoc s c l x ts tl t tx :
    ts = tl ++ t :: tx ->
    der (YSep s) c (L l) tl -> isp PComma t -> der s c (I x) tx ->
    der (YSep s) c (L (l ++ [x])) ts
| d_many_nil s c : der (YMany s) c (L []) []
| d_many_cons s c x l ts tx tl :
    ts = tx ++ tl -> der s c (I x) tx -> der (YMany s) c (L l) tl ->
    der (YMany s) c (L (x :: l)) ts
| d_list_close s p c t : isp p t -> der (YList s p) c (L []) [t]
| d_list_comma s p c x l ts tx t tl :
    ts = tx ++ t :: tl -> der s c (I x) tx -> isp PComma t -> der (YList s p) c (L l) tl ->
    der (YList s p) c (L (x :: l)) ts
| d_list_last s p c x ts tx t :
    ts = tx ++ [t] -> der s c (I x) tx -> isp p t -> der (YList s p) c (L [x]) ts
| d_rlist_close s r p c t : isp p t -> der (YRList s r p) c (R [] None) [t]
| d_rlist_rest s r p c x ts t tx t' :
    ts = t :: tx ++ [t'] -> isp PTripleDot t -> der r c (I x) tx -> isp p t' ->
    der (YRList s r p) c (R [] (Some x)) ts
| d_rlist_comma s r p c x l o ts tx t tl :
    ts = tx ++ t :: tl -> der s c (I x) tx -> isp PComma t -> der (YRList s r p) c (R l o) tl ->
    der (YRList s r p) c (R (x :: l) o) ts
| d_rlist_last s r p c x ts tx t :
    ts = tx ++ [t] -> der s c (I x) tx -> isp p t -> der (YRList s r p) c (R [x] None) ts
(* ---- property names ---- *)
| d_name_string c t s : str_tok t s -> der YName c (I (NameString s)) [t]
| d_name_number c t raw : t_value t = VLiteral (TLNumber raw) -> der YName c (I (NameNumber raw)) [t]
| d_name_computed c e ts t te t' :
    ts = t :: te ++ [t'] -> isp PBraceOpen t -> der YAssign c (I e) te -> isp PBraceClose t' ->
    der YName c (I (NameComputed e)) ts
| d_name_ident c t i : name_tok t i -> der YName c (I (NameIdent i)) [t]
(* ---- expressions ---- *)
| d_expr_one c e ts : der YAssign c (I e) ts -> der YExpr c (I e) ts
| d_expr_seq c es sp ts :
    der (YSep YAssign) c (L es) ts -> 2 <= length es -> sp = span_of ts ->
    der YExpr c (I (ESequence sp es)) ts
| d_assign_cond c e ts : der YCond c (I e) ts -> der YAssign c (I e) ts
| d_assign_arrow c e ts : der YArrow c (I e) ts -> der YAssign c (I e) ts
| d_assign_async_call c sp t i ta args ts :
    ts = t :: ta -> isk KAsync t -> ident_tok c t i -> der YArgs c (L args) ta -> sp = span_of ts ->
    der YAssign c (I (ECall sp (EIdentRef i) (span_of ta) args)) ts
| d_assign_yield c sp t ts :
    ts = [t] -> c_yield c = true -> isk KYield t -> sp = span_of ts ->
    der YAssign c (I (EYield sp None false)) ts
| d_assign_yield_arg c sp t g tg e te ts :
    ts = t :: tg ++ te -> c_yield c = true -> isk KYield t -> star_prefix g tg ->
    der YAssign c (I e) te -> sp = span_of ts ->
    der YAssign c (I (EYield sp (Some e) g)) ts
| d_assign_simple c sp o e te t r tr ts :
    ts = te ++ t :: tr -> der YCond c (I e) te -> simple_target c e ->
    assignment_operator t = Some o -> der YAssign c (I r) tr -> sp = span_of ts ->
    der YAssign c (I (EAssign sp o e r)) ts
| d_assign_pattern c sp p tp t r tr ts :
    ts = tp ++ t :: tr -> der YAsg c (I p) tp -> isp PEqual t ->
    der YAssign c (I r) tr -> sp = span_of ts ->
    der YAssign c (I (EAssign sp AAssign p r)) ts
| d_arrow_ident c sp a pre t i t' b tb psp ts :
    ts = pre ++ t :: t' :: tb -> async_prefix a pre -> ident_tok c t i -> psp = span_of [t] ->
    isp PEqualGreater t' -> t_fol t' = false ->
    der YConcise (arrow_body_ctx c a) (I b) tb -> sp = span_of ts ->
    der YArrow c (I (EArrow sp a true
      (FormalParameters psp [BindElement psp (BindIdent i) None] None) b)) ts
| d_arrow_params c sp a pre p tp t' b tb ts :
    ts = pre ++ tp ++ t' :: tb -> async_prefix a pre -> der YParams c (I p) tp ->
    isp PEqualGreater t' -> t_fol t' = false ->
    der YConcise (arrow_body_ctx c a) (I b) tb -> sp = span_of ts ->
    der YArrow c (I (EArrow sp a false p b)) ts
| d_concise_body c b ts : der YBody c (I b) ts -> der YConcise c (I b) ts
| d_concise_expr c e ts : der YAssign c (I e) ts -> der YConcise c (I e) ts
| d_cond_bin c e ts : der (YBin LvCoalesce) c (I e) ts -> der YCond c (I e) ts
| d_cond c sp e te t a ta t' b tb ts :
    ts = te ++ t :: ta ++ t' :: tb -> der (YBin LvCoalesce) c (I e) te -> isp PQuestionMark t ->
    der YAssign c (I a) ta -> isp PColon t' -> der YAssign c (I b) tb -> sp = span_of ts ->
    der YCond c (I (EConditional sp e a b)) ts
| d_bin_next l c e ts : der (next_sort l) c (I e) ts -> der (YBin l) c (I e) ts
| d_bin l c sp o e te t r tr ts :
    ts = te ++ t :: tr -> der (YBin l) c (I e) te -> map_operator l (c_in c) t = Some o ->
    der (next_sort l) c (I r) tr -> sp = span_of ts ->
    der (YBin l) c (I (create_expr sp e r o)) ts
| d_unary_op c sp o t e te ts :
    ts = t :: te -> unary_operator t = Some o -> der YUnary c (I e) te ->
    (o = UDelete -> c_strict c = true -> deletable e) -> sp = span_of ts ->
    der YUnary c (I (EUnary sp o e)) ts
| d_unary_await c sp t e te ts :
    ts = t :: te -> c_await c = true -> isk KAwait t -> der YUnary c (I e) te -> sp = span_of ts ->
    der YUnary c (I (EAwait sp e)) ts
| d_unary_update c e ts : der YUpdate c (I e) ts -> der YUnary c (I e) ts
| d_update_prefix c sp o t e te ts :
    ts = t :: te -> update_operator t = Some o -> der YUnary c (I e) te -> simple_target c e ->
    sp = span_of ts ->
    der YUpdate c (I (EUpdate sp o true e)) ts
| d_update_postfix c sp o e te t ts :
    ts = te ++ [t] -> der YLhs c (I e) te -> simple_target c e -> update_operator t = Some o ->
    t_fol t = false -> sp = span_of ts ->
    der YUpdate c (I (EUpdate sp o false e)) ts
| d_update_lhs c e ts : der YLhs c (I e) ts -> der YUpdate c (I e) ts
| d_lhs0 c e ts : der YLhs0 c (I e) ts -> der YLhs c (I e) ts
| d_lhs_opt c e ts : der YOpt c (I e) ts -> der YLhs c (I e) ts
| d_lhs0_super c sp t args ta ts :
    ts = t :: ta -> isk KSuper t -> c_super_call c = true -> der YArgs c (L args) ta ->
    sp = span_of ts ->
    der YLhs0 c (I (ECall sp CalleeSuper (span_of ta) args)) ts
| d_lhs0_import c sp asp t t1 e te t2 ts :
    ts = t :: t1 :: te ++ [t2] -> isk KImport t -> isp PParenOpen t1 -> der YAssign c (I e) te ->
    isp PParenClose t2 -> asp = span_of (t1 :: te ++ [t2]) -> sp = span_of ts ->
    der YLhs0 c (I (ECall sp CalleeImport asp [ArgExpr e])) ts
| d_lhs0_rec c e ts : der YRec c (I e) ts -> der YLhs0 c (I e) ts
(* an optional chain starts with [?.] *)
| d_opt_first_member c sp e te p tp ts :
    ts = te ++ tp -> der YLhs0 c (I e) te -> is_nested_new e = false ->
    der (YOptProp true) c (I p) tp -> sp = span_of ts ->
    der YOpt c (I (EOptionalMember sp e p true)) ts
| d_opt_first_call c sp e te t args ta ts :
    ts = te ++ t :: ta -> der YLhs0 c (I e) te -> is_nested_new e = false ->
    isp PQuestionMarkDot t -> der YArgs c (L args) ta -> sp = span_of ts ->
    der YOpt c (I (EOptionalCall sp e (span_of ta) args true)) ts
| d_opt_member c sp b e te p tp ts :
    ts = te ++ tp -> der YOpt c (I e) te -> der (YOptProp b) c (I p) tp -> sp = span_of ts ->
    der YOpt c (I (EOptionalMember sp e p b)) ts
| d_opt_call c sp e te t args ta ts :
    ts = te ++ t :: ta -> der YOpt c (I e) te ->
    isp PQuestionMarkDot t -> der YArgs c (L args) ta -> sp = span_of ts ->
    der YOpt c (I (EOptionalCall sp e (span_of ta) args true)) ts
| d_opt_plain_call c sp e te args ta ts :
    ts = te ++ ta -> der YOpt c (I e) te -> der YArgs c (L args) ta -> sp = span_of ts ->
    der YOpt c (I (EOptionalCall sp e (span_of ta) args false)) ts
| d_rec_member c e ts : der YMember c (I e) ts -> der YRec c (I e) ts
| d_rec_call c sp e te args ta ts :
    ts = te ++ ta -> der YRec c (I e) te -> der YArgs c (L args) ta -> sp = span_of ts ->
    der YRec c (I (ECall sp e (span_of ta) args)) ts
| d_rec_prop c sp e te p tp ts :
    ts = te ++ tp -> der YRec c (I e) te -> der YProp c (I p) tp -> sp = span_of ts ->
    der YRec c (I (EMember sp e p)) ts
| d_rec_template c sp e te p tp ts :
    ts = te ++ tp -> der YRec c (I e) te -> der YTemplate c (I p) tp -> sp = span_of ts ->
    der YRec c (I (ETaggedTemplate sp e p)) ts
| d_member_term c e ts : der YTerm c (I e) ts -> der YMember c (I e) ts
| d_member_prop c sp e te p tp ts :
    ts = te ++ tp -> der YMember c (I e) te -> der YProp c (I p) tp -> sp = span_of ts ->
    der YMember c (I (EMember sp e p)) ts
| d_member_template c sp e te p tp ts :
    ts = te ++ tp -> der YMember c (I e) te -> der YTemplate c (I p) tp -> sp = span_of ts ->
    der YMember c (I (ETaggedTemplate sp e p)) ts
| d_term_super c sp t p tp ts :
    ts = t :: tp -> isk KSuper t -> c_in_method c = true -> der YProp c (I p) tp -> sp = span_of ts ->
    der YTerm c (I (EMember sp (ObjSuper (t_span t)) p)) ts
| d_term_new c sp t e te ts :
    ts = t :: te -> isk KNew t -> der YMember c (I e) te -> sp = span_of ts ->
    der YTerm c (I (ENew sp e None [])) ts
| d_term_new_args c sp t e te args ta ts :
    ts = t :: te ++ ta -> isk KNew t -> der YMember c (I e) te -> der YArgs c (L args) ta ->
    sp = span_of ts ->
    der YTerm c (I (ENew sp e (Some (span_of ta)) args)) ts
| d_term_new_target c sp t t1 t2 i ts :
    ts = [t; t1; t2] -> isk KNew t -> isp PDot t1 -> ident_tok c t2 i -> id_name i = chars "target" ->
    sp = span_of ts ->
    der YTerm c (I (EMetaProperty sp (mk_ident (t_span t) (chars "new")) i)) ts
| d_term_import_meta c sp t t1 t2 i ts :
    ts = [t; t1; t2] -> isk KImport t -> isp PDot t1 -> ident_tok c t2 i -> id_name i = chars "meta" ->
    sp = span_of ts ->
    der YTerm c (I (EMetaProperty sp (mk_ident (t_span t) (chars "import")) i)) ts
| d_term_primary c e ts : der YPrimary c (I e) ts -> der YTerm c (I e) ts
| d_prop_dot c t t1 i : isp PDot t -> name_tok t1 i -> der YProp c (I (PropIdent i)) [t; t1]
| d_prop_computed c t e te t1 ts :
    ts = t :: te ++ [t1] -> isp PBraceOpen t -> der YExpr (with_in true c) (I e) te ->
    isp PBraceClose t1 ->
    der YProp c (I (PropExpr e)) ts
| d_optprop_ident c (b : bool) t t1 i :
    isp (if b then PQuestionMarkDot else PDot) t -> ident_tok c t1 i ->
    der (YOptProp b) c (I (PropIdent i)) [t; t1]
| d_optprop_computed c t0 t e te t1 ts :
    ts = t0 :: t :: te ++ [t1] -> isp PQuestionMarkDot t0 -> isp PBraceOpen t ->
    der YExpr c (I e) te -> isp PBraceClose t1 ->
    der (YOptProp true) c (I (PropExpr e)) ts
| d_optprop_plain c t e te t1 ts :
    ts = t :: te ++ [t1] -> isp PBraceOpen t ->
    der YExpr c (I e) te -> isp PBraceClose t1 ->
    der (YOptProp false) c (I (PropExpr e)) ts
| d_args c t l tl ts :
    ts = t :: tl -> isp PParenOpen t -> der (YList YArg PParenClose) (with_in true c) (L l) tl ->
    der YArgs c (L l) ts
| d_arg c e ts : der YAssign c (I e) ts -> der YArg c (I (ArgExpr e)) ts
| d_arg_spread c t e te ts :
    ts = t :: te -> isp PTripleDot t -> der YAssign c (I e) te -> der YArg c (I (ArgSpread e)) ts
| d_template_plain c t s :
    t_value t = VLiteral (TLTemplate s) -> der YTemplate c (I (LitTemplate [TplString s])) [t]
| d_template_head c t s ps tp ts :
    ts = t :: tp -> t_value t = VTemplateHead s -> der YTpl c (L ps) tp ->
    der YTemplate c (I (LitTemplate (str_part s ++ ps))) ts
| d_tpl_tail c e te t s ts :
    ts = te ++ [t] -> der YExpr c (I e) te -> t_value t = VTemplateTail s ->
    der YTpl c (L (TplExpr e :: str_part s)) ts
| d_tpl_middle c e te t s ps tp ts :
    ts = te ++ t :: tp -> der YExpr c (I e) te -> t_value t = VTemplateMiddle s ->
    der YTpl c (L ps) tp ->
    der YTpl c (L (TplExpr e :: str_part s ++ ps)) ts
| d_this c t : isk KThis t -> der YPrimary c (I (EThis (t_span t))) [t]
| d_null c t : isk KNull t -> der YPrimary c (I (ELiteral (t_span t) LitNull)) [t]
| d_true c t : isk KTrue t -> der YPrimary c (I (ELiteral (t_span t) (LitBoolean true))) [t]
| d_false c t : isk KFalse t -> der YPrimary c (I (ELiteral (t_span t) (LitBoolean false))) [t]
| d_literal c t l :
    t_value t = VLiteral l -> der YPrimary c (I (ELiteral (t_span t) (literal_node l))) [t]
| d_primary_template c sp p ts :
    der YTemplate c (I p) ts -> sp = span_of ts -> der YPrimary c (I (ELiteral sp p)) ts
| d_array c sp t l tl ts :
    ts = t :: tl -> isp PBraceOpen t -> der YArr c (L l) tl -> sp = span_of ts ->
    der YPrimary c (I (ELiteral sp (LitArray l))) ts
| d_object c sp t l tl ts :
    ts = t :: tl -> isp PBracketOpen t -> der (YList YPropDef PBracketClose) c (L l) tl ->
    sp = span_of ts ->
    der YPrimary c (I (ELiteral sp (LitObject l))) ts
| d_primary_function c e ts : der YFunction c (I e) ts -> der YPrimary c (I e) ts
| d_primary_class c e ts : der YClass (with_strict true c) (I e) ts -> der YPrimary c (I e) ts
| d_primary_ident c t i : ident_tok c t i -> der YPrimary c (I (EIdentRef i)) [t]
| d_paren c sp t e te t1 ts :
    ts = t :: te ++ [t1] -> isp PParenOpen t -> der YExpr (with_in true c) (I e) te ->
    isp PParenClose t1 -> sp = span_of ts ->
    der YPrimary c (I (EParenthesized sp e)) ts
(* ---- array and object literals ---- *)
| d_arr_close c t : isp PBraceClose t -> der YArr c (L []) [t]
| d_arr_elision c t l tl ts :
    ts = t :: tl -> isp PComma t -> der YArr c (L l) tl -> der YArr c (L (ElemElision :: l)) ts
| d_arr_comma c x tx t l tl ts :
    ts = tx ++ t :: tl -> der YElem c (I x) tx -> isp PComma t -> der YArr c (L l) tl ->
    der YArr c (L (x :: l)) ts
| d_arr_last c x tx t ts :
    ts = tx ++ [t] -> der YElem c (I x) tx -> isp PBraceClose t -> der YArr c (L [x]) ts
| d_elem c e ts : der YAssign c (I e) ts -> der YElem c (I (ElemExpr e)) ts
| d_elem_spread c t e te ts :
    ts = t :: te -> isp PTripleDot t -> der YAssign c (I e) te -> der YElem c (I (ElemSpread e)) ts
| d_def_spread c t e te ts :
    ts = t :: te -> isp PTripleDot t -> der YAssign c (I e) te -> der YPropDef c (I (DefSpread e)) ts
| d_def_named c sp n tn t e te ts :
    ts = tn ++ t :: te -> der YName c (I n) tn -> isp PColon t -> der YAssign c (I e) te ->
    sp = span_of ts ->
    der YPropDef c (I (DefNamed sp n e)) ts
| d_def_ident c t i : ident_tok c t i -> der YPropDef c (I (DefIdentRef i)) [t]
| d_def_method c m ts :
    der YMethod (with_super_call_allowed false
                  (with_static_method_allowed false (with_in_method true c))) (I m) ts ->
    der YPropDef c (I (DefMethod m)) ts
(* a method with a computed name keeps the context of the object literal *)
| d_def_computed_method c sp n tn p tp b tb ts :
    ts = tn ++ tp ++ tb -> der YName c (I n) tn ->
    (exists e, n = NameComputed e) ->
    der YParams (with_yield false c) (I p) tp -> der YBody c (I b) tb ->
    method_checks MKMethod p b -> sp = span_of ts ->
    der YPropDef c (I (DefMethod (Method sp n MKMethod p b (c_yield c) (c_await c) false))) ts
(* ---- methods, functions, classes ---- *)
| d_method c st k c' tst pre n tn p tp b tb sp ts :
    ts = tst ++ pre ++ tn ++ tp ++ tb -> static_prefix c st tst -> mhead c k c' pre ->
    der YName c (I n) tn -> der YParams (with_yield false c') (I p) tp -> der YBody c' (I b) tb ->
    method_checks k p b -> sp = span_of (pre ++ tn ++ tp ++ tb) ->
    der YMethod c (I (Method sp n k p b (c_yield c') (c_await c') st)) ts
| d_params c sp t l r tl ts :
    ts = t :: tl -> isp PParenOpen t -> der (YRList YBindElem YPat PParenClose) c (R l r) tl ->
    sp = span_of ts ->
    der YParams c (I (FormalParameters sp l r)) ts
| d_body c sp t ds dl td l tl t1 ts :
    ts = t :: td ++ tl ++ [t1] -> isp PBracketOpen t ->
    der (YMany YItem) c (L dl) td -> map directive_of dl = map Some ds ->
    der (YMany YItem)
      (with_return true (with_strict (c_strict c || contains_strict ds)%bool c)) (L l) tl ->
    isp PBracketClose t1 -> sp = span_of ts ->
    der YBody c (I (Body sp ds l)) ts
| d_function c sp a ta t g tg o to p tp b tb ts :
    ts = ta ++ t :: tg ++ to ++ tp ++ tb -> async_prefix a ta -> isk KFunction t -> star_prefix g tg ->
    opt_name (function_ctx c g a) o to ->
    der YParams (function_ctx c g a) (I p) tp -> der YBody (function_ctx c g a) (I b) tb ->
    sp = span_of ts ->
    der YFunction c (I (EFunction sp a g o p b)) ts
| d_class c sp t o to h th l t1 tl ts :
    ts = t :: to ++ th ++ t1 :: tl -> isk KClass t -> opt_name c o to -> der YHeritage c (O h) th ->
    isp PBracketOpen t1 -> der (YClassBody (is_some h)) c (L l) tl -> sp = span_of ts ->
    der YClass c (I (EClass sp o h l)) ts
| d_heritage_none c : der YHeritage c (O None) []
| d_heritage c t e te ts :
    ts = t :: te -> isk KExtends t -> der YLhs c (I e) te -> der YHeritage c (O (Some e)) ts
| d_classbody_close hs c t : isp PBracketClose t -> der (YClassBody hs) c (L []) [t]
| d_classbody_semi hs c t l tl ts :
    ts = t :: tl -> isp PSemiColon t -> der (YClassBody hs) c (L l) tl ->
    der (YClassBody hs) c (L l) ts
| d_classbody_elem hs c x tx l tl ts :
    ts = tx ++ tl -> der (YClassElem hs) c (I x) tx -> der (YClassBody hs) c (L l) tl ->
    der (YClassBody hs) c (L (x :: l)) ts
| d_classelem hs c k m t ts' ts :
    ts = t :: ts' -> (k = true -> constructor_tok t) ->
    der YMethod (with_super_call_allowed (hs && k)%bool
                  (with_static_method_allowed true (with_in_method true c))) (I m) ts ->
    der (YClassElem hs) c (I m) ts
(* ---- binding patterns ---- *)
| d_pat_ident c t i : ident_tok c t i -> der YPat c (I (BindIdent i)) [t]
| d_pat_object c sp t l r tl ts :
    ts = t :: tl -> isp PBracketOpen t -> der (YRList YBindProp YPat PBracketClose) c (R l r) tl ->
    sp = span_of ts ->
    der YPat c (I (BindObject sp l r)) ts
| d_pat_array c sp t l r tl ts :
    ts = t :: tl -> isp PBraceOpen t -> der YBindArr c (RO l r) tl -> sp = span_of ts ->
    der YPat c (I (BindArray sp l r)) ts
| d_bindarr_close c t : isp PBraceClose t -> der YBindArr c (RO [] None) [t]
| d_bindarr_elision c t l r tl ts :
    ts = t :: tl -> isp PComma t -> der YBindArr c (RO l r) tl -> der YBindArr c (RO (None :: l) r) ts
| d_bindarr_rest c t x tx t1 ts :
    ts = t :: tx ++ [t1] -> isp PTripleDot t -> der YPat c (I x) tx -> isp PBraceClose t1 ->
    der YBindArr c (RO [] (Some x)) ts
| d_bindarr_comma c x tx t l r tl ts :
    ts = tx ++ t :: tl -> der YBindElem c (I x) tx -> isp PComma t -> der YBindArr c (RO l r) tl ->
    der YBindArr c (RO (Some x :: l) r) ts
| d_bindarr_last c x tx t ts :
    ts = tx ++ [t] -> der YBindElem c (I x) tx -> isp PBraceClose t ->
    der YBindArr c (RO [Some x] None) ts
| d_bindelem c sp p tp o to ts :
    ts = tp ++ to -> der YPat c (I p) tp -> der YInit (with_in true c) (O o) to -> sp = span_of ts ->
    der YBindElem c (I (BindElement sp p o)) ts
| d_bind_single c sp t i o to ts :
    ts = t :: to -> ident_tok c t i -> der YInit (with_in true c) (O o) to -> sp = span_of ts ->
    der YBindProp c (I (BindSingle sp i o)) ts
| d_bind_named c sp n tn t b tb ts :
    ts = tn ++ t :: tb -> der YName c (I n) tn -> isp PColon t -> der YBindElem c (I b) tb ->
    sp = span_of ts ->
    der YBindProp c (I (BindNamed sp n b)) ts
| d_init_none c : der YInit c (O None) []
| d_init c t e te ts :
    ts = t :: te -> isp PEqual t -> der YAssign c (I e) te -> der YInit c (O (Some e)) ts
(* ---- assignment patterns ---- *)
| d_asg_object c sp t l r tl ts :
    ts = t :: tl -> isp PBracketOpen t ->
    der (YRList YAsgProp YAsgTarget PBracketClose) c (R l r) tl -> sp = span_of ts ->
    der YAsg c (I (AsgObject sp l r)) ts
| d_asg_array c sp t l r tl ts :
    ts = t :: tl -> isp PBraceOpen t -> der YAsgArr c (RO l r) tl -> sp = span_of ts ->
    der YAsg c (I (AsgArray sp l r)) ts
| d_asgarr_close c t : isp PBraceClose t -> der YAsgArr c (RO [] None) [t]
| d_asgarr_elision c t l r tl ts :
    ts = t :: tl -> isp PComma t -> der YAsgArr c (RO l r) tl -> der YAsgArr c (RO (None :: l) r) ts
| d_asgarr_rest c t x tx t1 ts :
    ts = t :: tx ++ [t1] -> isp PTripleDot t -> der YAsgTarget c (I x) tx -> isp PBraceClose t1 ->
    der YAsgArr c (RO [] (Some x)) ts
| d_asgarr_elem c x tx l r tl ts :
    ts = tx ++ tl -> der YAsgElem c (I x) tx -> der YAsgArr c (RO l r) tl ->
    der YAsgArr c (RO (Some x :: l) r) ts
| d_asgtarget_pattern c p ts : der YAsg c (I p) ts -> der YAsgTarget c (I p) ts
| d_asgtarget_expr c e ts :
    der YLhs c (I e) ts -> simple_target c e -> der YAsgTarget c (I e) ts
| d_asgelem c sp x tx o to ts :
    ts = tx ++ to -> der YAsgTarget c (I x) tx -> der YInit (with_in true c) (O o) to ->
    sp = span_of ts ->
    der YAsgElem c (I (AsgElement sp x o)) ts
| d_asg_single c sp t i o to ts :
    ts = t :: to -> ident_tok c t i -> der YInit c (O o) to -> sp = span_of ts ->
    der YAsgProp c (I (AsgSingle sp i o)) ts
| d_asg_named c sp n tn t x tx o to ts :
    ts = tn ++ t :: tx ++ to -> der YName c (I n) tn -> isp PColon t ->
    der YAsgTarget c (I x) tx -> der YInit (with_in true c) (O o) to -> sp = span_of ts ->
    der YAsgProp c (I (AsgNamed sp n x o)) ts
(* ---- declarations ---- *)
| d_vardecl c sp p tp o to ts :
    ts = tp ++ to -> der YPat c (I p) tp -> der YInit c (O o) to ->
    (o = None -> exists i, p = BindIdent i) -> sp = span_of ts ->
    der YVarDecl c (I (VarDecl sp p o)) ts
| d_decl_variable c sp k t l tl semi ts :
    ts = t :: tl ++ semi -> kind_tok k t -> k <> VKVar -> der (YSep YVarDecl) c (L l) tl ->
    opt_semi semi -> sp = span_of ts ->
    der YDecl c (I (SVariable sp k l)) ts
| d_stmt_variable c sp t l tl semi ts :
    ts = t :: tl ++ semi -> kind_tok VKVar t -> der (YSep YVarDecl) (with_in true c) (L l) tl ->
    opt_semi semi -> sp = span_of ts ->
    der YStmt c (I (SVariable sp VKVar l)) ts
| d_decl_function c sp a ta t g tg i ti p tp b tb ts :
    ts = ta ++ t :: tg ++ ti ++ tp ++ tb -> async_prefix a ta -> isk KFunction t -> star_prefix g tg ->
    decl_name c (tsta tp) i ti ->
    der YParams (function_ctx c g a) (I p) tp -> der YBody (function_ctx c g a) (I b) tb ->
    sp = span_of ts ->
    der YDecl c (I (SFunctionDecl sp a g i p b)) ts
| d_decl_class c sp t i ti h th t1 l tl ts :
    ts = t :: ti ++ th ++ t1 :: tl -> isk KClass t ->
    decl_name (with_strict true c) (tsta (th ++ [t1])) i ti ->
    der YHeritage (with_strict true c) (O h) th -> isp PBracketOpen t1 ->
    der (YClassBody (is_some h)) (with_strict true c) (L l) tl -> sp = span_of ts ->
    der YDecl c (I (SClassDecl sp i h l)) ts
(* ---- modules ---- *)
| d_import_bare c sp t t1 s semi ts :
    ts = t :: t1 :: semi -> c_module c = true -> isk KImport t -> str_tok t1 s ->
    terminated [t; t1] semi -> sp = span_of ts ->
    der YDecl c (I (SImport sp None None None s)) ts
| d_import c sp t d ns nm tc t1 t2 s semi ts :
    ts = t :: tc ++ t1 :: t2 :: semi -> c_module c = true -> isk KImport t ->
    der YImportClause c (Im d ns nm) tc -> isk KFrom t1 -> str_tok t2 s ->
    terminated (t :: tc ++ [t1; t2]) semi -> sp = span_of ts ->
    der YDecl c (I (SImport sp d ns nm s)) ts
| d_clause_default c t i : ident_tok c t i -> der YImportClause c (Im (Some i) None None) [t]
| d_clause_namespace c d td t t1 t2 i ts :
    ts = td ++ [t; t1; t2] ->
    match td with
    | [] => d = None
    | [u; v] => exists j, d = Some j /\ ident_tok c u j /\ isp PComma v
    | _ => False
    end ->
    isp PStar t -> isk KAs t1 -> ident_tok c t2 i ->
    der YImportClause c (Im d (Some i) None) ts
| d_clause_named c d td t l tl ts :
    ts = td ++ t :: tl ->
    match td with
    | [] => d = None
    | [u; v] => exists j, d = Some j /\ ident_tok c u j /\ isp PComma v
    | _ => False
    end ->
    isp PBracketOpen t -> der (YList YImportSpec PBracketClose) c (L l) tl ->
    der YImportClause c (Im d None (Some l)) ts
| d_importspec c sp t n ts :
    ts = [t] -> name_tok t n -> sp = span_of ts -> der YImportSpec c (I (NamedImport sp n None)) ts
| d_importspec_as c sp t n t1 t2 i ts :
    ts = [t; t1; t2] -> name_tok t n -> isk KAs t1 -> ident_tok c t2 i -> sp = span_of ts ->
    der YImportSpec c (I (NamedImport sp n (Some i))) ts
| d_exportspec c sp t n ts :
    ts = [t] -> name_tok t n -> sp = span_of ts -> der YExportSpec c (I (NamedExport sp n None)) ts
| d_exportspec_as c sp t n t1 t2 i ts :
    ts = [t; t1; t2] -> name_tok t n -> isk KAs t1 -> name_tok t2 i -> sp = span_of ts ->
    der YExportSpec c (I (NamedExport sp i (Some n))) ts
| d_export_named c sp t t1 l tl semi ts :
    ts = t :: t1 :: tl ++ semi -> c_module c = true -> isk KExport t -> isp PBracketOpen t1 ->
    der (YList YExportSpec PBracketClose) c (L l) tl ->
    terminated (t :: t1 :: tl) semi -> sp = span_of ts ->
    der YDecl c (I (XNamed sp l None)) ts
| d_export_named_from c sp t t1 l tl t2 t3 s semi ts :
    ts = t :: t1 :: tl ++ t2 :: t3 :: semi -> c_module c = true -> isk KExport t ->
    isp PBracketOpen t1 ->
    der (YList YExportSpec PBracketClose) c (L l) tl -> isk KFrom t2 -> str_tok t3 s ->
    terminated (t :: t1 :: tl ++ [t2; t3]) semi -> sp = span_of ts ->
    der YDecl c (I (XNamed sp l (Some s))) ts
| d_export_namespace c sp t t1 a ta t2 t3 s semi ts :
    ts = t :: t1 :: ta ++ t2 :: t3 :: semi -> c_module c = true -> isk KExport t -> isp PStar t1 ->
    match ta with
    | [] => a = None
    | [u; v] => isk KAs u /\ exists i, a = Some i /\ name_tok v i
    | _ => False
    end ->
    isk KFrom t2 -> str_tok t3 s ->
    terminated (t :: t1 :: ta ++ [t2; t3]) semi -> sp = span_of ts ->
    der YDecl c (I (XNamespace sp a s)) ts
| d_export_var c sp t d td ts :
    ts = t :: td -> c_module c = true -> isk KExport t -> der YStmt c (I d) td ->
    (exists sp l, d = SVariable sp VKVar l) -> sp = span_of ts ->
    der YDecl c (I (XDecl sp d)) ts
| d_export_decl c sp t d td ts :
    ts = t :: td -> c_module c = true -> isk KExport t -> der YDecl c (I d) td -> sp = span_of ts ->
    match d with
    | SVariable _ _ _ | SFunctionDecl _ _ _ _ _ _ | SClassDecl _ _ _ _ => True
    | _ => False
    end ->
    der YDecl c (I (XDecl sp d)) ts
| d_export_default_decl c sp t t1 d td ts :
    ts = t :: t1 :: td -> c_module c = true -> isk KExport t -> isk KDefault t1 ->
    der YDecl (with_default true c) (I d) td -> sp = span_of ts ->
    match d with
    | SFunctionDecl _ _ _ _ _ _ | SClassDecl _ _ _ _ => True
    | _ => False
    end ->
    der YDecl c (I (XDefaultDecl sp d)) ts
| d_export_default_expr c sp t t1 e te semi ts :
    ts = t :: t1 :: te ++ semi -> c_module c = true -> isk KExport t -> isk KDefault t1 ->
    der YAssign (with_in true c) (I e) te -> terminated (t :: t1 :: te) semi -> sp = span_of ts ->
    der YDecl c (I (XDefaultExpr sp e)) ts
(* ---- statements ---- *)
| d_item_decl c d ts : der YDecl c (I d) ts -> der YItem c (I d) ts
| d_item_stmt c d ts : der YStmt c (I d) ts -> der YItem c (I d) ts
| d_empty c sp t : isp PSemiColon t -> sp = t_span t -> der YStmt c (I (SEmpty sp)) [t]
| d_stmt_block c b ts : der YBlock c (I b) ts -> der YStmt c (I b) ts
| d_block c sp t l tl t1 ts :
    ts = t :: tl ++ [t1] -> isp PBracketOpen t -> der (YMany YItem) c (L l) tl ->
    isp PBracketClose t1 -> sp = span_of ts ->
    der YBlock c (I (SBlock sp l)) ts
| d_if c sp t t1 e te t2 a ta o to ts :
    ts = t :: t1 :: te ++ t2 :: ta ++ to -> isk KIf t -> isp PParenOpen t1 ->
    der YExpr (with_in true c) (I e) te -> isp PParenClose t2 -> der YStmt c (I a) ta ->
    der YOptStmt c (O o) to -> sp = span_of ts ->
    der YStmt c (I (SIf sp e a o)) ts
| d_optstmt_none c : der YOptStmt c (O None) []
| d_optstmt c t b tb ts :
    ts = t :: tb -> isk KElse t -> der YStmt c (I b) tb -> der YOptStmt c (O (Some b)) ts
| d_break c sp t o to semi ts :
    ts = t :: to ++ semi -> isk KBreak t -> opt_name c o to -> opt_semi semi -> sp = span_of ts ->
    der YStmt c (I (SBreak sp o)) ts
| d_continue c sp t o to semi ts :
    ts = t :: to ++ semi -> isk KContinue t -> opt_name c o to -> opt_semi semi -> sp = span_of ts ->
    der YStmt c (I (SContinue sp o)) ts
| d_return c sp t o to semi ts :
    ts = t :: to ++ semi -> isk KReturn t -> c_return c = true ->
    der YOptExpr (with_in true c) (O o) to -> opt_semi semi -> sp = span_of ts ->
    der YStmt c (I (SReturn sp o)) ts
| d_optexpr_none c : der YOptExpr c (O None) []
| d_optexpr c e ts : der YExpr c (I e) ts -> der YOptExpr c (O (Some e)) ts
| d_throw c sp t e te semi ts :
    ts = t :: te ++ semi -> isk KThrow t -> der YExpr (with_in true c) (I e) te ->
    opt_semi semi -> sp = span_of ts ->
    der YStmt c (I (SThrow sp e)) ts
| d_debugger c sp t semi ts :
    ts = t :: semi -> isk KDebugger t -> opt_semi semi -> sp = span_of ts ->
    der YStmt c (I (SDebugger sp)) ts
| d_with c sp t t1 e te t2 b tb ts :
    ts = t :: t1 :: te ++ t2 :: tb -> isk KWith t -> isp PParenOpen t1 -> der YExpr c (I e) te ->
    isp PParenClose t2 -> der YStmt c (I b) tb -> sp = span_of ts ->
    der YStmt c (I (SWith sp e b)) ts
| d_try c sp t b tb h th f tf ts :
    ts = t :: tb ++ th ++ tf -> isk KTry t -> der YBlock c (I b) tb -> der YOptCatch c (O h) th ->
    der YFinally c (O f) tf -> (h = None -> f <> None) -> sp = span_of ts ->
    der YStmt c (I (STry sp b h f)) ts
| d_optcatch_none c : der YOptCatch c (O None) []
| d_optcatch c h ts : der YCatch c (I h) ts -> der YOptCatch c (O (Some h)) ts
| d_catch c sp t b tb ts :
    ts = t :: tb -> isk KCatch t -> der YBlock c (I b) tb -> sp = span_of ts ->
    der YCatch c (I (CatchClause sp None b)) ts
| d_catch_param c sp t t1 p tp t2 b tb ts :
    ts = t :: t1 :: tp ++ t2 :: tb -> isk KCatch t -> isp PParenOpen t1 -> der YPat c (I p) tp ->
    isp PParenClose t2 -> der YBlock c (I b) tb -> sp = span_of ts ->
    der YCatch c (I (CatchClause sp (Some p) b)) ts
| d_finally_none c : der YFinally c (O None) []
| d_finally c t b tb ts :
    ts = t :: tb -> isk KFinally t -> der YBlock c (I b) tb -> der YFinally c (O (Some b)) ts
| d_switch c sp t t1 e te t2 t3 l tl t4 ts :
    ts = t :: t1 :: te ++ t2 :: t3 :: tl ++ [t4] -> isk KSwitch t -> isp PParenOpen t1 ->
    der YExpr (with_in true c) (I e) te -> isp PParenClose t2 -> isp PBracketOpen t3 ->
    der (YMany YCase) c (L l) tl -> isp PBracketClose t4 -> sp = span_of ts ->
    der YStmt c (I (SSwitch sp e l)) ts
| d_case c sp t e te t1 l tl ts :
    ts = t :: te ++ t1 :: tl -> isk KCase t -> der YExpr (with_in true c) (I e) te ->
    isp PColon t1 -> der (YMany YItem) c (L l) tl -> sp = span_of ts ->
    der YCase c (I (SwitchCase sp (Some e) l)) ts
| d_default c sp t t1 l tl ts :
    ts = t :: t1 :: tl -> isk KDefault t -> isp PColon t1 -> der (YMany YItem) c (L l) tl ->
    sp = span_of ts ->
    der YCase c (I (SwitchCase sp None l)) ts
| d_labeled c sp t i t1 b tb ts :
    ts = t :: t1 :: tb -> ident_tok c t i -> isp PColon t1 -> der YStmt c (I b) tb ->
    sp = span_of ts ->
    der YStmt c (I (SLabeled sp i b)) ts
| d_expr_stmt c sp e te semi ts :
    ts = te ++ semi -> der YExpr (with_in true c) (I e) te -> terminated te semi -> sp = span_of ts ->
    der YStmt c (I (SExpr sp e)) ts
| d_do c sp t b tb t1 t2 e te t3 semi ts :
    ts = t :: tb ++ t1 :: t2 :: te ++ t3 :: semi -> isk KDo t -> der YStmt c (I b) tb ->
    isk KWhile t1 -> isp PParenOpen t2 -> der YExpr (with_in true c) (I e) te -> isp PParenClose t3 ->
    opt_semi semi -> sp = span_of ts ->
    der YStmt c (I (SDoWhile sp b e)) ts
| d_while c sp t t1 e te t2 b tb ts :
    ts = t :: t1 :: te ++ t2 :: tb -> isk KWhile t -> isp PParenOpen t1 ->
    der YExpr (with_in true c) (I e) te -> isp PParenClose t2 -> der YStmt c (I b) tb ->
    sp = span_of ts ->
    der YStmt c (I (SWhile sp e b)) ts
| d_for c sp t t1 i ti t2 e te t3 u tu t4 b tb ts :
    ts = t :: t1 :: ti ++ t2 :: te ++ t3 :: tu ++ t4 :: tb -> isk KFor t -> isp PParenOpen t1 ->
    der YForInit c (O i) ti -> isp PSemiColon t2 ->
    der YOptExpr (with_in true c) (O e) te -> isp PSemiColon t3 ->
    der YOptExpr (with_in true c) (O u) tu -> isp PParenClose t4 ->
    der YStmt c (I b) tb -> sp = span_of ts ->
    der YStmt c (I (SFor sp i e u b)) ts
| d_forinit_none c : der YForInit c (O None) []
| d_forinit_expr c e ts : der YExpr (with_in false c) (I e) ts -> der YForInit c (O (Some e)) ts
| d_forinit_decl c sp k t l tl ts :
    ts = t :: tl -> kind_tok k t -> der (YSep YVarDecl) (with_in false c) (L l) tl ->
    sp = span_of ts ->
    der YForInit c (O (Some (SVariable sp k l))) ts
| d_for_in c sp t t1 x tx t2 e te t3 b tb ts :
    ts = t :: t1 :: tx ++ t2 :: te ++ t3 :: tb -> isk KFor t -> isp PParenOpen t1 ->
    der YForDecl c (I x) tx -> isk KIn t2 -> der YExpr (with_in true c) (I e) te ->
    isp PParenClose t3 -> der YStmt c (I b) tb -> sp = span_of ts ->
    der YStmt c (I (SForIn sp x e b)) ts
| d_for_of c sp t ta a t1 x tx t2 e te t3 b tb ts :
    ts = t :: ta ++ t1 :: tx ++ t2 :: te ++ t3 :: tb -> isk KFor t ->
    match ta with
    | [] => a = false
    | [u] => a = true /\ c_await c = true /\ isk KAwait u
    | _ => False
    end ->
    isp PParenOpen t1 ->
    der YForDecl c (I x) tx -> isk KOf t2 -> der YExpr (with_in true c) (I e) te ->
    isp PParenClose t3 -> der YStmt c (I b) tb -> sp = span_of ts ->
    der YStmt c (I (SForOf sp x e b a)) ts
| d_fordecl_binding c sp k t p tp ts :
    ts = t :: tp -> kind_tok k t -> der YPat c (I p) tp -> sp = span_of ts ->
    der YForDecl c (I (ForBinding sp k p)) ts
| d_fordecl_pattern c p ts : der YAsg c (I p) ts -> der YForDecl c (I p) ts
| d_fordecl_expr c e ts : der YLhs c (I e) ts -> simple_target c e -> der YForDecl c (I e) ts
(* ---- programs ---- *)
| d_program c sp ds dl td l tl ts :
    ts = td ++ tl ->
    der (YMany YItem) c (L dl) td -> map directive_of dl = map Some ds ->
    der (YMany YItem) (if contains_strict ds then with_strict true c else c) (L l) tl ->
    sp = span_of ts ->
    der YProgram c (I (if c_module c then Module sp ds l else Script sp ds l)) ts.

End Der.
