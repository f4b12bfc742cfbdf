(** * AstSpec: what "inside a function", "strict code", ... mean for a tree.

    A small specification, independent of the parser: while walking down a
    syntax tree one keeps an [env] that records the enclosing constructs, and
    [visit e n e' x] says that the node [x] is reached from [n] and that [e'] is
    what encloses it.  The properties of accepted programs are statements about
    every visited node. *)

From Verif Require Import Base Tokens Ast.
Local Open Scope string_scope.
Local Open Scope list_scope.

(** ** Surroundings

    The walk takes a flag [es].  With [es = true] the surroundings are those of
    ECMAScript.  With [es = false] they differ in the four places where the
    code deviates from ECMAScript (arrow functions do not inherit strict mode,
    modules are not strict, a directive does not act on the parameters, and a
    method with a computed name in an object literal may call [super] when the
    object literal may).  [code_es] below relates the two. *)

Record env := mk_env {
  v_fn : bool;      (* inside the body of a function, method or arrow function *)
  v_await : bool;   (* the innermost function is marked async *)
  v_yield : bool;   (* the innermost function is marked as a generator *)
  v_method : bool;  (* inside a method (arrow functions do not count, functions end it) *)
  v_super : bool;   (* inside the constructor of a class with a heritage *)
  v_strict : bool;  (* strict code *)
  v_module : bool   (* the source is a module *)
}.

(** Outside of everything. *)
Definition env_top (module_ : bool) : env := mk_env false false false false false false module_.

Definition use_strict (ds : list lit_string) : bool :=
  existsb (fun d => str_eqb (ls_value d) (chars "use strict")) ds.

Definition in_function (asynchronous generator : bool) (e : env) : env :=
  mk_env (v_fn e) asynchronous generator false false (v_strict e) (v_module e).

(** The body of an arrow function. *)
Definition in_arrow (es : bool) (asynchronous : bool) (e : env) : env :=
  mk_env (v_fn e) asynchronous false (v_method e) (v_super e) (es && v_strict e)%bool (v_module e).

Definition in_body (ds : list lit_string) (e : env) : env :=
  mk_env true (v_await e) (v_yield e) (v_method e) (v_super e) (v_strict e || use_strict ds)%bool (v_module e).

Definition in_program (ds : list lit_string) (e : env) : env :=
  mk_env (v_fn e) (v_await e) (v_yield e) (v_method e) (v_super e) (v_strict e || use_strict ds)%bool (v_module e).

Definition strict_if (b : bool) (e : env) : env :=
  mk_env (v_fn e) (v_await e) (v_yield e) (v_method e) (v_super e) (v_strict e || b)%bool (v_module e).

(** Class code is strict. *)
Definition in_class (e : env) : env :=
  mk_env (v_fn e) (v_await e) (v_yield e) (v_method e) (v_super e) true (v_module e).

Definition with_method (super_call : bool) (e : env) : env :=
  mk_env (v_fn e) (v_await e) (v_yield e) true super_call (v_strict e) (v_module e).

Definition with_function (asynchronous generator : bool) (e : env) : env :=
  mk_env (v_fn e) asynchronous generator (v_method e) (v_super e) (v_strict e) (v_module e).

Definition is_constructor_name (n : node) : bool :=
  match n with
  | NameIdent i => str_eqb (id_name i) (chars "constructor")
  | NameString s => str_eqb (ls_value s) (chars "constructor")
  | _ => false
  end.
(** A plain, non-static method named [constructor]. *)
Definition is_constructor (m : node) : bool :=
  match m with
  | Method _ n MKMethod _ _ _ _ false => is_constructor_name n
  | _ => false
  end.
Definition has_computed_name (m : node) : bool :=
  match m with
  | Method _ (NameComputed _) MKMethod _ _ _ _ _ => true
  | _ => false
  end.

(** The body (of a function) starts with a "use strict" directive. *)
Definition body_strict (b : node) : bool :=
  match b with Body _ ds _ => use_strict ds | _ => false end.

Definition has (o : option node) : bool := match o with Some _ => true | None => false end.

(** A directive in the body [b] also makes the parameters strict code. *)
Definition in_params (es : bool) (b : node) (e : env) : env := if es then strict_if (body_strict b) e else e.

(** The children of [n], each with its surroundings. *)
Definition child_envs (es : bool) (e : env) (n : node) : list (env * node) :=
  match n with
  | EFunction _ a g _ p b => [(in_params es b (in_function a g e), p); (in_function a g e, b)]
  | SFunctionDecl _ a g _ p b => [(in_params es b (in_function a g e), p); (in_function a g e, b)]
  | EArrow _ a _ p b => [(in_params es b e, p); (in_arrow es a e, b)]
  | EClass _ _ h l | SClassDecl _ _ h l =>
    map (pair (in_class e)) (opt_list h) ++
    map (fun m => (with_method (has h && is_constructor m) (in_class e), m)) l
  | DefMethod m => [(with_method (negb es && has_computed_name m && v_super e) e, m)]
  | Method _ n _ p b g a _ =>
    [(e, n); (in_params es b (with_function a false e), p); (with_function a g e, b)]
  | Body _ ds l => map (pair (in_body ds e)) l
  | Script _ ds l => map (pair (in_program ds e)) l
  | Module _ ds l => map (pair (if es then strict_if true (in_program ds e) else in_program ds e)) l
  | _ => map (pair e) (children n)
  end.

(** No child is forgotten. *)
Lemma child_envs_children (a : bool) e n : map snd (child_envs a e n) = children n.
Proof.
  assert (H : forall e' l, map snd (map (@pair env node e') l) = l).
  { intros e' l. rewrite map_map. cbn. apply map_id. }
  assert (H2 : forall (f : node -> env) l, map snd (map (fun m => (f m, m)) l) = l).
  { intros f l. rewrite map_map. cbn. apply map_id. }
  destruct n; cbn [child_envs children]; rewrite ?map_app, ?H, ?H2; reflexivity.
Qed.

Inductive visit (a : bool) : env -> node -> env -> node -> Prop :=
| visit_here e n : visit a e n e n
| visit_child e n e1 n1 e2 x :
    In (e1, n1) (child_envs a e n) -> visit a e1 n1 e2 x -> visit a e n e2 x.

(** Every descendant is visited. *)
Inductive descendant : node -> node -> Prop :=
| desc_here n : descendant n n
| desc_child n c x : In c (children n) -> descendant c x -> descendant n x.

Lemma descendant_visited a e n x : descendant n x -> exists e', visit a e n e' x.
Proof.
  intros H. revert e. induction H as [n|n c x Hin Hd IH]; intros e; [exists e; constructor|].
  rewrite <- (child_envs_children a e n) in Hin. apply in_map_iff in Hin.
  destruct Hin as ([e1 c'] & Ec & Hin). cbn in Ec. subst c'. destruct (IH e1) as (e2 & Hv).
  exists e2. eapply visit_child; eauto.
Qed.

(** [P] holds of every visited node. *)
Definition everywhere (a : bool) (P : env -> node -> Prop) (e : env) (n : node) : Prop :=
  forall e' x, visit a e n e' x -> P e' x.

Lemma everywhere_intro a (P : env -> node -> Prop) e n :
  P e n -> (forall e1 n1, In (e1, n1) (child_envs a e n) -> everywhere a P e1 n1) -> everywhere a P e n.
Proof. intros H1 H2 e' x Hv. destruct Hv; [exact H1|]. eapply H2; eauto. Qed.

(** ** The two walks compared *)

(** [e1] is found by the walk with [es = false], [e2] by that with [es = true]:
    they agree but for strict mode and for calls of [super]. *)
Definition agree (e1 e2 : env) : Prop :=
  v_fn e1 = v_fn e2 /\ v_await e1 = v_await e2 /\ v_yield e1 = v_yield e2 /\
  v_method e1 = v_method e2 /\ v_module e1 = v_module e2 /\
  (v_super e2 = true -> v_super e1 = true) /\ (v_strict e1 = true -> v_strict e2 = true).

Lemma agree_refl e : agree e e.
Proof. repeat split; auto. Qed.

Lemma agree_children e1 e2 n : agree e1 e2 ->
  Forall2 (fun p q => agree (fst p) (fst q) /\ snd p = snd q) (child_envs false e1 n) (child_envs true e2 n).
Proof.
  intros (Hf & Ha & Hy & Hm & Hmod & Hs & Hst).
  assert (H : forall e1' e2' l, agree e1' e2' ->
    Forall2 (fun p q : env * node => agree (fst p) (fst q) /\ snd p = snd q) (map (pair e1') l) (map (pair e2') l)).
  { intros e1' e2' l H. induction l; cbn; constructor; auto. }
  assert (Hor : forall a b c, (a = true -> b = true) -> (a || c = true)%bool -> (b || c = true)%bool).
  { intros [] [] []; cbn; auto. }
  assert (HC : agree (in_class e1) (in_class e2)).
  { unfold agree; cbn; repeat split; auto. }
  assert (HL : forall h l, Forall2 (fun p q : env * node => agree (fst p) (fst q) /\ snd p = snd q)
     (map (fun m => (with_method (has h && is_constructor m) (in_class e1), m)) l)
     (map (fun m => (with_method (has h && is_constructor m) (in_class e2), m)) l)).
  { intros h l. induction l; cbn; constructor; auto. cbn. split; [|reflexivity].
    unfold agree; cbn; repeat split; auto. }
  destruct n; cbn [child_envs]; try (apply H; unfold agree; cbn; repeat split; now eauto);
    try (apply Forall2_app; [apply H; exact HC|apply HL]).
  all: repeat (apply Forall2_cons || apply Forall2_nil); cbn [fst snd]; split; auto;
    unfold agree, in_params; cbn; repeat split; auto; intros; try discriminate.
  all: rewrite ?Hst, ?orb_true_r by auto; auto.
Qed.

Lemma Forall2_in_l {A B} (R : A -> B -> Prop) l1 l2 a : Forall2 R l1 l2 -> In a l1 -> exists b, In b l2 /\ R a b.
Proof. induction 1; intros []; subst; [exists y; split; [now left|auto]|]. destruct IHForall2 as (b & ? & ?); auto. exists b; split; [now right|auto]. Qed.
Lemma Forall2_in_r {A B} (R : A -> B -> Prop) l1 l2 b : Forall2 R l1 l2 -> In b l2 -> exists a, In a l1 /\ R a b.
Proof. induction 1; intros []; subst; [exists x; split; [now left|auto]|]. destruct IHForall2 as (a & ? & ?); auto. exists a; split; [now right|auto]. Qed.

Lemma es_code e2 n e2' x : visit true e2 n e2' x ->
  forall e1, agree e1 e2 -> exists e1', visit false e1 n e1' x /\ agree e1' e2'.
Proof.
  induction 1 as [e n|e n c2 m e' x Hin Hv IH]; intros e1 Hag.
  - exists e1. split; [constructor|exact Hag].
  - destruct (Forall2_in_r _ _ _ _ (agree_children _ _ n Hag) Hin) as ([c1 m'] & Hin1 & Hc & Em).
    cbn in Hc, Em. subst m'. destruct (IH c1 Hc) as (e1' & Hv1 & Hag1).
    exists e1'. split; [eapply visit_child; eauto|exact Hag1].
Qed.

Lemma code_es e1 n e1' x : visit false e1 n e1' x ->
  forall e2, agree e1 e2 -> exists e2', visit true e2 n e2' x /\ agree e1' e2'.
Proof.
  induction 1 as [e n|e n c1 m e' x Hin Hv IH]; intros e2 Hag.
  - exists e2. split; [constructor|exact Hag].
  - destruct (Forall2_in_l _ _ _ _ (agree_children _ _ n Hag) Hin) as ([c2 m'] & Hin2 & Hc & Em).
    cbn in Hc, Em. subst m'. destruct (IH c2 Hc) as (e2' & Hv2 & Hag2).
    exists e2'. split; [eapply visit_child; eauto|exact Hag2].
Qed.

(** ** Identifiers *)

(** ECMAScript, 12.7.2: reserved words. *)
Definition reserved_words : list str := map chars
  ["break"; "case"; "catch"; "class"; "const"; "continue"; "debugger"; "default"; "delete"; "do"; "else";
   "enum"; "export"; "extends"; "false"; "finally"; "for"; "function"; "if"; "import"; "in"; "instanceof";
   "new"; "null"; "return"; "super"; "switch"; "this"; "throw"; "true"; "try"; "typeof"; "var"; "void";
   "while"; "with"].
Definition strict_reserved_words : list str := map chars
  ["implements"; "interface"; "let"; "package"; "private"; "protected"; "public"; "static"; "yield"].

Definition legal_name (e : env) (x : str) : Prop :=
  ~ In x reserved_words /\
  (v_strict e = true -> ~ In x strict_reserved_words) /\
  (v_await e = true -> x <> chars "await") /\
  (v_yield e = true -> x <> chars "yield").

(** The identifiers a node itself binds, refers to, or uses as a label, each
    with its surroundings.  Property names and the names before [as] in an
    import are not identifiers in this sense; a [function] or [class] after
    [export default] may have no name (the empty one). *)
Definition own_idents (e : env) (n : node) : list (env * ident) :=
  match n with
  | EIdentRef i | DefIdentRef i | BindIdent i => [(e, i)]
  | BindSingle _ i _ | AsgSingle _ i _ => [(e, i)]
  | EFunction _ a g o _ _ => map (pair (in_function a g e)) (opt_list o)
  | SFunctionDecl _ _ _ i _ _ => [(e, i)]
  | EClass _ o _ _ => map (pair (in_class e)) (opt_list o)
  | SClassDecl _ i _ _ => [(in_class e, i)]
  | SBreak _ o | SContinue _ o => map (pair e) (opt_list o)
  | SLabeled _ i _ => [(e, i)]
  | SImport _ d ns _ _ => map (pair e) (opt_list d ++ opt_list ns)
  | NamedImport _ _ (Some i) => [(e, i)]
  | _ => []
  end.

Definition idents_legal (e : env) (n : node) : Prop :=
  forall e' i, In (e', i) (own_idents e n) -> legal_name e' (id_name i).

(** ** Statements and expressions in their place *)

Definition return_ok (e : env) (n : node) : Prop :=
  match n with SReturn _ _ => v_fn e = true | _ => True end.

Definition await_ok (e : env) (n : node) : Prop :=
  match n with
  | EAwait _ _ => v_await e = true
  | SForOf _ _ _ _ true => v_await e = true
  | _ => True
  end.

Definition yield_ok (e : env) (n : node) : Prop :=
  match n with EYield _ _ _ => v_yield e = true | _ => True end.

(** [ObjSuper] is the [super] of [super.x], [CalleeSuper] that of [super(...)]. *)
Definition super_ok (e : env) (n : node) : Prop :=
  match n with
  | ObjSuper _ => v_method e = true
  | CalleeSuper => v_super e = true
  | _ => True
  end.

Definition module_ok (e : env) (n : node) : Prop :=
  match n with
  | SImport _ _ _ _ _ | XDecl _ _ | XDefaultExpr _ _ | XDefaultDecl _ _ | XNamed _ _ _ | XNamespace _ _ _
  | Module _ _ _ => v_module e = true
  | Script _ _ _ => v_module e = false
  | _ => True
  end.

(** ** Targets *)

(** An identifier (in strict code not [eval] or [arguments]) or a member
    access, possibly in parentheses. *)
Fixpoint simple (e : env) (n : node) : Prop :=
  match n with
  | EIdentRef i => v_strict e = true -> id_name i <> chars "eval" /\ id_name i <> chars "arguments"
  | EMember _ _ _ => True
  | EParenthesized _ n' => simple e n'
  | _ => False
  end.
Definition pattern (n : node) : Prop :=
  match n with AsgArray _ _ _ | AsgObject _ _ _ => True | _ => False end.
Definition valid_target (e : env) (n : node) : Prop := simple e n \/ pattern n.

Definition optP {A} (P : A -> Prop) (o : option A) : Prop := match o with Some a => P a | None => True end.

Definition targets_ok (e : env) (n : node) : Prop :=
  match n with
  | EAssign _ o l _ => simple e l \/ (pattern l /\ o = AAssign)
  | EUpdate _ _ _ a => simple e a
  | AsgElement _ t _ => valid_target e t
  | AsgNamed _ _ t _ => valid_target e t
  | AsgArray _ _ r | AsgObject _ _ r => optP (valid_target e) r
  | SForIn _ l _ _ | SForOf _ l _ _ _ => valid_target e l \/ exists sp k p, l = ForBinding sp k p
  | _ => True
  end.

(** [delete x] for an identifier [x] (also in parentheses). *)
Fixpoint names_variable (n : node) : Prop :=
  match n with
  | EIdentRef _ => True
  | EParenthesized _ n' => names_variable n'
  | _ => False
  end.
Definition delete_ok (e : env) (n : node) : Prop :=
  match n with
  | EUnary _ UDelete a => v_strict e = true -> ~ names_variable a
  | _ => True
  end.

(** ** Shapes *)

(** The plain names among the parameters (those inside patterns are not listed). *)
Definition params_names (p : node) : list str :=
  match p with
  | FormalParameters _ l r =>
    flat_map (fun b => match b with BindElement _ (BindIdent i) _ => [id_name i] | _ => [] end) l ++
    match r with Some (BindIdent i) => [id_name i] | _ => [] end
  | _ => []
  end.
(** Only plain names: no default values, patterns or rest parameter. *)
Definition simple_params (p : node) : Prop :=
  match p with
  | FormalParameters _ l None =>
    Forall (fun b => match b with BindElement _ (BindIdent _) None => True | _ => False end) l
  | _ => False
  end.
Definition strict_body (b : node) : Prop :=
  match b with Body _ ds _ => use_strict ds = true | _ => False end.

Definition shape_ok (n : node) : Prop :=
  match n with
  | Method _ _ MKGet p _ _ _ _ => exists sp, p = FormalParameters sp [] None
  | Method _ _ MKSet p b _ _ _ =>
    (exists sp x, p = FormalParameters sp [x] None) /\ (strict_body b -> simple_params p)
  | Method _ _ MKMethod p b _ _ _ =>
    NoDup (params_names p) /\ (strict_body b -> simple_params p)
  | STry _ _ h f => h <> None \/ f <> None
  | VarDecl _ p i => i = None -> exists x, p = BindIdent x
  | _ => True
  end.

(** ** Precedence *)

Definition bin_prec (o : binary_op) : nat :=
  match o with
  | BBitwiseOR => 6 | BBitwiseXOR => 7 | BBitwiseAnd => 8
  | BEqual | BNotEqual | BStrictEqual | BStrictNotEqual => 9
  | BLessThan | BMoreThan | BLessThanEquals | BMoreThanEquals | BInstanceOf | BIn => 10
  | BShiftLeft | BShiftRight | BShiftRightUnsigned => 11
  | BPlus | BMinus => 12
  | BMultiplication | BDivision | BModulus => 13
  | BExponent => 14
  end.
Definition log_prec (o : logical_op) : nat := match o with LCoalesce => 3 | LOr => 4 | LAnd => 5 end.

(** How tightly an expression holds together. *)
Definition prec (n : node) : nat :=
  match n with
  | ESequence _ _ => 0
  | EAssign _ _ _ _ | EArrow _ _ _ _ _ | EYield _ _ _ => 1
  | EConditional _ _ _ _ => 2
  | ELogical _ o _ _ => log_prec o
  | EBinary _ o _ _ => bin_prec o
  | EUnary _ _ _ | EAwait _ _ => 15
  | EUpdate _ _ _ _ => 16
  | _ => 17
  end.

(** Operands hold together more tightly than the operator around them; of
    operators with the same precedence the left one is applied first. *)
Definition prec_ok (n : node) : Prop :=
  match n with
  | ESequence _ es => 2 <= length es /\ Forall (fun x => 1 <= prec x) es
  | EAssign _ _ _ r => 1 <= prec r
  | EYield _ o _ => optP (fun x => 1 <= prec x) o
  | EConditional _ c a b => 3 <= prec c /\ 1 <= prec a /\ 1 <= prec b
  | ELogical _ o l r => log_prec o <= prec l /\ log_prec o < prec r
  | EBinary _ o l r => bin_prec o <= prec l /\ bin_prec o < prec r
  | EUnary _ _ a | EAwait _ a => 15 <= prec a
  | EUpdate _ _ pre a => (if pre then 15 else 17) <= prec a
  | ECall _ f _ _ => 17 <= prec f
  | ENew _ f _ _ => 17 <= prec f
  | EMember _ o _ => 17 <= prec o
  | EOptionalCall _ f _ _ _ => 17 <= prec f
  | EOptionalMember _ o _ _ => 17 <= prec o
  | ETaggedTemplate _ f _ => 17 <= prec f
  | ArgExpr x | ArgSpread x | ElemExpr x | ElemSpread x | DefSpread x | DefNamed _ _ x | NameComputed x =>
    1 <= prec x
  | EClass _ _ h _ | SClassDecl _ _ h _ => optP (fun x => 17 <= prec x) h
  | XDefaultExpr _ x => 1 <= prec x
  | VarDecl _ _ o | BindElement _ _ o | BindSingle _ _ o | AsgElement _ _ o | AsgSingle _ _ o
  | AsgNamed _ _ _ o => optP (fun x => 1 <= prec x) o
  | _ => True
  end.
