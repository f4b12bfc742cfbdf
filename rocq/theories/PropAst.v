(** * PropAst: what is true of every accepted program (C19-C29).

    Vocabulary: [AstSpec.v].  [visit es (env_top m) a e x]: the node [x] of the
    tree [a] is surrounded by what [e] says; with [es = true] "surrounded" is
    meant as in ECMAScript, with [es = false] as in the code, and the two
    differ only in strict mode and [super] calls. *)

From Verif Require Import Base Tokens CharReader Lexer LexSpec LexerFacts PropLexer Ast Prog TokChain ParseState Parser
  Grammar GrammarFacts AllOk AstSpec StaticSem AstSound ParseRuns Operators PropParser.
Local Open Scope string_scope.
Local Open Scope list_scope.

Section Accepted.
Context {PF : Platform}.

Lemma start_compat tg m : compat (start_ctx tg m) (env_top m).
Proof. destruct tg; repeat split; cbn; auto; discriminate. Qed.

Lemma accepts_good tg m D a : accepts tg m D a -> everywhere false (node_ok D) (env_top m) a.
Proof.
  intros H. destruct (accepts_inv _ _ _ _ H) as (ts & pre & f & Hc & Hd & _).
  apply (der_good D) with (e := env_top m) in Hd.
  - destruct tg; apply Hd.
  - apply start_compat.
  - exists [], []. cbn [app]. rewrite app_nil_r. exists pre, f. exact Hc.
Qed.

Lemma accepts_good_es tg m D a e x : accepts tg m D a -> visit true (env_top m) a e x ->
  exists e', agree e' e /\ visit false (env_top m) a e' x /\ node_ok D e' x.
Proof.
  intros H Hv. destruct (es_code _ _ _ _ Hv (env_top m) (agree_refl _)) as (e' & Hv' & Ha).
  exists e'. split; [exact Ha|]. split; [exact Hv'|]. exact (accepts_good _ _ _ _ H _ _ Hv').
Qed.

(** ** C19: [return] only inside functions *)

Theorem C19_return tg m D a e sp o :
  accepts tg m D a -> visit true (env_top m) a e (SReturn sp o) -> v_fn e = true.
Proof.
  intros H Hv. destruct (accepts_good_es _ _ _ _ _ _ H Hv) as (e' & (E & _) & _ & Hn & _).
  rewrite <- E. exact Hn.
Qed.

(** ** C20: [super] *)

(** [super.x] only inside a method (or the computed name of one). *)
Theorem C20_super_property_partial tg m D a e sp :
  accepts tg m D a -> visit true (env_top m) a e (ObjSuper sp) -> v_method e = true.
Proof.
  intros H Hv. destruct (accepts_good_es _ _ _ _ _ _ H Hv) as (e' & Ha & _ & _ & _ & _ & Hn & _).
  destruct Ha as (_ & _ & _ & E & _). rewrite <- E. exact Hn.
Qed.

(** [super()] only in the constructor of a class with a heritage, when an
    object literal's method with a computed name is taken for part of what is
    around the literal. *)
Theorem C20_super_call_partial tg m D a e :
  accepts tg m D a -> visit false (env_top m) a e CalleeSuper -> v_super e = true.
Proof. intros H Hv. destruct (accepts_good _ _ _ _ H _ _ Hv) as (_ & _ & _ & Hn & _). exact Hn. Qed.

(** ** C21: [await] and [yield] *)

(** Only in a function marked async, or as a generator, in the tree.
    (Missing: that methods are marked as they are written.) *)
Theorem C21_await_partial tg m D a e x :
  accepts tg m D a -> visit true (env_top m) a e x ->
  (exists sp y, x = EAwait sp y) \/ (exists sp l r b, x = SForOf sp l r b true) ->
  v_await e = true.
Proof.
  intros H Hv Hx. destruct (accepts_good_es _ _ _ _ _ _ H Hv) as (e' & (_ & E & _) & _ & _ & Hn & _).
  rewrite <- E. destruct Hx as [(sp & y & ->)|(sp & l & r & b & ->)]; exact Hn.
Qed.

Theorem C21_yield_partial tg m D a e sp o g :
  accepts tg m D a -> visit true (env_top m) a e (EYield sp o g) -> v_yield e = true.
Proof.
  intros H Hv. destruct (accepts_good_es _ _ _ _ _ _ H Hv) as (e' & (_ & _ & E & _) & _ & _ & _ & Hn & _).
  rewrite <- E. exact Hn.
Qed.

(** ** C22: reserved words *)

Lemma own_idents_agree e e' n e2 i : agree e e' -> In (e2, i) (own_idents e' n) ->
  exists e1, agree e1 e2 /\ In (e1, i) (own_idents e n).
Proof.
  intros Ha.
  assert (H1 : agree (in_class e) (in_class e')) by (destruct Ha as (?&?&?&?&?&?&?); unfold agree; cbn; tauto).
  assert (H2 : forall x y, agree (in_function x y e) (in_function x y e')).
  { intros x y. destruct Ha as (?&?&?&?&?&?&?); unfold agree; cbn; repeat split; auto. }
  assert (HM : forall f f' l, agree f f' -> In (e2, i) (map (pair f') l) -> exists e1, agree e1 e2 /\ In (e1, i) (map (pair f) l)).
  { intros f f' l Hf Hin. apply in_map_iff in Hin. destruct Hin as (j & E & Hin). injection E as <- <-.
    exists f. split; [exact Hf|]. now apply in_map. }
  destruct n; cbn [own_idents]; try (intros []; fail); try (apply HM; auto; fail);
    try (apply (HM _ _ [_]); auto; fail).
  match goal with |- In _ match ?o with _ => _ end -> _ => destruct o; [apply (HM _ _ [_]); auto|intros []] end.
Qed.

(** No identifier is a reserved word; in an async function none is [await], in
    a generator none is [yield].  (Missing: the words reserved in strict code,
    see [C26_strict_partial].) *)
Theorem C22_reserved_partial tg m D a e x e' i :
  accepts tg m D a -> visit true (env_top m) a e x -> In (e', i) (own_idents e x) ->
  ~ In (id_name i) reserved_words /\
  (v_await e' = true -> id_name i <> chars "await") /\
  (v_yield e' = true -> id_name i <> chars "yield").
Proof.
  intros H Hv Hi. destruct (accepts_good_es _ _ _ _ _ _ H Hv) as (e0 & Ha & _ & _ & _ & _ & _ & _ & Hn & _).
  destruct (own_idents_agree _ _ _ _ _ Ha Hi) as (e1 & (_ & E1 & E2 & _) & Hi1).
  destruct (Hn _ _ Hi1) as (L1 & _ & L2 & L3). rewrite <- E1, <- E2. auto.
Qed.

(** ** C23: targets *)

(** Left of [=] stands a simple target or a pattern, left of the other
    assignment operators and at [++] and [--] a simple target, in patterns and
    before [in] and [of] targets. *)
Theorem C23_targets tg m D a e x :
  accepts tg m D a -> visit false (env_top m) a e x -> targets_ok e x.
Proof. intros H Hv. apply (accepts_good _ _ _ _ H _ _ Hv). Qed.

(** ** C24: [import] and [export] *)

Definition is_import_export (n : node) : bool :=
  match n with
  | SImport _ _ _ _ _ | XDecl _ _ | XDefaultExpr _ _ | XDefaultDecl _ _ | XNamed _ _ _ | XNamespace _ _ _ => true
  | _ => false
  end.

Lemma module_of es m a e x : visit es (env_top m) a e x -> v_module e = m.
Proof.
  assert (H : forall e n e1 n1, In (e1, n1) (child_envs es e n) -> v_module e1 = v_module e).
  { intros e0 n e1 n1 Hin. destruct n; cbn [child_envs] in Hin;
      rewrite ?in_app_iff in Hin; unfold in_params in Hin;
      repeat match goal with
             | H : _ \/ _ |- _ => destruct H
             | H : In _ (map _ _) |- _ => apply in_map_iff in H; destruct H as (? & ? & ?)
             | H : In _ [] |- _ => destruct H
             | H : In _ (_ :: _) |- _ => destruct H
             | H : (_, _) = (_, _) |- _ => injection H as <- <-
             | H : (if es then _ else _, _) = _ |- _ => destruct es
             end; try destruct es; try reflexivity. }
  assert (G : forall e0 n0 e1 y, visit es e0 n0 e1 y -> v_module e1 = v_module e0).
  { induction 1 as [|f0 n f1 n1 f2 y Hin _ IH]; [reflexivity|]. rewrite IH. eapply H; eauto. }
  intros Hv. now rewrite (G _ _ _ _ Hv).
Qed.

(** Only in modules.  (Missing: only at the top level.) *)
Theorem C24_modules_only_partial tg m D a x :
  accepts tg m D a -> descendant a x -> is_import_export x = true -> m = true.
Proof.
  intros H Hd Hx. destruct (descendant_visited false (env_top m) _ _ Hd) as (e & Hv).
  destruct (accepts_good _ _ _ _ H _ _ Hv) as (_ & _ & _ & _ & Hn & _). rewrite <- (module_of _ _ _ _ _ Hv).
  destruct x; try discriminate Hx; exact Hn.
Qed.

(** ** C25: duplicate parameters *)

(** The plain parameter names of a method are different.  (Missing: names in
    patterns, setters, arrow functions, and functions in strict code.) *)
Theorem C25_duplicates_partial tg m D a sp n p b g y st :
  accepts tg m D a -> descendant a (Method sp n MKMethod p b g y st) -> NoDup (params_names p).
Proof.
  intros H Hd. destruct (descendant_visited false (env_top m) _ _ Hd) as (e & Hv).
  destruct (accepts_good _ _ _ _ H _ _ Hv) as (_ & _ & _ & _ & _ & _ & _ & _ & Hn & _). apply Hn.
Qed.

(** ** C26: strict code *)

(** In strict code -- with the exceptions listed in [AstSpec.v] for
    [es = false] -- the words reserved there are not identifiers, variables are
    not deleted, and [eval] and [arguments] are not assigned to. *)
Theorem C26_strict_partial tg m D a e x :
  accepts tg m D a -> visit false (env_top m) a e x ->
  (forall e' i, In (e', i) (own_idents e x) -> v_strict e' = true -> ~ In (id_name i) strict_reserved_words) /\
  (forall sp y, x = EUnary sp UDelete y -> v_strict e = true -> ~ names_variable y) /\
  (forall i, (exists sp o r, x = EAssign sp o (EIdentRef i) r) \/ (exists sp o pre, x = EUpdate sp o pre (EIdentRef i)) ->
     v_strict e = true -> id_name i <> chars "eval" /\ id_name i <> chars "arguments").
Proof.
  intros H Hv. destruct (accepts_good _ _ _ _ H _ _ Hv) as (_ & _ & _ & _ & _ & Hi & Ht & Hd & _).
  split; [|split].
  - intros e' i Hin. apply (Hi _ _ Hin).
  - intros sp y ->. exact Hd.
  - intros i [(sp & o & r & ->)|(sp & o & pre & ->)] Hs; cbn in Ht.
    + destruct Ht as [Ht|[[] _]]. now apply Ht.
    + now apply Ht.
Qed.

(** A method whose body has the directive has only plain parameters. *)
Theorem C26_method_parameters tg m D a sp n k p b g y st :
  accepts tg m D a -> descendant a (Method sp n k p b g y st) -> strict_body b -> simple_params p.
Proof.
  intros H Hd Hb. destruct (descendant_visited false (env_top m) _ _ Hd) as (e & Hv).
  destruct (accepts_good _ _ _ _ H _ _ Hv) as (_ & _ & _ & _ & _ & _ & _ & _ & Hn & _).
  destruct k; cbn in Hn.
  - now apply Hn.
  - destruct Hn as (s & ->). constructor.
  - now apply Hn.
Qed.

(** ** C27: shapes *)

(** (Missing: at most one constructor.) *)
Theorem C27_shapes_partial tg m D a x :
  accepts tg m D a -> descendant a x ->
  match x with
  | Method _ _ MKGet p _ _ _ _ => exists sp, p = FormalParameters sp [] None
  | Method _ _ MKSet p _ _ _ _ => exists sp q, p = FormalParameters sp [q] None
  | STry _ _ h f => h <> None \/ f <> None
  | VarDecl _ p i => i <> None \/ exists n, p = BindIdent n
  | _ => True
  end.
Proof.
  intros H Hd. destruct (descendant_visited false (env_top m) _ _ Hd) as (e & Hv).
  destruct (accepts_good _ _ _ _ H _ _ Hv) as (_ & _ & _ & _ & _ & _ & _ & _ & Hn & _).
  destruct x; auto; cbn in Hn.
  - destruct kind; auto. apply Hn.
  - destruct initializer; [left; discriminate|right; auto].
Qed.

(** ** C28: ends of statements *)

(** An expression statement, import, or export (other than of a declaration)
    ends with a semicolon, or before a [}], the end of the source, or a token
    on a later line.  (Missing: the other statements with a semicolon.) *)
Theorem C28_ends_partial tg m D a x :
  accepts tg m D a -> descendant a x ->
  match x with
  | SExpr sp _ | SImport sp _ _ _ _ | XDefaultExpr sp _ | XNamed sp _ _ | XNamespace sp _ _ =>
    statement_end D (sp_end sp)
  | _ => True
  end.
Proof.
  intros H Hd. destruct (descendant_visited false (env_top m) _ _ Hd) as (e & Hv).
  destruct (accepts_good _ _ _ _ H _ _ Hv) as (_ & _ & _ & _ & _ & _ & _ & _ & _ & _ & Hn). exact Hn.
Qed.

(** ** C29: precedence *)

(** Every operand holds together more tightly than the operator it belongs to,
    or as tightly if it is the left operand of a binary operator. *)
Theorem C29_precedence tg m D a x : accepts tg m D a -> descendant a x -> prec_ok x.
Proof.
  intros H Hd. destruct (descendant_visited false (env_top m) _ _ Hd) as (e & Hv).
  apply (accepts_good _ _ _ _ H _ _ Hv).
Qed.

(** So an operator expression is the one tree of its operands and operators
    that is grouped by precedence and, of equal precedence, from the left
    ([Operators.v]).  (Missing: [**] should group from the right, and [??] not
    stand next to [||] and [&&].) *)
Theorem C29_unique_tree_partial tg m D a x u : accepts tg m D a -> descendant a x ->
  grouped (ops_of x) /\ (grouped u -> inorder u = inorder (ops_of x) -> u = ops_of x).
Proof.
  intros H Hd.
  assert (Hg : grouped (ops_of x)).
  { apply prec_ok_grouped. intros y Hy. apply (C29_precedence tg m D a y H).
    revert Hy. clear H. induction Hd as [|n c x Hin _ IH]; [auto|]. intros Hy. eapply desc_child; eauto. }
  split; [exact Hg|]. intros Hu. now apply grouped_unique.
Qed.

End Accepted.

(** ** Examples and counterexamples *)

Fixpoint visits (es : bool) (d : nat) (e : env) (n : node) : list (env * node) :=
  match d with
  | 0 => [(e, n)]
  | S d' => (e, n) :: flat_map (fun p => visits es d' (fst p) (snd p)) (child_envs es e n)
  end.
Lemma visits_visit es d e n e' x : In (e', x) (visits es d e n) -> visit es e n e' x.
Proof.
  revert e n. induction d as [|d IH]; intros e n; cbn [visits].
  - intros [E|[]]. injection E as -> ->. constructor.
  - intros [E|H]; [injection E as -> ->; constructor|]. apply in_flat_map in H. destruct H as ([e1 n1] & Hc & Hx).
    eapply visit_child; eauto.
Qed.

Definition sees (es : bool) (tg : target) (m : bool) (D : str) (b : env -> node -> bool) : bool :=
  match parsed tg m D with
  | Some a => existsb (fun p => b (fst p) (snd p)) (visits es 40 (env_top m) a)
  | None => false
  end.
Lemma sees_visit es tg m D b : sees es tg m D b = true ->
  exists a e x, @accepts ap tg m D a /\ visit es (env_top m) a e x /\ b e x = true.
Proof.
  unfold sees. destruct (parsed tg m D) as [a|] eqn:E; [|discriminate]. intros H.
  apply existsb_exists in H. destruct H as ([e x] & Hx & Hb). exists a, e, x.
  split; [now apply parsed_accepts|]. split; [eapply visits_visit; eauto|exact Hb].
Qed.

(** C19: a [return], in an arrow function in a method. *)
Example C19_instance : exists a e x,
  @accepts ap TProgram false (chars "class A { m() { (x) => { return x } } }") a /\
  visit true (env_top false) a e x /\ match x with SReturn _ (Some _) => v_fn e | _ => false end = true.
Proof. apply sees_visit. vm_compute. reflexivity. Qed.
Example C19_rejected : exists e, @rejects ap TProgram false (chars "if (a) { return b }") e.
Proof. apply some_rejects. vm_compute. reflexivity. Qed.

(** C20 *)
Example C20_instance : exists a e x,
  @accepts ap TProgram false (chars "class A extends B { constructor() { (() => super(1))(); super.x } }") a /\
  visit true (env_top false) a e x /\
  match x with ObjSuper _ => v_method e && v_super e | _ => false end = true.
Proof. apply sees_visit. vm_compute. reflexivity. Qed.
Example C20_instance_call : exists a e x,
  @accepts ap TProgram false (chars "class A extends B { constructor() { (() => super(1))(); super.x } }") a /\
  visit false (env_top false) a e x /\ match x with CalleeSuper => v_super e | _ => false end = true.
Proof. apply sees_visit. vm_compute. reflexivity. Qed.
Example C20_rejected :
  (exists e, @rejects ap TProgram false (chars "function f() { super.x }") e) /\
  (exists e, @rejects ap TProgram false (chars "class A { constructor() { super() } }") e).
Proof. split; apply some_rejects; vm_compute; reflexivity. Qed.

(** [super()] in a method of an object literal. *)
Theorem C20_super_call_refuted : exists a e x,
  @accepts ap TProgram false (chars "class A extends B { constructor() { ({ [x]() { super() } }) } }") a /\
  visit true (env_top false) a e x /\ match x with CalleeSuper => negb (v_super e) | _ => false end = true.
Proof. apply sees_visit. vm_compute. reflexivity. Qed.
(** [super.x] as the name of a method, outside of all methods. *)
Theorem C20_super_property_refuted : exists a x,
  @accepts ap TProgram false (chars "class A { [super.x]() {} }") a /\ descendant a x /\
  match x with
  | Script _ _ [SClassDecl _ _ None [Method _ (NameComputed (EMember _ (ObjSuper _) _)) _ _ _ _ _ _]] => true
  | _ => false
  end = true.
Proof. apply shows_descendant. vm_compute. reflexivity. Qed.

(** C21 *)
Example C21_instance : exists a e x,
  @accepts ap TProgram false (chars "async function* f() { for await (a of b) yield await c }") a /\
  visit true (env_top false) a e x /\
  match x with EYield _ (Some (EAwait _ _)) _ => v_yield e && v_await e | _ => false end = true.
Proof. apply sees_visit. vm_compute. reflexivity. Qed.
Example C21_instance_for : exists a e x,
  @accepts ap TProgram false (chars "async function* f() { for await (a of b) yield await c }") a /\
  visit true (env_top false) a e x /\ match x with SForOf _ _ _ _ true => v_await e | _ => false end = true.
Proof. apply sees_visit. vm_compute. reflexivity. Qed.
(** A method that is not written as a generator may use [yield]. *)
Theorem C21_method_refuted : exists a e x,
  @accepts ap TProgram false (chars "function* g() { class A { m() { yield 1 } } }") a /\
  visit true (env_top false) a e x /\ match x with EYield _ _ _ => v_method e | _ => false end = true.
Proof. apply sees_visit. vm_compute. reflexivity. Qed.

(** C22 *)
Definition names (w : string) (i : ident) : bool := str_eqb (id_name i) (chars w).
Example C22_instance : exists a e x,
  @accepts ap TProgram false (chars "var static = let; await: for (var { yield } of of) get();") a /\
  visit true (env_top false) a e x /\
  existsb (fun p => names "yield" (snd p)) (own_idents e x) = true.
Proof. apply sees_visit. vm_compute. reflexivity. Qed.
(** A reserved word is bound by an import. *)
Theorem C22_import_refuted : exists a x,
  @accepts ap TProgram true (chars "import {if} from 'a'") a /\ descendant a x /\
  match x with NamedImport _ i None => names "if" i | _ => false end = true.
Proof. apply shows_descendant. vm_compute. reflexivity. Qed.
(** A word reserved in strict code is bound in the body of an arrow function,
    in a module, and as parameter of a function with the directive. *)
Theorem C22_strict_refuted :
  Forall (fun p => exists a e x, @accepts ap TProgram (fst p) (chars (snd p)) a /\
      visit true (env_top (fst p)) a e x /\
      existsb (fun q => v_strict (fst q) && names "static" (snd q))%bool (own_idents e x) = true)
    [(false, "'use strict'; () => { var static }"); (true, "var static");
     (false, "function f(static) { 'use strict' }")].
Proof. repeat constructor; apply sees_visit; vm_compute; reflexivity. Qed.
(** [await] is bound in a module. *)
Theorem C22_module_await_refuted : exists a e x,
  @accepts ap TProgram true (chars "var await") a /\ visit true (env_top true) a e x /\
  existsb (fun q => names "await" (snd q)) (own_idents e x) = true.
Proof. apply sees_visit. vm_compute. reflexivity. Qed.

(** C23 *)
Example C23_instance :
  Forall (fun s => exists a e x, @accepts ap TProgram false (chars s) a /\ visit false (env_top false) a e x /\
      match x with EAssign _ _ _ _ | EUpdate _ _ _ _ => true | _ => false end = true)
    ["[a, (b.c)[d]] = {e: [f = 1] = g} = h"; "(a) += b"; "++a.b[c]"; "a--"].
Proof. repeat constructor; apply sees_visit; vm_compute; reflexivity. Qed.
Example C23_rejected :
  Forall (fun s => exists e, @rejects ap TProgram false (chars s) e)
    ["a() = b"; "[a] += b"; "(a, b) = c"; "++a()"; "1++"; "[a()] = b"; "({a: b + c} = d)"; "for (a() of b);"].
Proof. repeat constructor; apply some_rejects; vm_compute; reflexivity. Qed.

(** C24 *)
Example C24_instance : exists a x,
  @accepts ap TProgram true (chars "import a, {b as c} from 'd'; export default a;") a /\ descendant a x /\
  match x with XDefaultExpr _ _ => true | _ => false end = true.
Proof. apply shows_descendant. vm_compute. reflexivity. Qed.
Example C24_rejected :
  Forall (fun s => exists e, @rejects ap TProgram false (chars s) e) ["import 'a'"; "export {a}"; "export default a"].
Proof. repeat constructor; apply some_rejects; vm_compute; reflexivity. Qed.
(** In a function's body. *)
Theorem C24_top_level_refuted : exists a x,
  @accepts ap TProgram true (chars "function f() { import 'a' }") a /\ descendant a x /\
  match x with Body _ [] [SImport _ _ _ _ _] => true | _ => false end = true.
Proof. apply shows_descendant. vm_compute. reflexivity. Qed.

(** C25 *)
Example C25_instance : exists a x,
  @accepts ap TProgram false (chars "({ m(a, b, ...c) {} })") a /\ descendant a x /\
  match x with Method _ _ MKMethod p _ _ _ _ => Nat.eqb (length (params_names p)) 3 | _ => false end = true.
Proof. apply shows_descendant. vm_compute. reflexivity. Qed.
Example C25_rejected : exists e, @rejects ap TProgram false (chars "({ m(a, b, a) {} })") e.
Proof. apply some_rejects. vm_compute. reflexivity. Qed.
Theorem C25_duplicates_refuted :
  Forall (fun s => exists a, @accepts ap TProgram false (chars s) a)
    ["(a, a) => a"; "'use strict'; function f(a, a) {}"; "function f(a, a) { 'use strict' }";
     "({ m([a], a) {} })"; "({ set m([a, a]) {} })"; "function f(a, a = 1) {}"].
Proof. repeat constructor; apply some_accepts; vm_compute; reflexivity. Qed.

(** C26 *)
Example C26_instance : exists a e x,
  @accepts ap TProgram false (chars "function f() { 'use strict'; delete a.b; class A { m() { delete a[0] } } }") a /\
  visit false (env_top false) a e x /\ match x with EUnary _ UDelete _ => v_strict e && v_method e | _ => false end = true.
Proof. apply sees_visit. vm_compute. reflexivity. Qed.
Example C26_rejected :
  Forall (fun s => exists e, @rejects ap TProgram false (chars s) e)
    ["'use strict'; var static"; "class A { m() { delete a } }"; "function f() { 'use strict'; if (a) { eval = 1 } }";
     "'use strict'; arguments++"].
Proof. repeat constructor; apply some_rejects; vm_compute; reflexivity. Qed.
(** Not enforced: in arrow functions, in modules, [with], binding [eval]. *)
Theorem C26_strict_refuted :
  Forall (fun p => exists a, @accepts ap TProgram (fst p) (chars (snd p)) a)
    [(false, "'use strict'; () => { delete a }"); (false, "'use strict'; () => { eval = 1 }");
     (true, "delete a"); (false, "'use strict'; with (a) b"); (false, "'use strict'; var eval")].
Proof. repeat constructor; apply some_accepts; vm_compute; reflexivity. Qed.

(** C27 *)
Example C27_instance : exists a x,
  @accepts ap TProgram false (chars "class A { get a() {} static set b({c}) { try { } finally { } } }") a /\ descendant a x /\
  match x with Method _ _ MKSet _ (Body _ _ [STry _ _ None (Some _)]) _ _ _ => true | _ => false end = true.
Proof. apply shows_descendant. vm_compute. reflexivity. Qed.
Example C27_rejected :
  Forall (fun s => exists e, @rejects ap TProgram false (chars s) e)
    ["({ get a(b) {} })"; "({ set a() {} })"; "({ set a(b, c) {} })"; "({ set a(...b) {} })"; "try { }"; "var [a]"].
Proof. repeat constructor; apply some_rejects; vm_compute; reflexivity. Qed.
Theorem C27_constructors_refuted : exists a x,
  @accepts ap TProgram false (chars "class A { constructor() {} constructor() {} }") a /\ descendant a x /\
  match x with SClassDecl _ _ _ [m1; m2] => is_constructor m1 && is_constructor m2 | _ => false end = true.
Proof. apply shows_descendant. vm_compute. reflexivity. Qed.

(** C28 *)
Example C28_instance : exists a x,
  @accepts ap TProgram false (chars "{ a; b" ++ nl_ ++ chars "c }") a /\ descendant a x /\
  match x with SBlock _ [SExpr _ _; SExpr _ _; SExpr _ _] => true | _ => false end = true.
Proof. apply shows_descendant. vm_compute. reflexivity. Qed.
Example C28_rejected : exists e, @rejects ap TProgram false (chars "a b") e.
Proof. apply some_rejects. vm_compute. reflexivity. Qed.
Theorem C28_ends_refuted :
  Forall (fun s => exists a x, @accepts ap TProgram false (chars s) a /\ descendant a x /\
      match x with
      | Script _ _ [SExpr _ _; _] => false
      | Script _ _ [_; SExpr _ (EIdentRef _)] | Body _ _ [SReturn _ (Some _); SExpr _ (EIdentRef _)] => true
      | _ => false
      end = true)
    ["var a b"; "throw a b"; "break a b"; "continue a b"; "debugger b"; "let a b"; "function f() { return a b }"].
Proof. repeat constructor; apply shows_descendant; vm_compute; reflexivity. Qed.

(** C29 *)
Example C29_instance : exists a x,
  @accepts ap TExpr false (chars "a - b * c - d || e && f == g") a /\ descendant a x /\
  match x with
  | ELogical _ LOr (EBinary _ BMinus (EBinary _ BMinus _ (EBinary _ BMultiplication _ _)) _)
      (ELogical _ LAnd _ (EBinary _ BEqual _ _)) => true
  | _ => false
  end = true.
Proof. apply shows_descendant. vm_compute. reflexivity. Qed.
(** [**] groups from the left, takes a unary operand on its left, and [??] stands next to [||]. *)
Theorem C29_exponent_refuted : exists a x,
  @accepts ap TExpr false (chars "a ** b ** c") a /\ descendant a x /\
  match x with EBinary _ BExponent (EBinary _ BExponent _ _) (EIdentRef _) => true | _ => false end = true.
Proof. apply shows_descendant. vm_compute. reflexivity. Qed.
Theorem C29_unary_exponent_refuted : exists a x,
  @accepts ap TExpr false (chars "-a ** b") a /\ descendant a x /\
  match x with EBinary _ BExponent (EUnary _ UMinus _) _ => true | _ => false end = true.
Proof. apply shows_descendant. vm_compute. reflexivity. Qed.
Theorem C29_coalesce_refuted : exists a x,
  @accepts ap TExpr false (chars "a ?? b || c") a /\ descendant a x /\
  match x with ELogical _ LCoalesce _ (ELogical _ LOr _ _) => true | _ => false end = true.
Proof. apply shows_descendant. vm_compute. reflexivity. Qed.

(** One check for all theorems of this file. *)
Definition ast_theorems :=
  (@C19_return,
   @C20_super_property_partial,
   @C20_super_call_partial,
   @C21_await_partial,
   @C21_yield_partial,
   @C22_reserved_partial,
   @C23_targets,
   @C24_modules_only_partial,
   @C25_duplicates_partial,
   @C26_strict_partial,
   @C26_method_parameters,
   @C27_shapes_partial,
   @C28_ends_partial,
   @C29_precedence,
   @C29_unique_tree_partial,
   C20_super_call_refuted,
   C20_super_property_refuted,
   C21_method_refuted,
   C22_import_refuted,
   C22_strict_refuted,
   C22_module_await_refuted,
   C24_top_level_refuted,
   C25_duplicates_refuted,
   C26_strict_refuted,
   C27_constructors_refuted,
   C28_ends_refuted,
   C29_exponent_refuted,
   C29_unary_exponent_refuted,
   C29_coalesce_refuted).
Print Assumptions ast_theorems.
