(** * PropTraverse: what a visitor gets to see (C33).

    Vocabulary: [Traverse.v] (the model of the code), [Sorts.v] ([contents],
    the fields of a node in source order). *)

From Verif Require Import Base Tokens Lexer PropLexer Ast Prog Parser AstSpec ParseRuns PropParser Traverse Sorts.
Local Open Scope string_scope.
Local Open Scope list_scope.

(** ** Specification *)

(** Properly nested calls. *)
Inductive nested : list event -> Prop :=
| nested_none : nested []
| nested_one m x l l' : nested l -> nested l' -> nested (Enter m x :: l ++ Exit m x :: l').

(** The things entered: for each thing the call of the method of its own type
    counts (calls for the enums around it, such as [enter_expr] before
    [enter_binary_expr], do not). *)
Fixpoint entered (l : list event) : list thing :=
  match l with
  | [] => []
  | Enter m x :: l' => if String.eqb m (leaf_method x) then x :: entered l' else entered l'
  | Exit _ _ :: l' => entered l'
  end.

(** [inorder x l]: [l] is [x], then everything in its first field, then
    everything in its second field, and so on: each thing once, in source
    order. *)
Inductive inorder : thing -> list thing -> Prop :=
| inorder_leaf x : (forall n, x <> ThNode n) -> inorder x [x]
| inorder_node n l : inorders (contents n) l -> inorder (ThNode n) (ThNode n :: l)
with inorders : list part -> list thing -> Prop :=
| inorders_none : inorders [] []
| inorders_sub t n ps l l' : inorder (ThNode n) l -> inorders ps l' -> inorders (Sub t n :: ps) (l ++ l')
| inorders_leaf x ps l l' : inorder x l -> inorders ps l' -> inorders (Leaf x :: ps) (l ++ l').

(** The constructs whose fields the traversal treats wrongly: the alternate of
    a conditional, imports with braces or a namespace, everything inside an
    assignment pattern, the names of a [for (let x of ..)], a prefix operator
    (visited after its operand), an aliased export (visited after its alias). *)
Definition mistreated (n : node) : Prop :=
  match n with
  | EConditional _ _ _ _ => True
  | SImport _ _ None None _ => False
  | SImport _ _ None (Some []) _ => False
  | SImport _ _ _ _ _ => True
  | AsgArray _ _ _ | AsgObject _ _ _ | AsgElement _ _ _ | AsgSingle _ _ _ | AsgNamed _ _ _ _ => True
  | ForBinding _ _ _ => True
  | EUpdate _ _ prefix _ => prefix = true
  | NamedExport _ _ (Some _) => True
  | _ => False
  end.

(** ** Proofs *)

Lemma nested_app l : nested l -> forall l', nested l' -> nested (l ++ l').
Proof.
  induction 1 as [|m x a b Ha IHa Hb IHb]; intros l' H'; [exact H'|].
  simpl. rewrite <- app_assoc. simpl. apply nested_one; [exact Ha|]. now apply IHb.
Qed.

Section Visitors.
Context {S : Type} (v : visitor S).

Lemma nested_around m x f s : (forall s', nested (fst (f s'))) -> nested (fst (around v m x f s)).
Proof.
  intros H. unfold around. destruct (v_enter v m x s) as [[|] s1].
  - specialize (H s1). destruct (f s1) as [es s2]. simpl in *.
    apply nested_one; [exact H|constructor].
  - simpl. apply (nested_one m x [] []); constructor.
Qed.

Lemma nested_around_all ms x f : (forall s', nested (fst (f s'))) -> forall s, nested (fst (around_all v ms x f s)).
Proof.
  intros H. induction ms as [|m ms IH]; intros s; [apply H|]. simpl. now apply nested_around.
Qed.

Lemma nested_in_turn (l : list (S -> list event * S)) : (forall f, In f l -> forall s, nested (fst (f s))) -> forall s, nested (fst (in_turn l s)).
Proof.
  induction l as [|f l IH]; intros H s; [constructor|]. simpl.
  pose proof (H f (or_introl eq_refl) s) as Hf. destruct (f s) as [es s1].
  specialize (IH (fun g Hg => H g (or_intror Hg)) s1). destruct (in_turn l s1) as [es' s2]. simpl in *.
  now apply nested_app.
Qed.

(** Whatever the visitor does, and whatever it skips, every call of an [enter]
    method is followed by the call of the same [exit] method with the same
    node, properly nested. *)
Theorem C33_nested t n s : nested (fst (traverse v t n s)).
Proof.
  revert t s. induction n as [n IH] using (well_founded_induction (well_founded_ltof _ height)). intros t s.
  rewrite traverse_eq. apply nested_around_all. intros s'. apply nested_in_turn.
  intros f Hf. apply in_map_iff in Hf. destruct Hf as ([t' c|x] & <- & Hp); intros s''; simpl.
  - apply IH. apply height_child. eapply parts_children; exact Hp.
  - apply nested_around. intros ?. constructor.
Qed.

(** A visitor that returns [false] from an [enter] method gets no further call
    before the matching [exit]. *)
Theorem C33_skip t n s m : hd_error (methods t n) = Some m -> fst (v_enter v m (ThNode n) s) = false ->
  fst (traverse v t n s) = [Enter m (ThNode n); Exit m (ThNode n)].
Proof.
  intros H E. rewrite traverse_eq. destruct (methods t n) as [|m' ms]; [discriminate|].
  injection H as ->. simpl. unfold around. destruct (v_enter v m (ThNode n) s) as [b s1]. simpl in E. now subst b.
Qed.
End Visitors.

(** *** A visitor that wants to see everything *)

Lemma entered_app a b : entered (a ++ b) = entered a ++ entered b.
Proof.
  induction a as [|[m x|m x] a IH]; simpl; [reflexivity| |exact IH].
  destruct (String.eqb m (leaf_method x)); simpl; now rewrite IH.
Qed.

Definition traced (t : ty) (n : node) : list event := fst (traverse tracer t n tt).

Lemma around_traced m x f : fst (around tracer m x f tt) = Enter m x :: fst (f tt) ++ [Exit m x].
Proof. unfold around. simpl. destruct (f tt). reflexivity. Qed.

Lemma unit_eta (f : unit -> list event * unit) s : f s = f tt.
Proof. now destruct s. Qed.

Lemma around_all_traced ms x f :
  fst (around_all tracer ms x f tt) = map (fun m => Enter m x) ms ++ fst (f tt) ++ map (fun m => Exit m x) (rev ms).
Proof.
  induction ms as [|m ms IH]; simpl; [now rewrite app_nil_r|].
  rewrite around_traced, IH, map_app. simpl. rewrite <- !app_assoc. reflexivity.
Qed.

Definition part_events (p : part) : list event :=
  match p with Sub t c => traced t c | Leaf x => [Enter (leaf_method x) x; Exit (leaf_method x) x] end.

Lemma in_turn_traced ps : fst (in_turn (map (step tracer) ps) tt) = flat_map part_events ps.
Proof.
  induction ps as [|p ps IH]; [reflexivity|]. cbn [map in_turn flat_map].
  assert (E : fst (step tracer p tt) = part_events p).
  { destruct p as [t c|x]; [reflexivity|]. simpl. unfold around. reflexivity. }
  rewrite <- E. destruct (step tracer p tt) as [es []].
  destruct (in_turn (map (step tracer) ps) tt) as [es' []]. simpl in *. now rewrite IH.
Qed.

Lemma traced_eq t n : traced t n =
  map (fun m => Enter m (ThNode n)) (methods t n) ++ flat_map part_events (parts n)
  ++ map (fun m => Exit m (ThNode n)) (rev (methods t n)).
Proof. unfold traced. now rewrite traverse_eq, around_all_traced, in_turn_traced. Qed.

Lemma entered_exits ms x : entered (map (fun m => Exit m x) ms) = [].
Proof. induction ms as [|m ms IH]; [reflexivity|exact IH]. Qed.

(** None of the enums around a node has the node's own method. *)
Lemma wrappers_other t n m : In m (wrappers t n) -> m <> own_method n.
Proof.
  intros H; destruct t, n; simpl in H;
    repeat match goal with
    | H : _ \/ _ |- _ => destruct H as [H|H]
    | H : False |- _ => contradiction
    end; subst; simpl; discriminate.
Qed.

Lemma entered_enters t n :
  entered (map (fun m => Enter m (ThNode n)) (methods t n)) = [ThNode n].
Proof.
  unfold methods. rewrite map_app, entered_app. simpl. rewrite String.eqb_refl.
  assert (W : forall ms, (forall m, In m ms -> m <> own_method n) ->
    entered (map (fun m => Enter m (ThNode n)) ms) = []).
  { induction ms as [|m ms IH]; intros H; [reflexivity|]. simpl.
    destruct (String.eqb_spec m (own_method n)) as [E|_].
    - exfalso. exact (H m (or_introl eq_refl) E).
    - apply IH. intros m' Hm'. apply H. now right. }
  rewrite W; [reflexivity|apply wrappers_other].
Qed.

Definition seen (t : ty) (n : node) : list thing := entered (traced t n).

Lemma seen_eq t n : seen t n = ThNode n :: flat_map (fun p => entered (part_events p)) (parts n).
Proof.
  unfold seen. rewrite traced_eq, !entered_app, entered_enters, entered_exits, app_nil_r. simpl. f_equal.
  induction (parts n) as [|p ps IH]; [reflexivity|]. simpl. now rewrite entered_app, IH.
Qed.

(** The parts the code walks are the contents, for the nodes that are treated well. *)
Lemma parts_contents n : ~ mistreated n -> parts n = contents n.
Proof.
  assert (O : forall t o, osub t o = node_opt t o) by (intros t [x|]; reflexivity).
  assert (I : forall o, ids o = ident_opt o) by (intros [x|]; reflexivity).
  assert (M : forall t l, subs_ t l = nodes_ t l) by reflexivity.
  intros H. destruct n; simpl in H |- *; try reflexivity; try (exfalso; tauto);
    rewrite ?O, ?I, ?M; try reflexivity.
  - destruct prefix; [exfalso; now apply H|reflexivity].
  - destruct namespace_binding; [exfalso; tauto|].
    destruct named_imports as [[|x l]|]; [reflexivity|exfalso; tauto|reflexivity].
  - destruct alias_of; [exfalso; tauto|reflexivity].
Qed.

(** A visitor that skips nothing enters everything in the tree exactly once, in
    source order: the node itself, then all that is in its fields, in their
    order.  (Missing: trees with [mistreated] nodes; see below.) *)
Theorem C33_everything_once_partial t n :
  (forall m, descendant n m -> ~ mistreated m) -> inorder (ThNode n) (seen t n).
Proof.
  revert t. induction n as [n IH] using (well_founded_induction (well_founded_ltof _ height)). intros t H.
  rewrite seen_eq. constructor.
  assert (Hn : ~ mistreated n) by (apply H; constructor).
  assert (G : forall p, In p (parts n) -> In p (contents n)) by (rewrite (parts_contents n Hn); auto).
  rewrite (parts_contents n Hn).
  assert (K : forall ps, (forall p, In p ps -> In p (contents n)) ->
    inorders ps (flat_map (fun p => entered (part_events p)) ps)).
  { induction ps as [|p ps IHp]; intros Hp; [constructor|]. simpl.
    assert (Hps : inorders ps (flat_map (fun p => entered (part_events p)) ps)).
    { apply IHp. intros q Hq. apply Hp. now right. }
    assert (Hpp : In p (contents n)) by (apply Hp; now left).
    destruct p as [t' c|x].
    - apply inorders_sub; [|exact Hps]. simpl. apply IH.
      + apply height_child. apply contents_children. now exists t'.
      + intros m Hm. apply H. apply (desc_child n c m); [|exact Hm]. apply contents_children. now exists t'.
    - apply inorders_leaf; [|exact Hps]. simpl. rewrite String.eqb_refl. constructor.
      intros m ->.
      clear - Hpp. destruct n; simpl in Hpp; unfold node_opt, nodes_, ident_opt, string_list in Hpp;
        repeat match goal with
        | H : In _ (_ ++ _) |- _ => apply in_app_or in H; destruct H as [H|H]
        | H : In _ (map _ _) |- _ => apply in_map_iff in H; destruct H as (? & H & _)
        | H : In _ (match ?o with Some _ => _ | None => _ end) |- _ => destruct o; simpl in H |- *
        | H : In _ (if ?b then _ else _) |- _ => destruct b; simpl in H |- *
        | H : _ \/ _ |- _ => destruct H as [H|H]
        | H : In _ (_ :: _) |- _ => simpl in H
        end; try contradiction; discriminate. }
  apply K. auto.
Qed.

(** *** Trees with any nodes in them *)

(** [within n x]: [x] is [n], or in one of its fields, or in a field of a field, .. *)
Inductive within : node -> thing -> Prop :=
| within_self n : within n (ThNode n)
| within_leaf n x : In (Leaf x) (contents n) -> within n x
| within_sub n t c x : In (Sub t c) (contents n) -> within c x -> within n x.

(** The same, never below a node that is treated wrongly. *)
Inductive within_clear : node -> thing -> Prop :=
| clear_self n : within_clear n (ThNode n)
| clear_leaf n x : ~ mistreated n -> In (Leaf x) (contents n) -> within_clear n x
| clear_sub n t c x : ~ mistreated n -> In (Sub t c) (contents n) -> within_clear c x -> within_clear n x.

Lemma seen_parts t n x : In x (seen t n) <->
  x = ThNode n \/ In (Leaf x) (parts n) \/ exists t' c, In (Sub t' c) (parts n) /\ In x (seen t' c).
Proof.
  rewrite seen_eq. simpl. split.
  - intros [H|H]; [now left|right]. apply in_flat_map in H. destruct H as ([t' c|y] & Hp & Hx).
    + right. exists t', c. now split.
    + left. simpl in Hx. rewrite String.eqb_refl in Hx. destruct Hx as [->|[]]. exact Hp.
  - intros [->|[H|(t' & c & Hp & Hx)]]; [now left| |]; right; apply in_flat_map.
    + exists (Leaf x). split; [exact H|]. simpl. rewrite String.eqb_refl. now left.
    + exists (Sub t' c). now split.
Qed.

Lemma parts_leaf n x : In (Leaf x) (parts n) -> In (Leaf x) (contents n).
Proof.
  assert (O : forall t o, osub t o = node_opt t o) by (intros t [z|]; reflexivity).
  assert (I : forall o, ids o = ident_opt o) by (intros [z|]; reflexivity).
  assert (M : forall t l, subs_ t l = nodes_ t l) by reflexivity.
  destruct n; simpl; rewrite ?O, ?I, ?M; auto; try tauto;
    try (destruct prefix; simpl; tauto); rewrite !in_app_iff; simpl; try tauto;
    intros; repeat match goal with H : _ \/ _ |- _ => destruct H as [H|H] end; try tauto;
    try discriminate; destruct named_imports; simpl in *; tauto.
Qed.

(** Nothing is entered that is not in the tree, whatever the tree. *)
Theorem C33_nothing_else t n x : In x (seen t n) -> within n x.
Proof.
  revert t. induction n as [n IH] using (well_founded_induction (well_founded_ltof _ height)). intros t H.
  apply seen_parts in H. destruct H as [->|[H|(t' & c & Hp & Hx)]]; [constructor| |].
  - apply within_leaf. now apply parts_leaf.
  - apply parts_children in Hp. pose proof Hp as Hc. apply contents_children in Hp. destruct Hp as [t'' Hp].
    eapply within_sub; [exact Hp|]. eapply IH; [|exact Hx]. now apply height_child.
Qed.

(** Everything is entered that is not below a node treated wrongly. *)
Theorem C33_everything_partial t n x : within_clear n x -> In x (seen t n).
Proof.
  intros H. revert t. induction H as [n|n x Hn Hx|n t' c x Hn Hc Hx IH]; intros t; apply seen_parts.
  - now left.
  - right; left. now rewrite (parts_contents n Hn).
  - right; right. exists t', c. split; [now rewrite (parts_contents n Hn)|apply IH].
Qed.

(** ** Examples and counterexamples *)

(** A program without any of the mistreated constructs, but with most others. *)
Definition walkable : str := chars
  "'use strict'; var a = 1, [b, , ...c] = x; function* g(p, {q = 2}) { yield* p; } class A extends B { constructor() { super(...c); } static async m() { await super.n`t${a}u`; } get z() { return a || b-- } } for (k in g()) { if (k) break; else continue; } (x, y) => ({ x, [y]: -x ** 2 }); try { throw /r[/]/g } catch { }".

Definition mistreated_b (n : node) : bool :=
  match n with
  | EConditional _ _ _ _ => true
  | SImport _ _ None None _ => false
  | SImport _ _ None (Some []) _ => false
  | SImport _ _ _ _ _ => true
  | AsgArray _ _ _ | AsgObject _ _ _ | AsgElement _ _ _ | AsgSingle _ _ _ | AsgNamed _ _ _ _ => true
  | ForBinding _ _ _ => true
  | EUpdate _ _ prefix _ => prefix
  | NamedExport _ _ (Some _) => true
  | _ => false
  end.
Lemma mistreated_spec n : mistreated n -> mistreated_b n = true.
Proof.
  destruct n; simpl; try tauto.
  destruct namespace_binding; [tauto|]. destruct named_imports as [[|]|]; tauto.
  destruct alias_of; tauto.
Qed.

(** All descendants, as a list. *)
Lemma descendant_nodes d : forall n x, height n <= d -> descendant n x -> In x (nodes d n).
Proof.
  induction d as [|d IH]; intros n x Hd H; [destruct n; simpl in Hd; lia|]. cbn [nodes].
  destruct H as [n|n c x Hc Hx]; [now left|right].
  apply in_flat_map. exists c. split; [exact Hc|]. apply IH; [|exact Hx].
  apply height_child in Hc. lia.
Qed.

Example C33_instance : exists a, @accepts ap TProgram false walkable a /\
  (forall x, descendant a x -> ~ mistreated x) /\ length (seen YProgram a) = 129.
Proof.
  assert (H : match parsed TProgram false walkable with
    | Some a => forallb (fun x => negb (mistreated_b x)) (nodes (height a) a)
                && Nat.eqb (length (seen YProgram a)) 129
    | None => false end = true) by (vm_compute; reflexivity).
  destruct (parsed TProgram false walkable) as [a|] eqn:E; [|discriminate].
  exists a. split; [now apply parsed_accepts|].
  apply andb_true_iff in H. destruct H as [H L]. split; [|now apply Nat.eqb_eq].
  intros x Hx Hm. apply mistreated_spec in Hm.
  rewrite forallb_forall in H. specialize (H x (descendant_nodes _ a x (le_n _) Hx)). rewrite Hm in H. discriminate.
Qed.

(** What [TraceVisitor] records of the calls of [enter] methods
    (ast/src/traverse/macros.rs:75-107): the names of the methods, without the
    [enter_] in front, in the order of the calls. *)
Definition entered_names (t : ty) (n : node) : list string :=
  flat_map (fun e => match e with Enter m _ => [m] | Exit _ _ => [] end) (traced t n).

(** The first call for a node is that of the enum the code holds it as, and the
    last one is its [exit] method: a visitor that has [enter_expr] sees every
    expression, and so on. *)
Theorem C33_outermost t n m :
  In (t, m) [(YProgram, "program"); (YStmt, "stmt"); (YExpr, "expr"); (YBindingPattern, "binding_pattern");
             (YObjectBindingProp, "object_binding_prop"); (YClassElement, "class_element"); (YForInit, "for_init");
             (YForDeclaration, "for_declaration"); (YMemberObject, "member_object"); (YCallee, "callee");
             (YArrowBody, "arrow_function_body"); (YPatternOrExpr, "pattern_or_expr")] ->
  exists l, traced t n = Enter m (ThNode n) :: l ++ [Exit m (ThNode n)].
Proof.
  intros H.
  assert (E : exists ms, methods t n = m :: ms).
  { simpl in H. repeat destruct H as [H|H]; try contradiction; injection H as <- <-;
      unfold methods; simpl; try (eexists; reflexivity); destruct n; eexists; reflexivity. }
  destruct E as [ms E]. rewrite traced_eq, E. cbn [rev map]. rewrite map_app. cbn [map app].
  eexists. rewrite !app_assoc. reflexivity.
Qed.

(** The calls on three programs that have nearly every construct. *)
Theorem C33_trace_instance :
  option_map (entered_names YProgram) (parsed TProgram false walkable)
   = Some
    ["program"; "stmt_list"; "string_literal"; "stmt"; "variable_stmt"; "variable_declaration"; "binding_pattern";
     "ident"; "expr"; "literal_expr"; "literal"; "number_literal"; "variable_declaration"; "binding_pattern";
     "array_binding"; "binding_element"; "binding_pattern"; "ident"; "binding_pattern"; "ident"; "expr"; "ident";
     "stmt"; "function_decl"; "ident"; "formal_parameters"; "binding_element"; "binding_pattern"; "ident";
     "binding_element"; "binding_pattern"; "object_binding"; "object_binding_prop"; "single_name_binding"; "ident";
     "expr"; "literal_expr"; "literal"; "number_literal"; "body"; "stmt"; "stmt_expr"; "expr"; "yield_expr";
     "expr"; "ident"; "stmt"; "class_decl"; "ident"; "expr"; "ident"; "class_element"; "method_definition";
     "property_name"; "ident"; "formal_parameters"; "body"; "stmt"; "stmt_expr"; "expr"; "call_expr"; "callee";
     "argument"; "expr"; "ident"; "class_element"; "method_definition"; "property_name"; "ident";
     "formal_parameters"; "body"; "stmt"; "stmt_expr"; "expr"; "await_expr"; "expr"; "tagged_template_expr";
     "expr"; "member_expr"; "member_object"; "super"; "member_property"; "ident"; "template_literal";
     "template_part"; "template_part"; "expr"; "ident"; "template_part"; "class_element"; "method_definition";
     "property_name"; "ident"; "formal_parameters"; "body"; "stmt"; "return_stmt"; "expr"; "logical_expr"; "expr";
     "ident"; "logical_operator"; "expr"; "update_expr"; "expr"; "ident"; "update_operator"; "stmt"; "for_in_stmt";
     "for_declaration"; "expr"; "ident"; "expr"; "call_expr"; "callee"; "expr"; "ident"; "stmt"; "block_stmt";
     "stmt"; "if_stmt"; "expr"; "ident"; "stmt"; "break_stmt"; "stmt"; "continue_stmt"; "stmt"; "stmt_expr";
     "expr"; "arrow_function"; "formal_parameters"; "binding_element"; "binding_pattern"; "ident";
     "binding_element"; "binding_pattern"; "ident"; "arrow_function_body"; "expr"; "parenthesized_expr"; "expr";
     "literal_expr"; "literal"; "object_literal"; "property_definition"; "ident"; "property_definition";
     "named_property"; "property_name"; "expr"; "ident"; "expr"; "binary_expr"; "expr"; "unary_expr";
     "unary_operator"; "expr"; "ident"; "binary_operator"; "expr"; "literal_expr"; "literal"; "number_literal";
     "stmt"; "try_stmt"; "block_stmt"; "stmt"; "throw_stmt"; "expr"; "literal_expr"; "literal"; "catch_clause";
     "block_stmt"] /\
  option_map (entered_names YProgram) (parsed TProgram false (chars "a: do { continue a } while (1); while (b) ; with (c) debugger; switch (d) { case 1: break; default: } try {} finally {} for (var i = 0; i < 9; i += 1) ; for (let j of k) ; [l] = m; new n(this, null, !true)?.o?.(p); new.target; async (q) => await q; (class { 'r'() {} 5() {} }); if (s) t; else u; function v({w: x}) { return function* () { } } [, z, ...y], 1"))
   = Some
    ["program"; "stmt_list"; "stmt"; "labeled_stmt"; "ident"; "stmt"; "do_while_stmt"; "stmt"; "block_stmt";
     "stmt"; "continue_stmt"; "ident"; "expr"; "literal_expr"; "literal"; "number_literal"; "stmt"; "while_stmt";
     "expr"; "ident"; "stmt"; "empty_statement"; "stmt"; "with_stmt"; "expr"; "ident"; "stmt"; "debugger_stmt";
     "stmt"; "switch_stmt"; "expr"; "ident"; "switch_case"; "expr"; "literal_expr"; "literal"; "number_literal";
     "stmt"; "break_stmt"; "switch_case"; "stmt"; "try_stmt"; "block_stmt"; "block_stmt"; "stmt"; "for_stmt";
     "for_init"; "variable_stmt"; "variable_declaration"; "binding_pattern"; "ident"; "expr"; "literal_expr";
     "literal"; "number_literal"; "expr"; "binary_expr"; "expr"; "ident"; "binary_operator"; "expr";
     "literal_expr"; "literal"; "number_literal"; "expr"; "assignment_expr"; "pattern_or_expr"; "expr"; "ident";
     "assignment_operator"; "expr"; "literal_expr"; "literal"; "number_literal"; "stmt"; "empty_statement"; "stmt";
     "for_of_stmt"; "for_declaration"; "for_binding"; "expr"; "ident"; "stmt"; "empty_statement"; "stmt";
     "stmt_expr"; "expr"; "assignment_expr"; "pattern_or_expr"; "assignment_pattern"; "assignment_operator";
     "expr"; "ident"; "stmt"; "stmt_expr"; "expr"; "optional_call_expr"; "expr"; "optional_member_expr"; "expr";
     "new_expr"; "expr"; "ident"; "argument"; "expr"; "this_expr"; "argument"; "expr"; "literal_expr"; "literal";
     "argument"; "expr"; "unary_expr"; "unary_operator"; "expr"; "literal_expr"; "literal"; "member_property";
     "ident"; "argument"; "expr"; "ident"; "stmt"; "stmt_expr"; "expr"; "meta_property"; "ident"; "ident"; "stmt";
     "stmt_expr"; "expr"; "arrow_function"; "formal_parameters"; "binding_element"; "binding_pattern"; "ident";
     "arrow_function_body"; "expr"; "await_expr"; "expr"; "ident"; "stmt"; "stmt_expr"; "expr";
     "parenthesized_expr"; "expr"; "class_expr"; "class_element"; "method_definition"; "property_name";
     "string_literal"; "formal_parameters"; "body"; "class_element"; "method_definition"; "property_name";
     "number_literal"; "formal_parameters"; "body"; "stmt"; "if_stmt"; "expr"; "ident"; "stmt"; "stmt_expr";
     "expr"; "ident"; "stmt"; "stmt_expr"; "expr"; "ident"; "stmt"; "function_decl"; "ident"; "formal_parameters";
     "binding_element"; "binding_pattern"; "object_binding"; "object_binding_prop"; "named_binding";
     "property_name"; "ident"; "binding_element"; "binding_pattern"; "ident"; "body"; "stmt"; "return_stmt";
     "expr"; "function_expr"; "formal_parameters"; "body"; "stmt"; "stmt_expr"; "expr"; "sequence_expr"; "expr";
     "literal_expr"; "literal"; "array_literal"; "array_element"; "array_element"; "expr"; "ident";
     "array_element"; "expr"; "ident"; "expr"; "literal_expr"; "literal"; "number_literal"] /\
  option_map (entered_names YProgram) (parsed TProgram true (chars "import a from 'b'; export {c}; export * from 'd'; export default e; export let f; export default function g() { }"))
   = Some
    ["program"; "stmt_list"; "stmt"; "import"; "ident"; "string_literal"; "stmt"; "export"; "export_named";
     "named_export"; "ident"; "stmt"; "export"; "export_namespace"; "string_literal"; "stmt"; "export";
     "export_default_expr"; "expr"; "ident"; "stmt"; "export"; "export_decl"; "stmt"; "variable_stmt";
     "variable_declaration"; "binding_pattern"; "ident"; "stmt"; "export"; "export_default_decl"; "stmt";
     "function_decl"; "ident"; "formal_parameters"; "body"].
Proof. repeat split; vm_compute; reflexivity. Qed.

(** The names among the things entered while the program is walked. *)
Definition names_seen (m : bool) (D : str) : option (list str) :=
  option_map (fun a => flat_map (fun x => match x with ThIdent i => [id_name i] | _ => [] end) (seen YProgram a))
    (parsed TProgram m D).

(** Not once: the condition of [a ? b : c] is walked again in place of the
    alternate; names imported in braces are walked twice. *)
Theorem C33_once_refuted :
  names_seen false (chars "a ? b : c") = Some [chars "a"; chars "b"; chars "a"] /\
  names_seen true (chars "import d, {x as y} from 'm'")
  = Some [chars "d"; chars "x"; chars "y"; chars "x"; chars "y"].
Proof. split; vm_compute; reflexivity. Qed.

(** Not everything: the alternate [c] above, namespace imports, the targets of
    destructuring assignments, the names a [for] head binds. *)
Theorem C33_everything_refuted :
  names_seen true (chars "import * as n from 'm'") = Some [] /\
  names_seen false (chars "[a.b, {c}] = d") = Some [chars "d"] /\
  names_seen false (chars "for (const k of l);") = Some [chars "l"].
Proof. repeat split; vm_compute; reflexivity. Qed.

(** Not in order: prefix operators come after the operand, and the name an
    export renames comes after the new name. *)
Theorem C33_order_refuted :
  names_seen true (chars "export {a as b}") = Some [chars "b"; chars "a"] /\
  option_map (seen YExpr) (parsed TExpr false (chars "++a"))
  = let a := mk_ident (mk_span 2 3) (chars "a") in
    Some [ThNode (EUpdate (mk_span 0 3) UpIncrease true (EIdentRef a)); ThNode (EIdentRef a); ThIdent a;
          ThUpdate UpIncrease].
Proof. split; vm_compute; reflexivity. Qed.

Definition traverse_theorems :=
  (@C33_nested, @C33_skip, C33_outermost, C33_trace_instance, C33_everything_once_partial, C33_nothing_else, C33_everything_partial,
   C33_once_refuted, C33_everything_refuted, C33_order_refuted).
Print Assumptions traverse_theorems.
