(** * Shape: every accepted tree is a well-typed tree, of the shape the language prescribes (C37). *)

From Verif Require Import Base Tokens CharReader Lexer LexSpec LexerFacts PropLexer Ast Prog TokChain ParseState Parser
  Grammar GrammarFacts AllOk AstSpec ParseRuns PropParser Traverse Sorts.
Local Open Scope string_scope.
Local Open Scope list_scope.

(** ** Specification *)

(** A statement that is a declaration: [function], [class], [let], [const], [import], [export]. *)
Definition declaration (n : node) : bool :=
  match n with
  | SFunctionDecl _ _ _ _ _ _ | SClassDecl _ _ _ _ | SVariable _ VKLet _ | SVariable _ VKConst _
  | SImport _ _ _ _ _ => true
  | _ => is_export n
  end.

Definition none_declared (o : option node) : bool := match o with Some n => negb (declaration n) | None => true end.
Definition nonempty_list {A} (l : list A) : bool := match l with [] => false | _ => true end.

(** What a node must look like beyond the types of its fields. *)
Definition in_shape (n : node) : bool :=
  match n with
  (* the body of a control statement or label is not a declaration *)
  | SIf _ _ a b => negb (declaration a) && none_declared b
  | SFor _ _ _ _ b | SForIn _ _ _ b | SForOf _ _ _ b _ | SWhile _ _ b | SWith _ _ b | SDoWhile _ b _
  | SLabeled _ _ b => negb (declaration b)
  (* [export] is followed by a declaration, [export default] by a function or class *)
  | XDecl _ (SVariable _ _ _) | XDecl _ (SFunctionDecl _ _ _ _ _ _) | XDecl _ (SClassDecl _ _ _ _) => true
  | XDecl _ _ => false
  | XDefaultDecl _ (SFunctionDecl _ _ _ _ _ _) | XDefaultDecl _ (SClassDecl _ _ _ _) => true
  | XDefaultDecl _ _ => false
  (* a declaration declares something, a comma expression has two operands *)
  | SVariable _ _ l => nonempty_list l
  | ESequence _ l => Nat.leb 2 (length l)
  (* [yield] without operand is not [yield*]; [new a] has no arguments *)
  | EYield _ None d => negb d
  | ENew _ _ None l => negb (nonempty_list l)
  (* [import] calls have one plain argument *)
  | ECall _ CalleeImport _ [ArgExpr _] => true
  | ECall _ CalleeImport _ _ => false
  (* an import that names something names it by a default, a namespace or a list, and not the last two *)
  | SImport _ _ (Some _) (Some _) _ => false
  (* a template has at least one part *)
  | LitTemplate l => nonempty_list l
  | _ => true
  end.

Inductive shaped : ty -> node -> Prop :=
| shaped_intro t n : of_type t n = true -> in_shape n = true ->
    (forall t' c, In (Sub t' c) (contents n) -> shaped t' c) -> shaped t n.

Lemma shaped_typed t n : shaped t n -> well_typed t n.
Proof. induction 1. now constructor. Qed.

Lemma shaped_descendant n x : descendant n x -> forall t, shaped t n -> exists t', shaped t' x.
Proof.
  induction 1 as [n|n c x Hin Hd IH]; intros t H; [eauto|]. destruct H as [t n Ht Hs Hc].
  apply contents_children in Hin. destruct Hin as (t' & Hin). eauto.
Qed.

(** ** Proof *)

Definition okp (p : part) : Prop := match p with Sub t c => shaped t c | Leaf _ => True end.

Lemma mk_shaped t n : of_type t n = true -> in_shape n = true -> Forall okp (contents n) -> shaped t n.
Proof.
  intros H1 H2 H3. constructor; auto. intros t' c Hin. rewrite Forall_forall in H3. apply (H3 _ Hin).
Qed.

Lemma okp_nodes t l : Forall (shaped t) l -> Forall okp (nodes_ t l).
Proof. intros H. unfold nodes_. now apply Forall_map. Qed.
Lemma okp_opt t o : optP (shaped t) o -> Forall okp (node_opt t o).
Proof. destruct o; cbn; intros H; [constructor; [exact H|constructor]|constructor]. Qed.
Lemma okp_ident o : Forall okp (ident_opt o).
Proof. destruct o; repeat constructor. Qed.
Lemma okp_strings l : Forall okp (string_list l).
Proof. unfold string_list. apply Forall_map. now apply Forall_forall. Qed.

Lemma coerce t t' n : shaped t n -> of_type t' n = true -> shaped t' n.
Proof. intros H E. destruct H. constructor; auto. Qed.

Definition ty_of (s : sort) : ty :=
  match s with
  | Grammar.YName => YPropertyName
  | Grammar.YConcise => YArrowBody
  | Grammar.YProp | Grammar.YOptProp _ => YMemberProperty
  | Grammar.YArgs | Grammar.YArg => YArgument
  | Grammar.YTemplate => YTemplate
  | Grammar.YTpl => YTemplatePart
  | Grammar.YArr | Grammar.YElem => YArrayElement
  | Grammar.YPropDef => YPropertyDefinition
  | Grammar.YMethod | Grammar.YClassBody _ | Grammar.YClassElem _ => YMethod
  | Grammar.YParams => YFormalParameters
  | Grammar.YBody => YBody
  | Grammar.YPat => YBindingPattern
  | Grammar.YBindElem | Grammar.YBindArr => YBindingElement
  | Grammar.YBindProp => YObjectBindingProp
  | Grammar.YAsg | Grammar.YAsgTarget => YPatternOrExpr
  | Grammar.YAsgElem | Grammar.YAsgArr => YAssignmentElement
  | Grammar.YAsgProp => YAssignmentProp
  | Grammar.YVarDecl => YVariableDeclaration
  | Grammar.YForInit => YForInit
  | Grammar.YForDecl => YForDeclaration
  | Grammar.YItem | Grammar.YDecl | Grammar.YStmt | Grammar.YOptStmt => YStmt
  | Grammar.YBlock | Grammar.YFinally => YBlock
  | Grammar.YCatch | Grammar.YOptCatch => YCatchClause
  | Grammar.YCase => YSwitchCase
  | Grammar.YImportClause | Grammar.YImportSpec => YNamedImport
  | Grammar.YExportSpec => YNamedExport
  | Grammar.YProgram => YProgram
  | _ => YExpr
  end.

(** The type of the members of a list or option. *)
Definition mty (s : sort) : ty :=
  match s with
  | Grammar.YSep s' | Grammar.YMany s' | Grammar.YList s' _ | Grammar.YRList s' _ _ => ty_of s'
  | _ => ty_of s
  end.
Definition rty (s : sort) : ty :=
  match s with
  | Grammar.YRList _ r _ => ty_of r
  | Grammar.YAsgArr => YPatternOrExpr
  | _ => YBindingPattern
  end.

Definition shaped1 (s : sort) (n : node) : Prop :=
  shaped (ty_of s) n /\
  match s with
  | Grammar.YStmt => declaration n = false
  | Grammar.YAsg => match n with AsgArray _ _ _ | AsgObject _ _ _ => True | _ => False end
  | _ => True
  end.

Definition shapes (s : sort) (it : item) : Prop :=
  match it with
  | I n => shaped1 s n
  | L l => Forall (shaped (mty s)) l /\
           match s with Grammar.YSep _ | Grammar.YTpl => nonempty_list l = true | _ => True end
  | O o => optP (shaped (mty s)) o /\
           match s with Grammar.YOptStmt => none_declared o = true | _ => True end
  | R l r => Forall (shaped (mty s)) l /\ optP (shaped (rty s)) r
  | RO l r => Forall (shaped (mty s)) (cat_options l) /\ optP (shaped (rty s)) r
  | Im d ns nm => Forall (shaped YNamedImport) (match nm with Some l => l | None => [] end) /\
      (ns = None \/ nm = None)
  end.

Lemma expr_arrow_body n : is_expr n = true -> of_type YArrowBody n = true.
Proof. destruct n; auto. Qed.
Lemma expr_fordecl n : is_expr n = true -> of_type YForDeclaration n = true.
Proof. destruct n; auto. Qed.
Lemma expr_forinit n : is_expr n = true -> of_type YForInit n = true.
Proof. destruct n; auto. Qed.
Lemma expr_target n : is_expr n = true -> of_type YPatternOrExpr n = true.
Proof. destruct n; auto. Qed.
Lemma expr_callee n : is_expr n = true -> of_type YCallee n = true.
Proof. destruct n; auto. Qed.
Lemma expr_object n : is_expr n = true -> of_type YMemberObject n = true.
Proof. destruct n; auto. Qed.
Lemma shaped_ty t n : shaped t n -> of_type t n = true.
Proof. now intros []. Qed.

Ltac up := match goal with
  | H : shaped YExpr ?n |- shaped _ ?n => exact H || (eapply coerce; [exact H|]; apply shaped_ty in H;
      first [now apply expr_arrow_body|now apply expr_fordecl|now apply expr_forinit|now apply expr_target
            |now apply expr_callee|now apply expr_object])
  | H : shaped ?t ?n |- shaped ?t ?n => exact H
  | H : shaped YBlock ?n |- shaped YStmt ?n => eapply coerce; [exact H|apply shaped_ty in H; now destruct n]
  | H : shaped YBody ?n |- shaped YArrowBody ?n => eapply coerce; [exact H|apply shaped_ty in H; now destruct n]
  | H : shaped YMethod ?n |- shaped YClassElement ?n => eapply coerce; [exact H|apply shaped_ty in H; now destruct n]
  end.

Lemma up_methods l : Forall (shaped YMethod) l -> Forall (shaped YClassElement) l.
Proof. apply Forall_impl. intros a H. up. Qed.

Lemma str_part_shaped s : Forall (shaped YTemplatePart) (str_part s).
Proof. unfold str_part. destruct (is_empty s); [constructor|]. constructor; [|constructor]. apply mk_shaped; [reflexivity|reflexivity|constructor]. Qed.

Lemma ty_next l : ty_of (next_sort l) = YExpr.
Proof. now destruct l. Qed.

Lemma lit_shaped l : shaped YLiteral (literal_node l).
Proof.
  destruct l; apply mk_shaped; try reflexivity; cbn [contents literal_node]; try (constructor; fail).
  all: constructor; [|constructor].
  all: try exact Logic.I.
  apply mk_shaped; [reflexivity|reflexivity|constructor].
Qed.

Ltac kids :=
  repeat first
  [ assumption | exact Logic.I
  | apply Forall_nil | apply Forall_cons | apply Forall_app; split
  | apply okp_ident | apply okp_strings
  | progress cbn [okp]
  | apply okp_opt | apply okp_nodes | progress up
  | apply up_methods
  | apply str_part_shaped | apply lit_shaped
  | match goal with |- shaped _ _ => apply mk_shaped; [reflexivity|reflexivity|cbn [contents]] end ].
Ltac prep :=
  repeat match goal with
  | H : shapes _ _ |- _ => cbn [shapes ty_of mty rty] in H
  | H : shaped1 _ _ |- _ => destruct H as [H ?]; cbn [ty_of] in H
  | H : _ /\ _ |- _ => destruct H
  end.

Section Shape.
Context {PF : Platform}.
Variable D : str.

Theorem der_shaped s c it ts : der D s c it ts -> shapes s it.
Proof.
  induction 1; prep; cbn [shapes mty rty ty_of].
  all: try (match goal with |- shaped1 _ _ => split; cbn [ty_of]; try exact Logic.I end).
  all: try solve [kids].
  all: try solve [split; kids].
  all: try solve [split; [kids|auto]].
  all: repeat match goal with H : declaration _ = false |- _ => rewrite H in * end.
  all: try solve [apply mk_shaped; [reflexivity|cbn [in_shape negb andb];
         repeat match goal with H : declaration _ = false |- _ => rewrite H end; auto|cbn [contents]; kids]].
  - split; [kids|]. destruct l; reflexivity.
  - apply mk_shaped; [reflexivity|cbn [in_shape]; now apply Nat.leb_le|cbn [contents]; kids].
  - now rewrite ty_next in IHder.
  - rewrite ty_next in IHder2. destruct o; apply mk_shaped; try reflexivity; cbn [contents create_expr]; kids.
  - apply mk_shaped; [reflexivity| |cbn [contents]; kids].
    apply shaped_ty in IHder1. destruct e; try discriminate IHder1; reflexivity.
  - apply mk_shaped; [reflexivity| |cbn [contents]; kids]. cbn [in_shape].
    destruct (str_part s); [assumption|reflexivity].
  - apply mk_shaped; [reflexivity|reflexivity|cbn [contents]]. constructor; [|constructor]. cbn [okp].
    eapply coerce; [eassumption|]. apply shaped_ty in IHder. now destruct p.
  - apply mk_shaped; [reflexivity| |cbn [contents]; kids].
    + cbn [in_shape]. match goal with H : ns = None \/ nm = None |- _ => destruct H as [-> | ->]; [reflexivity|now destruct ns] end.
    + destruct nm; kids.
  - match goal with H : exists _ _, d = _ |- _ => destruct H as (sp1 & l1 & ->) end. apply mk_shaped; [reflexivity|reflexivity|cbn [contents]; kids].
  - apply mk_shaped; [reflexivity| |cbn [contents]; kids]. destruct d; try contradiction; reflexivity.
  - apply mk_shaped; [reflexivity| |cbn [contents]; kids]. destruct d; try contradiction; reflexivity.
  - apply shaped_ty in IHder. now destruct b.
  - split; [kids|]. cbn [none_declared]. now match goal with H : declaration b = false |- _ => rewrite H end.
  - split; [|exact Logic.I]. cbn [optP]. up.
  - split; [|exact Logic.I]. cbn [optP]. apply mk_shaped; [reflexivity|assumption|cbn [contents]; kids].
  - eapply coerce; [eassumption|]. destruct p; try contradiction; reflexivity.
  - destruct (c_module c); (apply mk_shaped; [reflexivity|reflexivity|cbn [contents]; kids]).
Qed.

(** ** C37 *)

Definition target_type (tg : target) : ty :=
  match tg with TExpr => YExpr | TStmt => YStmt | TProgram => YProgram end.

Lemma accepts_shaped tg m a : accepts tg m D a -> shaped (target_type tg) a.
Proof.
  intros H. destruct (accepts_inv _ _ _ _ H) as (ts & pre & f & _ & Hd & _).
  apply der_shaped in Hd. destruct tg; apply Hd.
Qed.

(** Every field of every node of the tree has a value of the type the syntax
    tree's declaration gives it. *)
Theorem C37_well_typed tg m a : accepts tg m D a -> well_typed (target_type tg) a.
Proof. intros H. eapply shaped_typed, accepts_shaped, H. Qed.

(** Every node of the tree looks as the language prescribes. *)
Theorem C37_shape tg m a x : accepts tg m D a -> descendant a x -> in_shape x = true.
Proof.
  intros H Hd. destruct (shaped_descendant _ _ Hd _ (accepts_shaped _ _ _ H)) as (t & Hx). now destruct Hx.
Qed.

End Shape.

(** A tree with many of the shapes in it. *)
Example C37_instance : exists a x, @accepts ap TProgram true
    (chars "import a, {b as c} from 'm'; export default class { x() { if (a) y: for (;;) { let z } } } export const k = (1, 2)") a /\
  descendant a x /\ match x with SIf _ _ (SLabeled _ _ _) None => true | _ => false end = true.
Proof. apply shows_descendant. vm_compute. reflexivity. Qed.
Example C37_rejected : exists e, @rejects ap TProgram false (chars "if (a) class B {}") e.
Proof. apply some_rejects. vm_compute. reflexivity. Qed.
