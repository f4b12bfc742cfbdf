(** * PropMutate: rewriting a tree with a visitor (C43).

    Vocabulary: [Mutate.v] (the model of the code: [rewrites]), [Traverse.v] ([traverse], visitors that
    only look), [Sorts.v] ([well_typed]). *)

From Verif Require Import Base Tokens Lexer PropLexer Ast Prog Parser AstSpec ParseRuns PropParser Traverse Sorts Shape Codegen Mutate PropTraverse.
Local Open Scope string_scope.
Local Open Scope list_scope.

(** ** Specification *)

(** The tree with [fi] applied to every identifier in it, and [ge] to every expression, from the
    inside out. *)
Section Spec.
Variable fi : ident -> ident.
Variable ge : node -> node.

Fixpoint rewritten (n : node) : node :=
  let inner := match n with
    | EArrow sp a b p x => EArrow sp a b (rewritten p) (rewritten x)
    | EAssign sp o l r => EAssign sp o (rewritten l) (rewritten r)
    | EAwait sp a => EAwait sp (rewritten a)
    | EBinary sp o l r => EBinary sp o (rewritten l) (rewritten r)
    | ECall sp c asp l => ECall sp (rewritten c) asp (map rewritten l)
    | EClass sp i s l => EClass sp (option_map fi i) (option_map rewritten s) (map rewritten l)
    | EConditional sp a b c => EConditional sp (rewritten a) (rewritten b) (rewritten c)
    | EFunction sp a g i p b => EFunction sp a g (option_map fi i) (rewritten p) (rewritten b)
    | EIdentRef i => EIdentRef (fi i)
    | ELiteral sp l => ELiteral sp (rewritten l)
    | ELogical sp o l r => ELogical sp o (rewritten l) (rewritten r)
    | EMember sp o p => EMember sp (rewritten o) (rewritten p)
    | EMetaProperty sp m p => EMetaProperty sp (fi m) (fi p)
    | ENew sp c asp l => ENew sp (rewritten c) asp (map rewritten l)
    | EOptionalCall sp c asp l o => EOptionalCall sp (rewritten c) asp (map rewritten l) o
    | EOptionalMember sp o p b => EOptionalMember sp (rewritten o) (rewritten p) b
    | EParenthesized sp e => EParenthesized sp (rewritten e)
    | ESequence sp l => ESequence sp (map rewritten l)
    | ETaggedTemplate sp c t => ETaggedTemplate sp (rewritten c) (rewritten t)
    | EUnary sp o a => EUnary sp o (rewritten a)
    | EUpdate sp o p a => EUpdate sp o p (rewritten a)
    | EYield sp a d => EYield sp (option_map rewritten a) d
    | PropIdent i => PropIdent (fi i)
    | PropExpr e => PropExpr (rewritten e)
    | ArgExpr e => ArgExpr (rewritten e)
    | ArgSpread e => ArgSpread (rewritten e)
    | LitArray l => LitArray (map rewritten l)
    | LitObject l => LitObject (map rewritten l)
    | LitTemplate l => LitTemplate (map rewritten l)
    | TplExpr e => TplExpr (rewritten e)
    | ElemExpr e => ElemExpr (rewritten e)
    | ElemSpread e => ElemSpread (rewritten e)
    | DefIdentRef i => DefIdentRef (fi i)
    | DefSpread e => DefSpread (rewritten e)
    | DefNamed sp x e => DefNamed sp (rewritten x) (rewritten e)
    | DefMethod x => DefMethod (rewritten x)
    | NameIdent i => NameIdent (fi i)
    | NameComputed e => NameComputed (rewritten e)
    | Method sp x k p b g a s => Method sp (rewritten x) k (rewritten p) (rewritten b) g a s
    | FormalParameters sp l r => FormalParameters sp (map rewritten l) (option_map rewritten r)
    | Body sp ds l => Body sp ds (map rewritten l)
    | BindIdent i => BindIdent (fi i)
    | BindArray sp l r =>
      BindArray sp (map (fun o => match o with Some x => Some (rewritten x) | None => None end) l) (option_map rewritten r)
    | BindObject sp l r => BindObject sp (map rewritten l) (option_map rewritten r)
    | BindSingle sp i e => BindSingle sp (fi i) (option_map rewritten e)
    | BindNamed sp x b => BindNamed sp (rewritten x) (rewritten b)
    | BindElement sp p e => BindElement sp (rewritten p) (option_map rewritten e)
    | AsgArray sp l r =>
      AsgArray sp (map (fun o => match o with Some x => Some (rewritten x) | None => None end) l) (option_map rewritten r)
    | AsgObject sp l r => AsgObject sp (map rewritten l) (option_map rewritten r)
    | AsgElement sp p e => AsgElement sp (rewritten p) (option_map rewritten e)
    | AsgSingle sp i e => AsgSingle sp (fi i) (option_map rewritten e)
    | AsgNamed sp x p e => AsgNamed sp (rewritten x) (rewritten p) (option_map rewritten e)
    | SBlock sp l => SBlock sp (map rewritten l)
    | SBreak sp i => SBreak sp (option_map fi i)
    | SContinue sp i => SContinue sp (option_map fi i)
    | SDoWhile sp b t => SDoWhile sp (rewritten b) (rewritten t)
    | SExpr sp e => SExpr sp (rewritten e)
    | SFor sp i t u b => SFor sp (option_map rewritten i) (option_map rewritten t) (option_map rewritten u) (rewritten b)
    | SForIn sp l r b => SForIn sp (rewritten l) (rewritten r) (rewritten b)
    | SForOf sp l r b a => SForOf sp (rewritten l) (rewritten r) (rewritten b) a
    | SIf sp c a b => SIf sp (rewritten c) (rewritten a) (option_map rewritten b)
    | SLabeled sp i b => SLabeled sp (fi i) (rewritten b)
    | SReturn sp a => SReturn sp (option_map rewritten a)
    | SSwitch sp d l => SSwitch sp (rewritten d) (map rewritten l)
    | SThrow sp a => SThrow sp (rewritten a)
    | STry sp b h f => STry sp (rewritten b) (option_map rewritten h) (option_map rewritten f)
    | SVariable sp k l => SVariable sp k (map rewritten l)
    | SWhile sp t b => SWhile sp (rewritten t) (rewritten b)
    | SWith sp o b => SWith sp (rewritten o) (rewritten b)
    | SClassDecl sp i s l => SClassDecl sp (fi i) (option_map rewritten s) (map rewritten l)
    | SFunctionDecl sp a g i p b => SFunctionDecl sp a g (fi i) (rewritten p) (rewritten b)
    | SImport sp d ns l f =>
      SImport sp (option_map fi d) (option_map fi ns) match l with Some l => Some (map rewritten l) | None => None end f
    | XDecl sp d => XDecl sp (rewritten d)
    | XDefaultExpr sp e => XDefaultExpr sp (rewritten e)
    | XDefaultDecl sp d => XDefaultDecl sp (rewritten d)
    | XNamed sp l f => XNamed sp (map rewritten l) f
    | XNamespace sp a f => XNamespace sp (option_map fi a) f
    | VarDecl sp p e => VarDecl sp (rewritten p) (option_map rewritten e)
    | ForBinding sp k p => ForBinding sp k (rewritten p)
    | SwitchCase sp t l => SwitchCase sp (option_map rewritten t) (map rewritten l)
    | CatchClause sp p b => CatchClause sp (option_map rewritten p) (rewritten b)
    | NamedImport sp x a => NamedImport sp (fi x) (option_map fi a)
    | NamedExport sp x a => NamedExport sp (fi x) (option_map fi a)
    | Script sp ds l => Script sp ds (map rewritten l)
    | Module sp ds l => Module sp ds (map rewritten l)
    | EThis _ | CalleeSuper | CalleeImport | ObjSuper _ | LitNull | LitBoolean _ | LitString _ | LitNumber _
    | LitRegexp _ | TplString _ | ElemElision | NameString _ | NameNumber _ | SDebugger _ | SEmpty _ => n
    end in
  if is_expr n then ge inner else inner.

(** A visitor a user writes to get it: [enter_ident] applies [fi], [exit_expr] applies [ge]; the
    other methods are the ones [trait Visitor] has by default (macros.rs:64-74). *)
Definition rewriter : mut_visitor unit := mk_mut_visitor
  (fun m x s =>
     match x with
     | ThIdent i => (true, ThIdent (if String.eqb m "ident" then fi i else i), s)
     | _ => (true, x, s)
     end)
  (fun m x s =>
     match x with
     | ThNode n => (ThNode (if String.eqb m "expr" then ge n else n), s)
     | _ => (x, s)
     end).
End Spec.

(** The constructs in which it does not: the alternate of a conditional is not visited (and its
    condition twice), nor what is inside an assignment pattern, nor the names that a [for] head
    declares, nor [* as x] in an import; what an import lists in braces is visited twice. *)
Definition not_rewritten (n : node) : Prop :=
  match n with
  | EConditional _ _ _ _ => True
  | SImport _ _ None None _ => False
  | SImport _ _ None (Some []) _ => False
  | SImport _ _ _ _ _ => True
  | AsgArray _ _ _ | AsgObject _ _ _ | AsgElement _ _ _ | AsgSingle _ _ _ | AsgNamed _ _ _ _ => True
  | ForBinding _ _ _ => True
  | _ => False
  end.

(** ** Visitors that only look *)

Section Look.
Context {S : Type} (v : mut_visitor S).

Definition looks : Prop :=
  (forall m x s, snd (fst (m_enter v m x s)) = x) /\ (forall m x s, fst (m_exit v m x s) = x).

(** The same visitor without the things it hands back. *)
Definition looker : visitor S := mk_visitor
  (fun m x s => let '(b, _, s') := m_enter v m x s in (b, s')) (fun m x s => snd (m_exit v m x s)).

Hypothesis HL : looks.

(** It runs like [f] and leaves [a]. *)
Definition same {A} (p : M A) (a : A) (f : S -> list event * S) : Prop :=
  forall s, p s = Some (fst (f s), a, snd (f s)).

Lemma same_ret {A} (a : A) : same (ret a) a (in_turn []).
Proof. intros s. reflexivity. Qed.
Lemma in_turn_app l1 l2 s : in_turn (l1 ++ l2) s =
  let (es, s1) := in_turn l1 s in let (es', s2) := in_turn (S := S) l2 s1 in (es ++ es', s2).
Proof.
  revert s. induction l1 as [|f l1 IH]; intros s; cbn [in_turn app]; [now destruct (in_turn l2 s)|].
  destruct (f s) as [es s1]. rewrite IH. destruct (in_turn l1 s1) as [es1 s2]. destruct (in_turn l2 s2) as [es2 s3].
  now rewrite app_assoc.
Qed.
Lemma same_bind {A B} (p : M A) (k : A -> M B) a b l1 l2 : same p a (in_turn l1) -> same (k a) b (in_turn l2) ->
  same (bind p k) b (in_turn (l1 ++ l2)).
Proof.
  intros Hp Hk s. unfold bind. rewrite Hp, Hk, in_turn_app. destruct (in_turn l1 s) as [es s1]. cbn [fst snd].
  now destruct (in_turn l2 s1) as [es' s2].
Qed.
Lemma same_one {A} (p : M A) a f : same p a f -> same p a (in_turn [f]).
Proof. intros H s. rewrite H. cbn [in_turn]. destruct (f s) as [es s1]. cbn [fst snd]. now rewrite app_nil_r. Qed.
Lemma same_list {A} (f : A -> M A) (g : A -> S -> list event * S) l : (forall a, In a l -> same (f a) a (g a)) ->
  same (m_list f l) l (in_turn (map g l)).
Proof.
  intros H. induction l as [|a l IH]; [apply same_ret|]. cbn [m_list map].
  change (g a :: map g l) with ([g a] ++ map g l). eapply same_bind; [apply same_one, H; now left|].
  rewrite <- (app_nil_r (map g l)). eapply same_bind; [apply IH; intros b Hb; apply H; now right|]. apply same_ret.
Qed.
Lemma same_around {A} m w back (inside : A -> M A) f a : (forall a, back a (w a) = a) -> same (inside a) a f ->
  same (m_around v m w back inside a) a (around looker m (w a) f).
Proof.
  intros Hb Hi s. destruct HL as [H1 H2]. unfold m_around, around. cbn [looker v_enter v_exit].
  specialize (H1 m (w a) s). destruct (m_enter v m (w a) s) as [[b x] s1]. cbn [fst snd] in H1. subst x. rewrite Hb.
  assert (E : (if b then inside a else ret a) s1 = let (es, s2) := if b then f s1 else ([], s1) in Some (es, a, s2)).
  { destruct b; [rewrite Hi; now destruct (f s1)|reflexivity]. }
  rewrite E. destruct (if b then f s1 else ([], s1)) as [es s2]. specialize (H2 m (w a) s2).
  destruct (m_exit v m (w a) s2) as [x s3]. cbn [fst] in H2. subst x. rewrite Hb. reflexivity.
Qed.
Lemma same_leaf {A} m w back (a : A) : (forall a, back a (w a) = a) ->
  same (m_around v m w back ret a) a (around looker m (w a) (fun s => ([], s))).
Proof. intros Hb. apply same_around; [exact Hb|]. intros s. reflexivity. Qed.

Lemma nth_skip {A} (l : list A) : forall k x, nth_error l k = Some x -> skipn k l = x :: skipn (Datatypes.S k) l.
Proof. induction l as [|a l IH]; intros [|k] x H; try discriminate H; cbn in *; [now injection H as ->|]. now apply IH. Qed.
Lemma nth_none {A} (l : list A) : forall k, nth_error l k = None -> skipn k l = [].
Proof. induction l as [|a l IH]; intros [|k] H; try discriminate H; cbn in *; auto. Qed.
Lemma methods_few t n : length (methods t n) <= 6.
Proof.
  unfold methods. rewrite app_length. cbn [length]. assert (H : length (wrappers t n) <= 2); [|lia]. unfold wrappers.
  assert (He : length match n with EIdentRef _ => [] | _ => ["expr"] end <= 1) by (destruct n; repeat constructor).
  assert (Hw : length (if is_expr n then match n with EIdentRef _ => [] | _ => ["expr"] end else []) <= 1)
    by (destruct (is_expr n); [exact He|repeat constructor]).
  destruct t; try (apply Nat.leb_le; reflexivity); try exact (le_n_S _ _ Hw); try exact (le_S _ _ He).
  - destruct (is_export n); repeat constructor.
  - destruct n; repeat constructor.
  - destruct n; repeat constructor.
  - destruct n; try exact (le_n_S _ _ He); repeat constructor.
  - destruct n; repeat constructor.
Qed.

Lemma same_levels t n inside f : same (inside n) n f -> forall c k, length (methods t n) <= c + k ->
  same (m_levels v c k t inside n) n (around_all looker (skipn k (methods t n)) (ThNode n) f).
Proof.
  intros Hi. induction c as [|c IH]; intros k Hk; cbn [m_levels].
  - rewrite skipn_all2 by (cbn in Hk; lia). exact Hi.
  - destruct (nth_error (methods t n) k) as [m|] eqn:E.
    + rewrite (nth_skip _ _ _ E). cbn [around_all fold_right].
      apply (same_around m ThNode as_node); [reflexivity|]. apply IH. lia.
    + rewrite (nth_none _ _ E). exact Hi.
Qed.

Definition stp (T : ty -> node -> S -> list event * S) (p : part) : S -> list event * S :=
  match p with
  | Sub t' n' => T t' n'
  | Leaf x => around looker (leaf_method x) x (fun s => ([], s))
  end.

Lemma same_fields (T : ty -> node -> M node) (U : ty -> node -> S -> list event * S) n :
  (forall t c, In (Sub t c) (parts n) -> same (T t c) c (U t c)) ->
  same (m_fields v T n) n (in_turn (map (stp U) (parts n))).
Proof.
  assert (HI : forall i, same (m_ident v i) i (in_turn [stp U (ident_ i)])) by (intros i; apply same_one, (same_leaf "ident"); reflexivity).
  assert (HS : forall i, same (m_string v i) i (in_turn [stp U (string_ i)])) by (intros i; apply same_one, (same_leaf "string_literal"); reflexivity).
  assert (HNu : forall i, same (m_number v i) i (in_turn [stp U (Leaf (ThNumber i))])) by (intros i; apply same_one, (same_leaf "number_literal"); reflexivity).
  assert (H1 : forall i, same (m_binary v i) i (in_turn [stp U (Leaf (ThBinary i))])) by (intros i; apply same_one, (same_leaf "binary_operator"); reflexivity).
  assert (H2 : forall i, same (m_logical v i) i (in_turn [stp U (Leaf (ThLogical i))])) by (intros i; apply same_one, (same_leaf "logical_operator"); reflexivity).
  assert (H3 : forall i, same (m_unary v i) i (in_turn [stp U (Leaf (ThUnary i))])) by (intros i; apply same_one, (same_leaf "unary_operator"); reflexivity).
  assert (H4 : forall i, same (m_update v i) i (in_turn [stp U (Leaf (ThUpdate i))])) by (intros i; apply same_one, (same_leaf "update_operator"); reflexivity).
  assert (H5 : forall i, same (m_assign v i) i (in_turn [stp U (Leaf (ThAssign i))])) by (intros i; apply same_one, (same_leaf "assignment_operator"); reflexivity).
  assert (HIO : forall o, same (m_opt (m_ident v) o) o (in_turn (map (stp U) (ids o)))).
  { intros [i|]; cbn [m_opt ids map]; [|apply same_ret]. change [stp U (Leaf (ThIdent i))] with ([stp U (ident_ i)] ++ []).
    eapply same_bind; [apply HI|apply same_ret]. }
  assert (HSO : forall o, same (m_opt (m_string v) o) o (in_turn (map (stp U) (strings (opt_list o))))).
  { intros [i|]; cbn [m_opt strings opt_list map]; [|apply same_ret]. change [stp U (Leaf (ThString i))] with ([stp U (string_ i)] ++ []).
    eapply same_bind; [apply HS|apply same_ret]. }
  assert (HSL : forall l, same (m_list (m_string v) l) l (in_turn (map (stp U) (strings l)))).
  { intros l. unfold strings. rewrite map_map. apply same_list. intros i _. apply (same_leaf "string_literal"). reflexivity. }
  assert (HN1 : forall t c, same (T t c) c (U t c) -> same (T t c) c (in_turn [stp U (Sub t c)])) by (intros t c H; now apply same_one).
  assert (HO : forall t o, (forall c, In (Sub t c) (osub t o) -> same (T t c) c (U t c)) -> same (m_opt (T t) o) o (in_turn (map (stp U) (osub t o)))).
  { intros t [c|] H; cbn [m_opt osub map]; [|apply same_ret]. change [stp U (Sub t c)] with ([stp U (Sub t c)] ++ []).
    eapply same_bind; [apply HN1, H; now left|apply same_ret]. }
  assert (HLi : forall t l, (forall c, In (Sub t c) (subs_ t l) -> same (T t c) c (U t c)) -> same (m_list (T t) l) l (in_turn (map (stp U) (subs_ t l)))).
  { intros t l H. unfold subs_. rewrite map_map. apply same_list. intros c Hc. apply H. unfold subs_. now apply in_map. }
  assert (HLO : forall t l, (forall c, In (Sub t c) (subs_ t (cat_options l)) -> same (T t c) c (U t c)) ->
                 same (m_list (m_opt (T t)) l) l (in_turn (map (stp U) (subs_ t (cat_options l))))).
  { intros t l. induction l as [|[c|] l IH]; intros H; cbn [m_list m_opt cat_options subs_ map]; [apply same_ret| |].
    - fold (subs_ t (cat_options l)). change (stp U (Sub t c) :: map (stp U) (subs_ t (cat_options l))) with (([stp U (Sub t c)] ++ []) ++ map (stp U) (subs_ t (cat_options l))).
      eapply same_bind; [eapply same_bind; [apply HN1, H; now left|apply same_ret]|].
      rewrite <- (app_nil_r (map (stp U) (subs_ t (cat_options l)))). eapply same_bind; [apply IH; intros d Hd; apply H; now right|apply same_ret].
    - fold (subs_ t (cat_options l)). change (map (stp U) (subs_ t (cat_options l))) with ([] ++ map (stp U) (subs_ t (cat_options l))).
      eapply same_bind; [apply same_ret|].
      rewrite <- (app_nil_r (map (stp U) (subs_ t (cat_options l)))). eapply same_bind; [apply IH; exact H|apply same_ret]. }
  assert (HOL : forall t o, (forall c, In (Sub t c) match o with Some l => subs_ t l | None => [] end -> same (T t c) c (U t c)) ->
                 same (m_opt (m_list (T t)) o) o (in_turn (map (stp U) match o with Some l => subs_ t l | None => [] end))).
  { intros t [l|] H; cbn [m_opt]; [|apply same_ret]. rewrite <- (app_nil_r (map _ _)). eapply same_bind; [apply HLi, H|apply same_ret]. }
  intros H.
  assert (E : forall (p : M node) n' l, same p n' (in_turn (l ++ [])) -> same p n' (in_turn l)) by (intros p n' l X; now rewrite app_nil_r in X).
  destruct n; cbn [m_fields Traverse.parts] in *; try apply same_ret; unfold Traverse.exprs in *;
    apply E;
    repeat match goal with
    | |- context [map (stp U) (?x :: ?y :: ?l)] => change (map (stp U) (x :: y :: l)) with ([stp U x] ++ map (stp U) (y :: l))
    | |- context [map (stp U) (?x :: ?l ++ ?l')] => change (map (stp U) (x :: l ++ l')) with ([stp U x] ++ map (stp U) (l ++ l'))
    | |- context [map (stp U) (?x :: osub ?t ?l)] => change (map (stp U) (x :: osub t l)) with ([stp U x] ++ map (stp U) (osub t l))
    | |- context [map (stp U) (?x :: subs_ ?t ?l)] => change (map (stp U) (x :: subs_ t l)) with ([stp U x] ++ map (stp U) (subs_ t l))
    | |- context [map (stp U) (?x :: ids ?l)] => change (map (stp U) (x :: ids l)) with ([stp U x] ++ map (stp U) (ids l))
    | |- context [map (stp U) [?x]] => change (map (stp U) [x]) with [stp U x]
    | |- context [map (stp U) (_ ++ _)] => rewrite map_app
    end;
    rewrite <- ?app_assoc;
    repeat (eapply same_bind; [solve [first
      [ apply HI | apply HS | apply HNu | apply H1 | apply H2 | apply H3 | apply H4 | apply H5 | apply HIO | apply HSO | apply HSL
      | (apply HN1; apply H; cbn [In]; rewrite ?in_app_iff; cbn [In]; auto 6)
      | (apply HLi; intros; apply H; cbn [In]; rewrite ?in_app_iff; auto)
      | (apply HLO; intros; apply H; cbn [In]; rewrite ?in_app_iff; auto)
      | (apply HOL; intros; apply H; cbn [In]; rewrite ?in_app_iff; auto)
      | (apply HO; intros; apply H; cbn [In]; rewrite ?in_app_iff; cbn [In]; auto 6) ]]|]);
    try apply same_ret.
Qed.

Lemma same_walk f : forall t n, height n <= f -> same (m_walk v f t n) n (traverse looker t n).
Proof.
  induction f as [|f IH]; intros t n Hn; [destruct n; cbn in Hn; lia|]. cbn [m_walk].
  intros s. rewrite traverse_eq. change (methods t n) with (skipn 0 (methods t n)).
  apply (same_levels t n (m_fields v (m_walk v f)) (in_turn (map (step looker) (parts n)))).
  - apply (same_fields (m_walk v f) (fun t' c => traverse looker t' c)). intros t' c Hc. apply IH.
    apply parts_children in Hc. apply height_child in Hc. lia.
  - pose proof (methods_few t n). lia.
Qed.
End Look.

(** A visitor that changes nothing it is handed leaves every tree as it is, and gets exactly the
    calls of [Traverse.v]. *)
Theorem C43_looks {S} (v : mut_visitor S) t n s : looks v ->
  rewrites v t n s (fst (traverse (looker v) t n s)) n (snd (traverse (looker v) t n s)).
Proof. intros H. exists (height n). apply same_walk; auto. Qed.

(** A node whose outermost method answers [false] is left as that method and its [exit] leave it. *)
Theorem C43_skipped {S} (v : mut_visitor S) t n s m n1 s1 n2 s2 : hd_error (methods t n) = Some m ->
  m_enter v m (ThNode n) s = (false, ThNode n1, s1) -> m_exit v m (ThNode n1) s1 = (ThNode n2, s2) ->
  rewrites v t n s [Enter m (ThNode n); Exit m (ThNode n1)] n2 s2.
Proof.
  intros Hm He Hx. exists 1. cbn [m_walk m_levels]. change (nth_error (methods t n) 0) with (hd_error (methods t n)).
  rewrite Hm. unfold m_around. rewrite He. cbn [as_node ret]. now rewrite Hx.
Qed.

(** ** Rewriting *)

Section Rewrite.
Variable fi : ident -> ident.
Variable ge : node -> node.
Notation v := (rewriter fi ge).
Notation rw := (rewritten fi ge).

Definition gives {A} (p : M (S := unit) A) (a : A) : Prop := exists es, p tt = Some (es, a, tt).
Lemma gives_ret {A} (a : A) : gives (ret a) a.
Proof. exists []. reflexivity. Qed.
Lemma gives_bind {A B} (p : M A) (k : A -> M B) a b : gives p a -> gives (k a) b -> gives (bind p k) b.
Proof. intros [e1 H1] [e2 H2]. exists (e1 ++ e2). unfold bind. now rewrite H1, H2. Qed.
Lemma gives_list {A} (f : A -> M A) g l : (forall a, In a l -> gives (f a) (g a)) -> gives (m_list f l) (map g l).
Proof.
  induction l as [|a l IH]; intros H; [apply gives_ret|]. cbn [m_list map]. eapply gives_bind; [apply H; now left|].
  eapply gives_bind; [apply IH; intros b Hb; apply H; now right|]. apply gives_ret.
Qed.
Lemma gives_opt {A} (f : A -> M A) g o : (forall a, o = Some a -> gives (f a) (g a)) -> gives (m_opt f o) (option_map g o).
Proof. destruct o; intros H; [|apply gives_ret]. cbn [m_opt option_map]. eapply gives_bind; [apply H; reflexivity|apply gives_ret]. Qed.
Lemma gives_same {A} (f : A -> M A) l : (forall a, gives (f a) a) -> gives (m_list f l) l.
Proof. intros H. rewrite <- (map_id l) at 2. now apply gives_list. Qed.
Lemma gives_sameo {A} (f : A -> M A) o : (forall a, gives (f a) a) -> gives (m_opt f o) o.
Proof. intros H. destruct o; [|apply gives_ret]. eapply gives_bind; [apply H|apply gives_ret]. Qed.

Lemma gives_levels t n inside r : gives (inside n) r -> forall c k, length (methods t n) <= c + k ->
  gives (m_levels v c k t inside n) (fold_right (fun m r => if String.eqb m "expr" then ge r else r) r (skipn k (methods t n))).
Proof.
  intros Hi. induction c as [|c IH]; intros k Hk; cbn [m_levels].
  - rewrite skipn_all2 by (cbn in Hk; lia). exact Hi.
  - destruct (nth_error (methods t n) k) as [m|] eqn:E.
    + rewrite (nth_skip _ _ _ E). cbn [fold_right]. destruct (IH (Datatypes.S k) ltac:(lia)) as [es He].
      unfold m_around. cbn [rewriter m_enter m_exit as_node]. eexists. rewrite He. reflexivity.
    + rewrite (nth_none _ _ E). exact Hi.
Qed.
Lemma expr_once t n r : of_type t n = true ->
  fold_right (fun m r => if String.eqb m "expr" then ge r else r) r (methods t n) = if is_expr n then ge r else r.
Proof.
  destruct t; cbn [of_type]; intros H; destruct n; try discriminate H; reflexivity.
Qed.

Lemma gives_fields (T : ty -> node -> M node) n : ~ not_rewritten n ->
  (forall t c, In (Sub t c) (contents n) -> gives (T t c) (rw c)) ->
  exists r, gives (m_fields v T n) r /\ rw n = if is_expr n then ge r else r.
Proof.
  intros Hn H.
  assert (HI : forall i, gives (m_ident v i) (fi i)) by (intros i; eexists; reflexivity).
  assert (HS : forall i, gives (m_string v i) i) by (intros i; eexists; reflexivity).
  assert (HNu : forall i, gives (m_number v i) i) by (intros i; eexists; reflexivity).
  assert (H1 : forall i, gives (m_binary v i) i) by (intros i; eexists; reflexivity).
  assert (H2 : forall i, gives (m_logical v i) i) by (intros i; eexists; reflexivity).
  assert (H3 : forall i, gives (m_unary v i) i) by (intros i; eexists; reflexivity).
  assert (H4 : forall i, gives (m_update v i) i) by (intros i; eexists; reflexivity).
  assert (H5 : forall i, gives (m_assign v i) i) by (intros i; eexists; reflexivity).
  assert (HNL : forall t c l, In c l -> In (Sub t c) (nodes_ t l)) by (intros t c l Hc; unfold nodes_; now apply (in_map (fun n => Sub t n))).
  assert (HNO : forall t c o, o = Some c -> In (Sub t c) (node_opt t o)) by (intros t c o ->; now left).
  assert (HBA : forall l, (forall c, In (Sub YBindingElement c) (nodes_ YBindingElement (cat_options l)) -> gives (T YBindingElement c) (rw c)) ->
    gives (m_list (m_opt (T YBindingElement)) l) (map (fun o => match o with Some x => Some (rw x) | None => None end) l)).
  { intros l Hl. apply gives_list. intros [c|] Hc; [|apply gives_ret]. apply (gives_opt (T YBindingElement) rw (Some c)).
    intros x E. injection E as <-. apply Hl, HNL, in_cat_options. exact Hc. }
  destruct n; cbn [contents not_rewritten] in *; try (now elim Hn);
    try (eexists; split; [|cbn [rewritten is_expr]; reflexivity]; cbn [m_fields];
    repeat (eapply gives_bind; [solve [first
      [ apply HI | apply HS | apply HNu | apply H1 | apply H2 | apply H3 | apply H4 | apply H5
      | (apply gives_opt; intros; apply HI) | (apply gives_sameo; apply HS) | (apply gives_same; apply HS)
      | (apply H; cbn [In]; rewrite ?in_app_iff; cbn [In]; auto 6)
      | (apply gives_list; intros; apply H; cbn [In]; rewrite ?in_app_iff; auto)
      | (apply gives_opt; intros; apply H; cbn [In]; rewrite ?in_app_iff; cbn [In]; auto 6)
      | (apply HBA; intros; apply H; rewrite ?in_app_iff; auto) ]]|]);
    apply gives_ret).
  - (* update *) eexists. split; [|cbn [rewritten is_expr]; reflexivity]. cbn [m_fields]. eapply gives_bind; [apply H; destruct prefix; cbn; auto|].
    eapply gives_bind; [apply H4|]. apply gives_ret.
  - (* import *) destruct namespace_binding; [now elim Hn|]. eexists. split; [|cbn [rewritten is_expr]; reflexivity]. cbn [m_fields].
    eapply gives_bind; [apply gives_opt; intros; apply HI|]. destruct named_imports as [[|]|]; [|now elim Hn|];
      (eapply gives_bind; [apply gives_ret|]); cbn [m_opt m_list];
      eapply gives_bind; try apply gives_ret; (eapply gives_bind; [apply HS|]); apply gives_ret.
Qed.

Lemma gives_walk f : forall t n, height n <= f -> well_typed t n -> (forall x, descendant n x -> ~ not_rewritten x) ->
  gives (m_walk v f t n) (rw n).
Proof.
  induction f as [|f IH]; intros t n Hf Ht Hn; [destruct n; cbn in Hf; lia|]. cbn [m_walk].
  destruct Ht as [t n Ht Hc]. destruct (gives_fields (m_walk v f) n) as (r & Hr & E).
  - apply Hn. constructor.
  - intros t' c Hin. assert (Hch : In c (children n)) by (apply contents_children; eauto).
    apply IH; [apply height_child in Hch; lia|now apply Hc|]. intros x Hx. apply Hn. econstructor; eauto.
  - rewrite E, <- (expr_once t n r Ht). change (methods t n) with (skipn 0 (methods t n)).
    apply gives_levels; [exact Hr|]. pose proof (methods_few t n). lia.
Qed.

(** The visitor rewrites every tree without those constructs as said, and the traversal has no
    other outcome. *)
Theorem C43_rewrite_partial t n : well_typed t n -> (forall x, descendant n x -> ~ not_rewritten x) ->
  (exists es, rewrites v t n tt es (rw n) tt) /\ (forall es n' s, rewrites v t n tt es n' s -> n' = rw n).
Proof.
  intros Ht Hn. destruct (gives_walk (height n) t n (le_n _) Ht Hn) as [es H].
  assert (R : rewrites v t n tt es (rw n) tt) by (exists (height n); exact H).
  split; [now exists es|]. intros es' n' s R'. symmetry. exact (proj1 (proj2 (rewrites_det v _ _ _ _ _ _ _ _ _ R R'))).
Qed.

(** So it does with every tree the parser hands out. *)
Theorem C43_accepted_partial tg m D a : @accepts ap tg m D a -> (forall x, descendant a x -> ~ not_rewritten x) ->
  (exists es, rewrites v (target_type tg) a tt es (rw a) tt) /\
  (forall es n' s, rewrites v (target_type tg) a tt es n' s -> n' = rw a).
Proof. intros H. apply C43_rewrite_partial. eapply C37_well_typed, H. Qed.
End Rewrite.

(** ** Instances and refutations *)

(** Every name gets a [9] at its end; parentheses go. *)
Definition suffixed (i : ident) : ident := mk_ident (id_span i) (id_name i ++ chars "9").
Definition unwrapped (n : node) : node := match n with EParenthesized _ e => e | _ => n end.

Definition not_rewritten_b (n : node) : bool :=
  match n with
  | EConditional _ _ _ _ => true
  | SImport _ _ None None _ => false
  | SImport _ _ None (Some []) _ => false
  | SImport _ _ _ _ _ => true
  | AsgArray _ _ _ | AsgObject _ _ _ | AsgElement _ _ _ | AsgSingle _ _ _ | AsgNamed _ _ _ _ => true
  | ForBinding _ _ _ => true
  | _ => false
  end.
Lemma not_rewritten_spec n : not_rewritten n -> not_rewritten_b n = true.
Proof. destruct n; cbn [not_rewritten not_rewritten_b]; intros H; auto; try now elim H. destruct namespace_binding; auto. destruct named_imports as [[|]|]; auto. Qed.

(** A program that [C43_accepted_partial] is about, printed after the traversal. *)
Definition sample : str := chars
  "'use strict'; import 'm'; export {f as g}; class A extends B { static async m(p, ...q) { await (p); } } function* f({x: [y, z] = w}) { yield (x); label: do { continue label } while ((x) && y) } h = async (u) => { return {u, [`k${u}`]: ++(u).v} }".

Example C43_instance : exists a, @accepts ap TProgram true sample a /\
  (forall x, descendant a x -> ~ not_rewritten x) /\
  exists es n', rewrites (rewriter suffixed unwrapped) YProgram a tt es n' tt /\
  @generate ap true RProgram n' = Some (chars
    "'use strict';import'm';export{f9 as g9};class A9 extends B9{static async m9(p9,...q9){await p9}}function*f9({x9:[y9,z9]=w9}){yield x9;label9:do {continue label9}while(x9&&y9)}h9=async(u9)=>{return{u9,[`k${u9}`]:++u9.v9}}").
Proof.
  assert (H : match parsed TProgram true sample with
    | Some a => forallb (fun x => negb (not_rewritten_b x)) (nodes (height a) a)
    | None => false end = true) by (vm_compute; reflexivity).
  assert (H2 : match parsed TProgram true sample with
    | Some a => @generate ap true RProgram (rewritten suffixed unwrapped a)
    | None => None end = Some (chars
    "'use strict';import'm';export{f9 as g9};class A9 extends B9{static async m9(p9,...q9){await p9}}function*f9({x9:[y9,z9]=w9}){yield x9;label9:do {continue label9}while(x9&&y9)}h9=async(u9)=>{return{u9,[`k${u9}`]:++u9.v9}}")) by (vm_compute; reflexivity).
  destruct (parsed TProgram true sample) as [a|] eqn:E; [|discriminate H].
  apply parsed_accepts in E. exists a. split; [exact E|].
  assert (Hn : forall x, descendant a x -> ~ not_rewritten x).
  { intros x Hx Hm. apply not_rewritten_spec in Hm. rewrite forallb_forall in H.
    specialize (H x (descendant_nodes _ a x (le_n _) Hx)). rewrite Hm in H. discriminate H. }
  split; [exact Hn|]. destruct (C43_accepted_partial suffixed unwrapped _ _ _ _ E Hn) as [[es R] _].
  exists es, (rewritten suffixed unwrapped a). auto.
Qed.

(** The program [D] with every name renamed comes out as [got], and should have as [wanted]. *)
Definition renamed (m : bool) (D got wanted : str) : Prop :=
  exists a es n', @accepts ap TProgram m D a /\ rewrites (rewriter suffixed (fun n => n)) YProgram a tt es n' tt /\
  @generate ap true RProgram n' = Some got /\
  @generate ap true RProgram (rewritten suffixed (fun n => n) a) = Some wanted.
Lemma renamed_by m D got wanted :
  match parsed TProgram m D with
  | Some a => match m_walk (rewriter suffixed (fun n => n)) 50 YProgram a tt with
    | Some (_, n', _) => Some (@generate ap true RProgram n', @generate ap true RProgram (rewritten suffixed (fun n => n) a))
    | None => None
    end
  | None => None
  end = Some (Some got, Some wanted) -> renamed m D got wanted.
Proof.
  destruct (parsed TProgram m D) as [a|] eqn:E; [|discriminate].
  destruct (m_walk (rewriter suffixed (fun n => n)) 50 YProgram a tt) as [[[es n'] []]|] eqn:W; [|discriminate].
  intros [= E1 E2]. exists a, es, n'. split; [now apply parsed_accepts|]. split; [now exists 50|]. auto.
Qed.

(** Not every name, and not once: a name is left alone, or renamed twice. *)
Theorem C43_rewrite_refuted :
  renamed false (chars "a ? b : c") (chars "a99?b9:c") (chars "a9?b9:c9") /\
  renamed true (chars "import d, {x as y} from 'm'") (chars "import d9,{x99 as y99}from'm'") (chars "import d9,{x9 as y9}from'm'") /\
  renamed true (chars "import * as n from 'm'") (chars "import*as n from'm'") (chars "import*as n9 from'm'").
Proof. repeat split; apply renamed_by; vm_compute; reflexivity. Qed.

(** Nor the names in assignment patterns and [for] heads (which the generator does not print: hence
    on the tree). *)
Definition targets (n : node) : list str :=
  match n with
  | Script _ _ [SExpr _ (EAssign _ _ (AsgArray _ [Some (AsgElement _ (EIdentRef i) _)] _) (EIdentRef j))] => [id_name i; id_name j]
  | Script _ _ [SForOf _ (ForBinding _ _ (BindIdent i)) (EIdentRef j) _ _] => [id_name i; id_name j]
  | _ => []
  end.
Definition retargeted (D : str) (got wanted : list str) : Prop :=
  exists a es n', @accepts ap TProgram false D a /\ rewrites (rewriter suffixed (fun n => n)) YProgram a tt es n' tt /\
  targets n' = got /\ targets (rewritten suffixed (fun n => n) a) = wanted.
Lemma retargeted_by D got wanted :
  match parsed TProgram false D with
  | Some a => match m_walk (rewriter suffixed (fun n => n)) 50 YProgram a tt with
    | Some (_, n', _) => Some (targets n', targets (rewritten suffixed (fun n => n) a))
    | None => None
    end
  | None => None
  end = Some (got, wanted) -> retargeted D got wanted.
Proof.
  destruct (parsed TProgram false D) as [a|] eqn:E; [|discriminate].
  destruct (m_walk (rewriter suffixed (fun n => n)) 50 YProgram a tt) as [[[es n'] []]|] eqn:W; [|discriminate].
  intros [= E1 E2]. exists a, es, n'. split; [now apply parsed_accepts|]. split; [now exists 50|]. auto.
Qed.
Theorem C43_patterns_refuted :
  retargeted (chars "[a] = b") [chars "a"; chars "b9"] [chars "a9"; chars "b9"] /\
  retargeted (chars "for (const k of l);") [chars "k"; chars "l9"] [chars "k9"; chars "l9"].
Proof. split; apply retargeted_by; vm_compute; reflexivity. Qed.

(** A visitor that puts parentheses around every expression on the way in, instead of on the way
    out. *)
Definition wrapper : mut_visitor unit := mk_mut_visitor
  (fun m x s => match x with
                | ThNode n => (true, ThNode (if String.eqb m "expr" then EParenthesized (mk_span 0 0) n else n), s)
                | _ => (true, x, s)
                end)
  (fun m x s => (x, s)).

Lemma wrapper_around m inside n s : inside (if String.eqb m "expr" then EParenthesized (mk_span 0 0) n else n) s = None ->
  m_around wrapper m ThNode as_node inside n s = None.
Proof. intros H. unfold m_around. cbn [wrapper m_enter as_node]. now rewrite H. Qed.
Lemma wrapper_walk f : forall n s, m_walk wrapper f YExpr n s = None.
Proof.
  induction f as [|f IH]; intros n s; [reflexivity|]. cbn [m_walk].
  assert (E : nth_error (methods YExpr n) 0 = Some "expr").
  { unfold methods, wrappers. destruct n; reflexivity. }
  cbn [m_levels]. rewrite E. apply wrapper_around. cbn [String.eqb Ascii.eqb Bool.eqb].
  change (nth_error (methods YExpr (EParenthesized (mk_span 0 0) n)) 1) with (Some (own_method (EParenthesized (mk_span 0 0) n))).
  apply wrapper_around. change (String.eqb (own_method (EParenthesized (mk_span 0 0) n)) "expr") with false. cbv iota.
  change (nth_error (methods YExpr (EParenthesized (mk_span 0 0) n)) 2) with (@None string).
  cbn [m_fields]. unfold bind. now rewrite IH.
Qed.

(** Its traversal of any expression never ends. *)
Theorem C43_ends_refuted n es n' s : ~ rewrites wrapper YExpr n tt es n' s.
Proof. intros [f H]. now rewrite wrapper_walk in H. Qed.

Definition mutate_theorems :=
  (@C43_looks, @C43_skipped, C43_rewrite_partial, C43_accepted_partial, C43_rewrite_refuted, C43_patterns_refuted,
   C43_ends_refuted).
Print Assumptions mutate_theorems.
