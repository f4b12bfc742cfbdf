(** * Mutate: visitors that change the tree (ast/src/traverse/mod.rs, macros.rs).

    The methods of a visitor get [&mut] references: they may change, or replace,
    what they are called with.  [Traverse.v] is the model for visitors that do not;
    here the things are handed back.

    A replacement can be larger than what it replaces, so a traversal need not
    end (in Rust, the stack overflows): the functions run on fuel. *)

From Verif Require Import Base Tokens Ast Traverse.
Local Open Scope string_scope.
Local Open Scope list_scope.

(** ast/src/traverse/macros.rs:60-74: [trait Visitor].  [m_enter] is [enter_x]: whether to
    go on inside, and the thing afterwards; [m_exit] is [exit_x]. *)
Record mut_visitor (S : Type) := mk_mut_visitor {
  m_enter : string -> thing -> S -> bool * thing * S;
  m_exit : string -> thing -> S -> thing * S
}.
Arguments mk_mut_visitor {S}.
Arguments m_enter {S}.
Arguments m_exit {S}.

(** Simplification: Rust's types say that what comes back is of the type of what was handed out;
    here a thing of another kind is ignored. *)
Definition as_node (n : node) (x : thing) : node := match x with ThNode n' => n' | _ => n end.
Definition as_ident (i : ident) (x : thing) : ident := match x with ThIdent i' => i' | _ => i end.
Definition as_string (s : lit_string) (x : thing) : lit_string := match x with ThString s' => s' | _ => s end.
Definition as_number (r : str) (x : thing) : str := match x with ThNumber r' => r' | _ => r end.
Definition as_binary (o : binary_op) (x : thing) : binary_op := match x with ThBinary o' => o' | _ => o end.
Definition as_logical (o : logical_op) (x : thing) : logical_op := match x with ThLogical o' => o' | _ => o end.
Definition as_unary (o : unary_op) (x : thing) : unary_op := match x with ThUnary o' => o' | _ => o end.
Definition as_update (o : update_op) (x : thing) : update_op := match x with ThUpdate o' => o' | _ => o end.
Definition as_assign (o : assign_op) (x : thing) : assign_op := match x with ThAssign o' => o' | _ => o end.

Section Walk.
Context {S : Type} (v : mut_visitor S).

(** What is left of the tree, the calls made and the visitor's state; [None]: not within the fuel. *)
Definition M (A : Type) : Type := S -> option (list event * A * S).
Definition ret {A} (a : A) : M A := fun s => Some ([], a, s).
Definition bind {A B} (p : M A) (k : A -> M B) : M B := fun s =>
  match p s with
  | Some (es, a, s1) =>
    match k a s1 with
    | Some (es', b, s2) => Some (es ++ es', b, s2)
    | None => None
    end
  | None => None
  end.
Local Notation "'do' x <- p ; k" := (bind p (fun x => k)) (at level 200, x pattern, p at level 100, k at level 200).

(** ast/src/traverse/macros.rs:25-57: enter; the inside if wanted; exit. *)
Definition m_around {A} (m : string) (wrap : A -> thing) (back : A -> thing -> A) (inside : A -> M A) (a : A) : M A :=
  fun s =>
  let '(b, x, s1) := m_enter v m (wrap a) s in
  let a1 := back a x in
  match (if b then inside a1 else ret a1) s1 with
  | Some (es, a2, s2) =>
    let '(x', s3) := m_exit v m (wrap a2) s2 in
    Some (Enter m (wrap a) :: es ++ [Exit m (wrap a2)], back a2 x', s3)
  | None => None
  end.

Definition m_ident (i : ident) : M ident := m_around "ident" ThIdent as_ident ret i.
Definition m_string (s : lit_string) : M lit_string := m_around "string_literal" ThString as_string ret s.
Definition m_number (r : str) : M str := m_around "number_literal" ThNumber as_number ret r.
Definition m_binary (o : binary_op) : M binary_op := m_around "binary_operator" ThBinary as_binary ret o.
Definition m_logical (o : logical_op) : M logical_op := m_around "logical_operator" ThLogical as_logical ret o.
Definition m_unary (o : unary_op) : M unary_op := m_around "unary_operator" ThUnary as_unary ret o.
Definition m_update (o : update_op) : M update_op := m_around "update_operator" ThUpdate as_update ret o.
Definition m_assign (o : assign_op) : M assign_op := m_around "assignment_operator" ThAssign as_assign ret o.

(** ast/src/traverse/mod.rs:10-14: the elements of a [Vec] one after the other. *)
Fixpoint m_list {A} (f : A -> M A) (l : list A) : M (list A) :=
  match l with
  | [] => ret []
  | a :: l => do a <- f a; do l <- m_list f l; ret (a :: l)
  end.
(** ast/src/traverse/mod.rs:22-28 *)
Definition m_opt {A} (f : A -> M A) (o : option A) : M (option A) :=
  match o with
  | Some a => do a <- f a; ret (Some a)
  | None => ret None
  end.

(** The enums around a node, outermost first, and then its own type.  A node that was replaced
    goes on at its new variant. *)
Fixpoint m_levels (c k : nat) (t : ty) (inside : node -> M node) (n : node) : M node :=
  match c, nth_error (methods t n) k with
  | Datatypes.S c, Some m => m_around m ThNode as_node (m_levels c (Datatypes.S k) t inside) n
  | _, _ => inside n
  end.

(** The fields in the order given in ast/src/traverse/mod.rs:34-585. *)
Definition m_fields (T : ty -> node -> M node) (n : node) : M node :=
  match n with
  (* enums *)
  | EIdentRef i => do i <- m_ident i; ret (EIdentRef i)
  | PropIdent i => do i <- m_ident i; ret (PropIdent i)
  | DefIdentRef i => do i <- m_ident i; ret (DefIdentRef i)
  | NameIdent i => do i <- m_ident i; ret (NameIdent i)
  | BindIdent i => do i <- m_ident i; ret (BindIdent i)
  | PropExpr e => do e <- T YExpr e; ret (PropExpr e)
  | ArgExpr e => do e <- T YExpr e; ret (ArgExpr e)
  | ArgSpread e => do e <- T YExpr e; ret (ArgSpread e)
  | TplExpr e => do e <- T YExpr e; ret (TplExpr e)
  | ElemExpr e => do e <- T YExpr e; ret (ElemExpr e)
  | ElemSpread e => do e <- T YExpr e; ret (ElemSpread e)
  | DefSpread e => do e <- T YExpr e; ret (DefSpread e)
  | NameComputed e => do e <- T YExpr e; ret (NameComputed e)
  | LitString s => do s <- m_string s; ret (LitString s)
  | NameString s => do s <- m_string s; ret (NameString s)
  | LitNumber r => do r <- m_number r; ret (LitNumber r)
  | NameNumber r => do r <- m_number r; ret (NameNumber r)
  | DefMethod m => do m <- T YMethod m; ret (DefMethod m)
  | LitNull | LitBoolean _ | LitRegexp _ | TplString _ | ElemElision | CalleeSuper | CalleeImport => ret n
  | AsgArray _ _ _ | AsgObject _ _ _ => ret n             (* mod.rs:230-232: TODO *)
  | AsgElement _ _ _ | AsgSingle _ _ _ | AsgNamed _ _ _ _ => ret n
  (* structs *)
  | SFunctionDecl sp a g i p b =>
      do i <- m_ident i; do p <- T YFormalParameters p; do b <- T YBody b; ret (SFunctionDecl sp a g i p b)
  | SClassDecl sp i s b =>
      do i <- m_ident i; do s <- m_opt (T YExpr) s; do b <- m_list (T YClassElement) b; ret (SClassDecl sp i s b)
  | SImport sp d ns ni from =>
      do d <- m_opt m_ident d;
      do ni <- m_opt (m_list (T YNamedImport)) ni;
      do ni <- m_opt (m_list (T YNamedImport)) ni;
      do from <- m_string from; ret (SImport sp d ns ni from)
  | SExpr sp e => do e <- T YExpr e; ret (SExpr sp e)
  | SBlock sp l => do l <- m_list (T YStmt) l; ret (SBlock sp l)
  | EBinary sp o l r => do l <- T YExpr l; do o <- m_binary o; do r <- T YExpr r; ret (EBinary sp o l r)
  | ELogical sp o l r => do l <- T YExpr l; do o <- m_logical o; do r <- T YExpr r; ret (ELogical sp o l r)
  | EUnary sp o a => do o <- m_unary o; do a <- T YExpr a; ret (EUnary sp o a)
  | ECall sp c asp args => do c <- T YCallee c; do args <- m_list (T YArgument) args; ret (ECall sp c asp args)
  | EMember sp o p => do o <- T YMemberObject o; do p <- T YMemberProperty p; ret (EMember sp o p)
  | EOptionalMember sp o p b => do o <- T YExpr o; do p <- T YMemberProperty p; ret (EOptionalMember sp o p b)
  | EOptionalCall sp c asp args b =>
      do c <- T YExpr c; do args <- m_list (T YArgument) args; ret (EOptionalCall sp c asp args b)
  | EParenthesized sp e => do e <- T YExpr e; ret (EParenthesized sp e)
  | ELiteral sp l => do l <- T YLiteral l; ret (ELiteral sp l)
  | EAssign sp o l r => do l <- T YPatternOrExpr l; do o <- m_assign o; do r <- T YExpr r; ret (EAssign sp o l r)
  | EYield sp a d => do a <- m_opt (T YExpr) a; ret (EYield sp a d)
  | EConditional sp a b c => do a <- T YExpr a; do b <- T YExpr b; do a <- T YExpr a; ret (EConditional sp a b c)
  | EUpdate sp o pre a => do a <- T YExpr a; do o <- m_update o; ret (EUpdate sp o pre a)
  | ESequence sp l => do l <- m_list (T YExpr) l; ret (ESequence sp l)
  | EThis _ => ret n
  | EFunction sp a g i p b =>
      do i <- m_opt m_ident i; do p <- T YFormalParameters p; do b <- T YBody b; ret (EFunction sp a g i p b)
  | ENew sp c asp args => do c <- T YExpr c; do args <- m_list (T YArgument) args; ret (ENew sp c asp args)
  | EArrow sp a bp p b => do p <- T YFormalParameters p; do b <- T YArrowBody b; ret (EArrow sp a bp p b)
  | EAwait sp a => do a <- T YExpr a; ret (EAwait sp a)
  | EMetaProperty sp m p => do m <- m_ident m; do p <- m_ident p; ret (EMetaProperty sp m p)
  | EClass sp i s b =>
      do i <- m_opt m_ident i; do s <- m_opt (T YExpr) s; do b <- m_list (T YClassElement) b; ret (EClass sp i s b)
  | SReturn sp a => do a <- m_opt (T YExpr) a; ret (SReturn sp a)
  | SVariable sp k l => do l <- m_list (T YVariableDeclaration) l; ret (SVariable sp k l)
  | SEmpty _ => ret n
  | STry sp b h f =>
      do b <- T YBlock b; do h <- m_opt (T YCatchClause) h; do f <- m_opt (T YBlock) f; ret (STry sp b h f)
  | SDebugger _ => ret n
  | SThrow sp a => do a <- T YExpr a; ret (SThrow sp a)
  | SLabeled sp i b => do i <- m_ident i; do b <- T YStmt b; ret (SLabeled sp i b)
  | SWith sp o b => do o <- T YExpr o; do b <- T YStmt b; ret (SWith sp o b)
  | SContinue sp l => do l <- m_opt m_ident l; ret (SContinue sp l)
  | SBreak sp l => do l <- m_opt m_ident l; ret (SBreak sp l)
  | SSwitch sp d l => do d <- T YExpr d; do l <- m_list (T YSwitchCase) l; ret (SSwitch sp d l)
  | SIf sp c a b => do c <- T YExpr c; do a <- T YStmt a; do b <- m_opt (T YStmt) b; ret (SIf sp c a b)
  | SFor sp i t u b =>
      do i <- m_opt (T YForInit) i; do t <- m_opt (T YExpr) t; do u <- m_opt (T YExpr) u; do b <- T YStmt b;
      ret (SFor sp i t u b)
  | SForOf sp l r b a =>
      do l <- T YForDeclaration l; do r <- T YExpr r; do b <- T YStmt b; ret (SForOf sp l r b a)
  | SForIn sp l r b => do l <- T YForDeclaration l; do r <- T YExpr r; do b <- T YStmt b; ret (SForIn sp l r b)
  | SWhile sp t b => do t <- T YExpr t; do b <- T YStmt b; ret (SWhile sp t b)
  | SDoWhile sp b t => do b <- T YStmt b; do t <- T YExpr t; ret (SDoWhile sp b t)
  | Script sp ds l => do ds <- m_list m_string ds; do l <- m_list (T YStmt) l; ret (Script sp ds l)
  | Module sp ds l => do ds <- m_list m_string ds; do l <- m_list (T YStmt) l; ret (Module sp ds l)
  | BindElement sp p i => do p <- T YBindingPattern p; do i <- m_opt (T YExpr) i; ret (BindElement sp p i)
  | FormalParameters sp l r =>
      do l <- m_list (T YBindingElement) l; do r <- m_opt (T YBindingPattern) r; ret (FormalParameters sp l r)
  | VarDecl sp p i => do p <- T YBindingPattern p; do i <- m_opt (T YExpr) i; ret (VarDecl sp p i)
  | LitTemplate l => do l <- m_list (T YTemplatePart) l; ret (LitTemplate l)
  | LitArray l => do l <- m_list (T YArrayElement) l; ret (LitArray l)
  | LitObject l => do l <- m_list (T YPropertyDefinition) l; ret (LitObject l)
  | BindArray sp l r =>
      do l <- m_list (m_opt (T YBindingElement)) l; do r <- m_opt (T YBindingPattern) r; ret (BindArray sp l r)
  | BindObject sp l r =>
      do l <- m_list (T YObjectBindingProp) l; do r <- m_opt (T YBindingPattern) r; ret (BindObject sp l r)
  | BindSingle sp i e => do i <- m_ident i; do e <- m_opt (T YExpr) e; ret (BindSingle sp i e)
  | BindNamed sp n b => do n <- T YPropertyName n; do b <- T YBindingElement b; ret (BindNamed sp n b)
  | DefNamed sp n v => do n <- T YPropertyName n; do v <- T YExpr v; ret (DefNamed sp n v)
  | Method sp n k p b g a st =>
      do n <- T YPropertyName n; do p <- T YFormalParameters p; do b <- T YBody b; ret (Method sp n k p b g a st)
  | CatchClause sp p b => do p <- m_opt (T YBindingPattern) p; do b <- T YBlock b; ret (CatchClause sp p b)
  | SwitchCase sp t l => do t <- m_opt (T YExpr) t; do l <- m_list (T YStmt) l; ret (SwitchCase sp t l)
  | XDecl sp d => do d <- T YStmt d; ret (XDecl sp d)
  | XDefaultDecl sp d => do d <- T YStmt d; ret (XDefaultDecl sp d)
  | XDefaultExpr sp e => do e <- T YExpr e; ret (XDefaultExpr sp e)
  | ETaggedTemplate sp c t => do c <- T YExpr c; do t <- T YTemplate t; ret (ETaggedTemplate sp c t)
  | XNamed sp l from => do l <- m_list (T YNamedExport) l; do from <- m_opt m_string from; ret (XNamed sp l from)
  | XNamespace sp a from => do a <- m_opt m_ident a; do from <- m_string from; ret (XNamespace sp a from)
  | NamedExport sp n a => do n <- m_ident n; do a <- m_opt m_ident a; ret (NamedExport sp n a)
  | NamedImport sp n a => do n <- m_ident n; do a <- m_opt m_ident a; ret (NamedImport sp n a)
  | Body sp ds l => do ds <- m_list m_string ds; do l <- m_list (T YStmt) l; ret (Body sp ds l)
  | ForBinding _ _ _ => ret n                             (* mod.rs:583 *)
  | ObjSuper _ => ret n
  end.

(** [fuel] bounds the depth. *)
Fixpoint m_walk (fuel : nat) (t : ty) (n : node) : M node :=
  match fuel with
  | 0 => fun _ => None
  | Datatypes.S fuel => m_levels 6 0 t (m_fields (m_walk fuel)) n
  end.

(** [Traverse::traverse]: from [n] and [s] it makes the calls [es] and leaves [n'] and [s']. *)
Definition rewrites (t : ty) (n : node) (s : S) (es : list event) (n' : node) (s' : S) : Prop :=
  exists fuel, m_walk fuel t n s = Some (es, n', s').

(** ** Facts *)

Definition le {A} (p q : M A) : Prop := forall s r, p s = Some r -> q s = Some r.
Lemma le_refl_ {A} (p : M A) : le p p.
Proof. intros s r H. exact H. Qed.
Lemma le_bind {A B} (p q : M A) (k h : A -> M B) : le p q -> (forall a, le (k a) (h a)) -> le (bind p k) (bind q h).
Proof.
  intros Hp Hk s r. unfold bind. destruct (p s) as [[[es a] s1]|] eqn:E; [|discriminate]. rewrite (Hp _ _ E).
  destruct (k a s1) as [[[es' b] s2]|] eqn:E2; [|discriminate]. now rewrite (Hk _ _ _ E2).
Qed.
Lemma le_list {A} (f g : A -> M A) l : (forall a, le (f a) (g a)) -> le (m_list f l) (m_list g l).
Proof.
  intros H. induction l as [|a l IH]; [apply le_refl_|]. cbn [m_list]. apply le_bind; [apply H|]. intros a'.
  apply le_bind; [exact IH|]. intros l'. apply le_refl_.
Qed.
Lemma le_opt {A} (f g : A -> M A) o : (forall a, le (f a) (g a)) -> le (m_opt f o) (m_opt g o).
Proof. intros H. destruct o; [|apply le_refl_]. apply le_bind; [apply H|]. intros a'. apply le_refl_. Qed.
Lemma le_around {A} m w b (f g : A -> M A) a : (forall a, le (f a) (g a)) -> le (m_around m w b f a) (m_around m w b g a).
Proof.
  intros H s r. unfold m_around. destruct (m_enter v m (w a) s) as [[[|] x] s1]; [|auto].
  destruct (f (b a x) s1) as [[[es a2] s2]|] eqn:E; [|discriminate]. now rewrite (H _ _ _ E).
Qed.
Lemma le_levels c : forall k t f g n, (forall n, le (f n) (g n)) -> le (m_levels c k t f n) (m_levels c k t g n).
Proof.
  induction c as [|c IH]; intros k t f g n H; cbn [m_levels]; [apply H|].
  destruct (nth_error (methods t n) k); [|apply H]. apply le_around. intros n'. now apply IH.
Qed.
Lemma le_fields (T T' : ty -> node -> M node) n : (forall t n, le (T t n) (T' t n)) -> le (m_fields T n) (m_fields T' n).
Proof.
  intros H. destruct n; cbn [m_fields]; try apply le_refl_;
    repeat (apply le_bind; [first [apply H | apply le_list; intros; first [apply H | apply le_opt; intros; apply H]
                                  | apply le_opt; intros; first [apply H | apply le_list; intros; apply H] | apply le_refl_]|intros ?]);
    try apply le_refl_.
Qed.
Lemma le_walk f : forall t n, le (m_walk f t n) (m_walk (Datatypes.S f) t n).
Proof.
  induction f as [|f IH]; intros t n; [intros s r H; discriminate H|].
  cbn [m_walk] in *. apply le_levels. intros n'. apply le_fields. exact IH.
Qed.
Lemma walk_more f g t n s r : f <= g -> m_walk f t n s = Some r -> m_walk g t n s = Some r.
Proof. induction 1 as [|g _ IH]; auto. intros H. apply le_walk. auto. Qed.

(** The result of a traversal does not depend on the fuel. *)
Lemma rewrites_det t n s es1 n1 s1 es2 n2 s2 : rewrites t n s es1 n1 s1 -> rewrites t n s es2 n2 s2 ->
  es1 = es2 /\ n1 = n2 /\ s1 = s2.
Proof.
  intros [f Hf] [g Hg]. apply (walk_more f (Nat.max f g)) in Hf; [|lia]. apply (walk_more g (Nat.max f g)) in Hg; [|lia].
  rewrite Hf in Hg. injection Hg as -> -> ->. auto.
Qed.

End Walk.
Arguments rewrites {S}.
