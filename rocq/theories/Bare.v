(** * Bare: trees without positions.

    [bare n] is [n] with every span (of nodes, identifiers and argument lists)
    replaced by the same one: two trees are the same up to positions if their
    bare trees are equal. *)

From Verif Require Import Base Tokens Ast Traverse.
Local Open Scope list_scope.

Definition z : span := mk_span 0 0.
Definition bare_ident (i : ident) : ident := mk_ident z (id_name i).

Fixpoint bare (n : node) : node :=
  match n with
  | EArrow _ x1 x2 x3 x4 => EArrow z x1 x2 (bare x3) (bare x4)
  | EAssign _ x1 x2 x3 => EAssign z x1 (bare x2) (bare x3)
  | EAwait _ x1 => EAwait z (bare x1)
  | EBinary _ x1 x2 x3 => EBinary z x1 (bare x2) (bare x3)
  | ECall _ x1 _ x3 => ECall z (bare x1) z (map bare x3)
  | EClass _ x1 x2 x3 => EClass z (option_map bare_ident x1) (option_map bare x2) (map bare x3)
  | EConditional _ x1 x2 x3 => EConditional z (bare x1) (bare x2) (bare x3)
  | EFunction _ x1 x2 x3 x4 x5 => EFunction z x1 x2 (option_map bare_ident x3) (bare x4) (bare x5)
  | EIdentRef x0 => EIdentRef (bare_ident x0)
  | ELiteral _ x1 => ELiteral z (bare x1)
  | ELogical _ x1 x2 x3 => ELogical z x1 (bare x2) (bare x3)
  | EMember _ x1 x2 => EMember z (bare x1) (bare x2)
  | EMetaProperty _ x1 x2 => EMetaProperty z (bare_ident x1) (bare_ident x2)
  | ENew _ x1 x2 x3 => ENew z (bare x1) (option_map (fun _ => z) x2) (map bare x3)
  | EOptionalCall _ x1 _ x3 x4 => EOptionalCall z (bare x1) z (map bare x3) x4
  | EOptionalMember _ x1 x2 x3 => EOptionalMember z (bare x1) (bare x2) x3
  | EParenthesized _ x1 => EParenthesized z (bare x1)
  | ESequence _ x1 => ESequence z (map bare x1)
  | ETaggedTemplate _ x1 x2 => ETaggedTemplate z (bare x1) (bare x2)
  | EThis _ => EThis z
  | EUnary _ x1 x2 => EUnary z x1 (bare x2)
  | EUpdate _ x1 x2 x3 => EUpdate z x1 x2 (bare x3)
  | EYield _ x1 x2 => EYield z (option_map bare x1) x2
  | CalleeSuper => CalleeSuper
  | CalleeImport => CalleeImport
  | ObjSuper _ => ObjSuper z
  | PropIdent x0 => PropIdent (bare_ident x0)
  | PropExpr x0 => PropExpr (bare x0)
  | ArgExpr x0 => ArgExpr (bare x0)
  | ArgSpread x0 => ArgSpread (bare x0)
  | LitNull => LitNull
  | LitBoolean x0 => LitBoolean x0
  | LitString x0 => LitString x0
  | LitNumber x0 => LitNumber x0
  | LitArray x0 => LitArray (map bare x0)
  | LitObject x0 => LitObject (map bare x0)
  | LitRegexp x0 => LitRegexp x0
  | LitTemplate x0 => LitTemplate (map bare x0)
  | TplString x0 => TplString x0
  | TplExpr x0 => TplExpr (bare x0)
  | ElemElision => ElemElision
  | ElemExpr x0 => ElemExpr (bare x0)
  | ElemSpread x0 => ElemSpread (bare x0)
  | DefIdentRef x0 => DefIdentRef (bare_ident x0)
  | DefSpread x0 => DefSpread (bare x0)
  | DefNamed _ x1 x2 => DefNamed z (bare x1) (bare x2)
  | DefMethod x0 => DefMethod (bare x0)
  | NameIdent x0 => NameIdent (bare_ident x0)
  | NameString x0 => NameString x0
  | NameNumber x0 => NameNumber x0
  | NameComputed x0 => NameComputed (bare x0)
  | Method _ x1 x2 x3 x4 x5 x6 x7 => Method z (bare x1) x2 (bare x3) (bare x4) x5 x6 x7
  | FormalParameters _ x1 x2 => FormalParameters z (map bare x1) (option_map bare x2)
  | Body _ x1 x2 => Body z x1 (map bare x2)
  | BindIdent x0 => BindIdent (bare_ident x0)
  | BindArray _ x1 x2 => BindArray z (map (option_map bare) x1) (option_map bare x2)
  | BindObject _ x1 x2 => BindObject z (map bare x1) (option_map bare x2)
  | BindSingle _ x1 x2 => BindSingle z (bare_ident x1) (option_map bare x2)
  | BindNamed _ x1 x2 => BindNamed z (bare x1) (bare x2)
  | BindElement _ x1 x2 => BindElement z (bare x1) (option_map bare x2)
  | AsgArray _ x1 x2 => AsgArray z (map (option_map bare) x1) (option_map bare x2)
  | AsgObject _ x1 x2 => AsgObject z (map bare x1) (option_map bare x2)
  | AsgElement _ x1 x2 => AsgElement z (bare x1) (option_map bare x2)
  | AsgSingle _ x1 x2 => AsgSingle z (bare_ident x1) (option_map bare x2)
  | AsgNamed _ x1 x2 x3 => AsgNamed z (bare x1) (bare x2) (option_map bare x3)
  | SBlock _ x1 => SBlock z (map bare x1)
  | SBreak _ x1 => SBreak z (option_map bare_ident x1)
  | SContinue _ x1 => SContinue z (option_map bare_ident x1)
  | SDebugger _ => SDebugger z
  | SDoWhile _ x1 x2 => SDoWhile z (bare x1) (bare x2)
  | SEmpty _ => SEmpty z
  | SExpr _ x1 => SExpr z (bare x1)
  | SFor _ x1 x2 x3 x4 => SFor z (option_map bare x1) (option_map bare x2) (option_map bare x3) (bare x4)
  | SForIn _ x1 x2 x3 => SForIn z (bare x1) (bare x2) (bare x3)
  | SForOf _ x1 x2 x3 x4 => SForOf z (bare x1) (bare x2) (bare x3) x4
  | SIf _ x1 x2 x3 => SIf z (bare x1) (bare x2) (option_map bare x3)
  | SLabeled _ x1 x2 => SLabeled z (bare_ident x1) (bare x2)
  | SReturn _ x1 => SReturn z (option_map bare x1)
  | SSwitch _ x1 x2 => SSwitch z (bare x1) (map bare x2)
  | SThrow _ x1 => SThrow z (bare x1)
  | STry _ x1 x2 x3 => STry z (bare x1) (option_map bare x2) (option_map bare x3)
  | SVariable _ x1 x2 => SVariable z x1 (map bare x2)
  | SWhile _ x1 x2 => SWhile z (bare x1) (bare x2)
  | SWith _ x1 x2 => SWith z (bare x1) (bare x2)
  | SClassDecl _ x1 x2 x3 => SClassDecl z (bare_ident x1) (option_map bare x2) (map bare x3)
  | SFunctionDecl _ x1 x2 x3 x4 x5 => SFunctionDecl z x1 x2 (bare_ident x3) (bare x4) (bare x5)
  | SImport _ x1 x2 x3 x4 => SImport z (option_map bare_ident x1) (option_map bare_ident x2) (option_map (map bare) x3) x4
  | XDecl _ x1 => XDecl z (bare x1)
  | XDefaultExpr _ x1 => XDefaultExpr z (bare x1)
  | XDefaultDecl _ x1 => XDefaultDecl z (bare x1)
  | XNamed _ x1 x2 => XNamed z (map bare x1) x2
  | XNamespace _ x1 x2 => XNamespace z (option_map bare_ident x1) x2
  | VarDecl _ x1 x2 => VarDecl z (bare x1) (option_map bare x2)
  | ForBinding _ x1 x2 => ForBinding z x1 (bare x2)
  | SwitchCase _ x1 x2 => SwitchCase z (option_map bare x1) (map bare x2)
  | CatchClause _ x1 x2 => CatchClause z (option_map bare x1) (bare x2)
  | NamedImport _ x1 x2 => NamedImport z (bare_ident x1) (option_map bare_ident x2)
  | NamedExport _ x1 x2 => NamedExport z (bare_ident x1) (option_map bare_ident x2)
  | Script _ x1 x2 => Script z x1 (map bare x2)
  | Module _ x1 x2 => Module z x1 (map bare x2)
  end.

(** Induction over the children of a node. *)
Lemma node_children_ind (P : node -> Prop) :
  (forall n, (forall c, In c (children n) -> P c) -> P n) -> forall n, P n.
Proof.
  intros H n. remember (height n) as h eqn:E. revert n E.
  induction h as [h IH] using lt_wf_ind. intros n ->. apply H. intros c Hc.
  apply (IH (height c)); auto. now apply height_child.
Qed.


Lemma node_children_ind2 (P : node -> Prop) :
  (forall n, (forall c, In c (children n) \/ (exists d, In d (children n) /\ In c (children d)) -> P c) -> P n) ->
  forall n, P n.
Proof.
  intros H n. remember (height n) as h eqn:E. revert n E.
  induction h as [h IH] using lt_wf_ind. intros n ->. apply H. intros c [Hc|(d & Hd & Hc)].
  - apply (IH (height c)); auto. now apply height_child.
  - apply (IH (height c)); auto. apply height_child in Hc. apply height_child in Hd. lia.
Qed.
