(** * PrintShape: the tokens a written tree is printed as.

    How [items] starts and ends, compared with the tokens the tree was read from. *)

From Verif Require Import Base Tokens Lexer LexSpec Ast AstSpec Parser Layout Bare Written Starts Source PropLexer Unparse PrintLex Print.
Local Open Scope string_scope.
Local Open Scope list_scope.

Section Shape.
Variable m : bool.

Definition good (t : token) : Prop := plain (t_value t).
Definition bare_items (n : node) : list titem :=
  match n with SFunctionDecl _ a g i p b => fun_items a g (nm i) (items m p) (items m b) | _ => items m n end.
Definition stmts (l : list node) : list titem := flat_map (fun x => items m x ++ [Brk]) l.
Definition method_items (n : node) : list titem :=
  match n with Method s x k p b g a _ => items m (Method s x k p b g a false) | _ => items m n end.
Definition init_items (o : option node) : list titem :=
  match o with
  | Some (SVariable _ k l) => T (kind_tok k) :: Sp :: decl_items (map (fun d => (items m d, has_init d)) l)
  | Some x => items m x
  | None => []
  end.
Definition clause_items (d ns : option ident) (l : option (list node)) : list titem :=
  match d with Some i => Sp :: nm i | None => [] end ++
  match ns with
  | Some i => (if d then [P PComma] else []) ++ Sp :: P PStar :: Sp :: K KAs :: Sp :: nm i
  | None => []
  end ++
  match l with
  | Some l => (if d then [P PComma] else []) ++
              Sp :: nest PBracketOpen PBracketClose (negb (nil_ l)) (commas (map (items m) l))
  | None => []
  end.

(** A template, after its first piece. *)
Definition tpl_rest (l : list node) : list titem := tl (tpl_items true [] (map (tpl_part m) l)).

(** What is printed for the result of a category (without the closing token of a list). *)
Definition it (cc : cat) (r : res) : list titem :=
  match r with
  | N n => match cc with CMethod _ => method_items n | CHoist | CLex _ => bare_items n | _ => items m n end
  | NS l =>
    match cc with
    | CMembers _ => flat_map (fun x => items m x ++ [NL]) l
    | CCases => flat_map (items m) l
    | CItems _ | CTops _ => stmts l
    | CDecls => decl_items (map (fun d => (items m d, has_init d)) l)
    | CNoDir _ => []
    | CTpl => tpl_rest l
    | _ => commas (map (items m) l)
    end
  | OP o =>
    match cc with
    | CInit => equals (option_map (items m) o)
    | CHeritage => match o with Some x => K KExtends :: items m x | None => [] end
    | CCatch => match o with Some x => Sp :: K KCatch :: Sp :: items m x | None => [] end
    | CFinally => match o with Some x => Sp :: K KFinally :: Sp :: items m x | None => [] end
    | CForInit => init_items o
    | _ => match o with Some x => items m x | None => [] end
    end
  | NR l r => commas (map (items m) l) ++ rest (nil_ l) (option_map (items m) r)
  | OR l r => pats (map (option_map (items m)) l) ++ rest (nil_ l) (option_map (items m) r)
  | DS l => dirs l
  | IC d ns l => clause_items d ns l
  end.

(** It starts with the token the tree was read from first. *)
Definition headed (l : list titem) (ts : list token) : Prop :=
  exists v l' t us, l = T v :: l' /\ ts = t :: us /\ slashes v (t_value t).
Definition headed' (l : list titem) (ts : list token) : Prop :=
  headed l ts \/ exists l', l = Brk :: l' /\ headed l' ts.
(** It ends with a token, not a semicolon. *)
Definition solid (l : list titem) : Prop := exists l0 v, l = l0 ++ [T v] /\ v <> VPunct PSemiColon.
(** The first two tokens. *)
Fixpoint second (l : list titem) : option tvalue :=
  match l with [] => None | T v :: _ => Some v | _ :: l' => second l' end.
Definition asyncs (l : list titem) (ts : list token) : Prop :=
  match ts with
  | t :: us => t_value t = VKeyword KAsync -> exists l' u vs, l = K KAsync :: l' /\ us = u :: vs /\ second l' = Some (t_value u)
  | [] => False
  end.

Lemma headed_app l ts k us : headed l ts -> headed (l ++ k) (ts ++ us).
Proof. intros (v & l' & t & us' & -> & -> & E). exists v, (l' ++ k), t, (us' ++ us). auto. Qed.
Lemma slashes_same v : special v = false -> slashes v v.
Proof. destruct v as [| | |[]| | |]; try discriminate; reflexivity. Qed.
Lemma slashes_name c x t : name c x t -> slashes (t_value t) (t_value t).
Proof. intros [H|(k & H & _)]; rewrite H; reflexivity. Qed.
Lemma slashes_anyname x t : anyname x t -> slashes (t_value t) (t_value t).
Proof. intros [H|(k & H & _)]; rewrite H; reflexivity. Qed.
Lemma headed_T v l t us : slashes v (t_value t) -> headed (T v :: l) (t :: us).
Proof. intros E. exists v, l, t, us. auto. Qed.
Lemma solid_app l k : solid k -> solid (l ++ k).
Proof. intros (l0 & v & -> & H). exists (l ++ l0), v. rewrite app_assoc. auto. Qed.
Lemma solid_cons x k : solid k -> solid (x :: k).
Proof. apply (solid_app [x]). Qed.
Lemma solid_T v : v <> VPunct PSemiColon -> solid [T v].
Proof. intros H. exists [], v. auto. Qed.
Lemma solid_blk l : solid (blk m l).
Proof. unfold blk. apply solid_cons, solid_cons, solid_app, solid_T. discriminate. Qed.
Lemma second_app l k v : second l = Some v -> second (l ++ k) = Some v.
Proof. induction l as [|x l IH]; [discriminate|]. destruct x; cbn [second app]; auto. Qed.
Lemma asyncs_app l ts k us : asyncs l ts -> asyncs (l ++ k) (ts ++ us).
Proof.
  unfold asyncs. destruct ts as [|t ts]; [contradiction|]. cbn [app]. intros H E.
  destruct (H E) as (l' & u & vs & -> & -> & H2). exists (l' ++ k), u, (vs ++ us). split; [reflexivity|]. split; [reflexivity|].
  now apply second_app.
Qed.
Lemma asyncs_no l t us : t_value t <> VKeyword KAsync -> asyncs l (t :: us).
Proof. intros H E. contradiction. Qed.

(** Names. *)
Lemma word_keyword k : word_tok (keyword_str k) = VKeyword k.
Proof. unfold word_tok. destruct k; reflexivity. Qed.
Lemma nm_keyword k : nm (id (keyword_str k)) = [K k].
Proof. destruct k; reflexivity. Qed.
Lemma nm_ident x t : good t -> t_value t = VIdentifier x -> nm (id x) = [T (t_value t)].
Proof.
  intros Hg E. unfold good in Hg. rewrite E in *. cbn [plain] in Hg. destruct Hg as (Hk & _ & c & x' & -> & _).
  unfold nm, id. cbn [id_name]. unfold word_tok. now rewrite Hk.
Qed.
Lemma nm_anyname x t : good t -> anyname x t -> nm (id x) = [T (t_value t)].
Proof.
  intros Hg [E|(k & E & ->)]; [now apply nm_ident|]. rewrite E. apply nm_keyword.
Qed.
Lemma nm_name c x t : good t -> name c x t -> nm (id x) = [T (t_value t)].
Proof. intros Hg H. apply nm_anyname; auto. destruct H as [H|(k & H & _ & ->)]; [now left|right; eauto]. Qed.
Lemma nms_optname c x ts : Forall good ts -> optname c x ts -> nms x = map (fun t => T (t_value t)) ts.
Proof.
  intros Hg [[-> ->]|(y & t & -> & -> & H)]; [reflexivity|]. inversion Hg; subst. cbn [nms]. eapply nm_name; eauto.
Qed.
Lemma nm_dname c x ts : Forall good ts -> dname c x ts -> nm (id x) = map (fun t => T (t_value t)) ts.
Proof.
  intros Hg [(t & -> & H)|(_ & -> & ->)]; [|reflexivity]. inversion Hg; subst. eapply nm_name; eauto.
Qed.
Lemma plain_toks ts : Forall good ts -> Forall plain_item (map (fun t => T (t_value t)) ts).
Proof. induction 1; constructor; auto. Qed.
Lemma star_items g ts : star g ts -> (if g then [P PStar] else []) = map (fun t => T (t_value t)) ts.
Proof. destruct g; cbn [star]; [intros (t & -> & E)|intros ->]; auto. cbn. now rewrite E. Qed.
Lemma name_not_semi c x t : name c x t -> t_value t <> VPunct PSemiColon.
Proof. intros [H|(k & H & _)]; rewrite H; discriminate. Qed.
Lemma anyname_not_semi x t : anyname x t -> t_value t <> VPunct PSemiColon.
Proof. intros [H|(k & H & _)]; rewrite H; discriminate. Qed.

(** Lists. *)
Lemma plain_app a b : Forall plain_item a -> Forall plain_item b -> Forall plain_item (a ++ b).
Proof. intros. apply Forall_app. auto. Qed.
Lemma plain_cons_ x l : plain_item x -> Forall plain_item l -> Forall plain_item (x :: l).
Proof. auto. Qed.
Lemma plain_commas a l : Forall plain_item a -> Forall plain_item (commas l) -> Forall plain_item (commas (a :: l)).
Proof.
  intros Ha Hl. destruct l; [exact Ha|]. cbn [commas] in *. apply plain_app; auto. constructor; [exact Logic.I|].
  constructor; [exact Logic.I|exact Hl].
Qed.
Lemma nil_map {A B} (f : A -> B) l : nil_ (map f l) = nil_ l.
Proof. now destruct l. Qed.
Lemma plain_commas_rest {A} (f : A -> list titem) a l b r : Forall plain_item a -> Forall plain_item (commas (map f l) ++ rest (nil_ l) r) ->
  Forall plain_item (commas (a :: map f l) ++ rest b r).
Proof.
  rewrite <- (nil_map f). generalize (map f l). clear l. intros l.
  intros Ha Hl. apply Forall_app in Hl. destruct Hl as [Hl Hr]. apply plain_app; [now apply plain_commas|].
  destruct r as [x|]; [|constructor]. cbn [rest] in *.
  assert (X : Forall plain_item (P PTripleDot :: x)) by (apply Forall_app in Hr; tauto).
  destruct b; cbn [app]; auto. constructor; [exact Logic.I|]. constructor; [exact Logic.I|exact X].
Qed.
Lemma plain_pats_rest {A} (f : A -> option (list titem)) a l b r : match a with Some x => Forall plain_item x | None => True end ->
  Forall plain_item (pats (map f l) ++ rest (nil_ l) r) ->
  Forall plain_item (pats (a :: map f l) ++ rest b r).
Proof.
  rewrite <- (nil_map f). generalize (map f l). clear l. intros l.
  intros Ha Hl. apply Forall_app in Hl. destruct Hl as [Hl Hr]. apply plain_app.
  - assert (Hc : Forall plain_item [P PComma]) by (constructor; [exact Logic.I|constructor]).
    destruct l as [|y l].
    + destruct a as [a|]; cbn [pats]; auto.
    + assert (E : pats (a :: y :: l) = match a with Some x => x | None => [] end ++ P PComma :: Sp :: pats (y :: l)).
      { destruct a; reflexivity. }
      rewrite E. apply plain_app; [destruct a; auto; constructor|]. constructor; [exact Logic.I|]. constructor; [exact Logic.I|exact Hl].
  - destruct r as [x|]; [|constructor]. cbn [rest] in *.
    assert (X : Forall plain_item (P PTripleDot :: x)) by (apply Forall_app in Hr; tauto).
    destruct b; cbn [app]; auto. constructor; [exact Logic.I|]. constructor; [exact Logic.I|exact X].
Qed.
Lemma plain_decls a b l : Forall plain_item a -> Forall plain_item (decl_items l) -> Forall plain_item (decl_items ((a, b) :: l)).
Proof.
  intros Ha Hl. destruct l; [exact Ha|]. cbn [decl_items] in *. apply plain_app; auto. constructor; [exact Logic.I|].
  constructor; [destruct b; exact Logic.I|exact Hl].
Qed.
Lemma plain_dropped l : Forall plain_item l -> Forall plain_item (dropped l).
Proof.
  induction l as [|x l IH]; auto. intros H. inversion H as [|? ? Hx Hl]; subst.
  assert (G : Forall plain_item (x :: dropped l)) by (constructor; auto).
  destruct x as [v| | | |]; try exact G. destruct v as [k|y|p|t|s|s|s]; try exact G. destruct p; try exact G.
  cbn [dropped]. destruct (ink l); auto.
Qed.
Lemma plain_blk l : Forall plain_item l -> Forall plain_item (blk m l).
Proof.
  intros H. unfold blk. constructor; [exact Logic.I|]. constructor; [exact Logic.I|]. apply plain_app; [|constructor; [exact Logic.I|constructor]].
  destruct m; auto using plain_dropped.
Qed.

(** What is printed faithfully (Unparse.v). *)
Definition okn (n : node) : Prop := printable m n.
Definition oko (o : option node) : Prop := match o with Some n => okn n | None => True end.
Definition okr (r : res) : Prop :=
  match r with
  | N n => okn n
  | NS l => Forall okn l
  | OP o => oko o
  | NR l r => Forall okn l /\ oko r
  | OR l r => Forall oko l /\ oko r
  | DS _ => True
  | IC _ _ l => match l with Some l => Forall okn l | None => True end
  end.
Lemma okn_inv n : okn n -> node_ok m n = true /\ Forall okn (children n).
Proof.
  intros H. split; [apply H; constructor|]. apply Forall_forall. intros x Hx y Hy. apply H. econstructor; eauto.
Qed.
Lemma oko_list o : Forall okn (opt_list o) -> oko o.
Proof. destruct o; intros H; [now inversion H|exact Logic.I]. Qed.
Lemma oko_cat l : Forall okn (cat_options l) -> Forall oko l.
Proof. induction l as [|[x|] l IH]; intros H; constructor; try inversion H; subst; cbn; auto. Qed.

Definition hcat (cc : cat) : bool :=
  match cc with
  | CE _ | CNew | CCall | COpt | CName | CMethod _ | CVar _ _ | CBlock | CStmt _ | CHoist | CLex _ | CBody => true
  | _ => false
  end.
Definition hcat' (cc : cat) : bool := match cc with CItem _ | CTop _ => true | _ => false end.
Definition scat (cc : cat) : bool :=
  match cc with CE _ | CNew | CCall | COpt | CBody | CConcise | CBlock | CSeq | CHoist | CMethod _ | CTpl => true | _ => false end.
Definition acat (cc : cat) : bool := match cc with CE _ | CNew | CCall | COpt => true | _ => false end.

Definition SH (cc : cat) (ts : list token) (r : res) : Prop :=
  Forall good ts -> okr r ->
  Forall plain_item (it cc r) /\
  (if hcat cc then headed (it cc r) ts else True) /\
  (if hcat' cc then headed' (it cc r) ts else True) /\
  (if scat cc then solid (it cc r) else True) /\
  (if acat cc then asyncs (it cc r) ts else True).


(** ** Tactics *)

Ltac goods :=
  repeat match goal with
  | H : Forall good (_ ++ _) |- _ => apply Forall_app in H; destruct H
  | H : Forall good (_ :: _) |- _ => apply Forall_cons_iff in H; destruct H
  end.

Ltac goodly :=
  repeat first [ assumption | apply Forall_nil | apply Forall_cons | (apply Forall_app; split) ].

Ltac vals :=
  repeat match goal with
  | H : pu _ ?t |- _ => unfold pu in H
  | H : kw _ ?t |- _ => unfold kw in H
  | H : str_tok _ ?t |- _ => unfold str_tok in H
  | H : symbol (update_string _) _ |- _ => apply sym_update in H
  | H : symbol (unary_string _) _ |- _ => apply sym_unary in H
  | H : symbol (bin_string _) _ |- _ => apply sym_bin in H
  | H : symbol (log_string _) _ |- _ => apply sym_log in H
  | H : symbol (assign_string _) _ |- _ => apply sym_assign in H
  | H : symbol (kind_string _) _ |- _ => apply sym_kind in H
  end.

(** Write the names as the tokens they were read from. *)
Ltac nameit :=
  repeat match goal with
  | H : name ?c ?x ?t, Hg : good ?t |- context [nm (id ?x)] => rewrite (nm_name c x t Hg H)
  | H : anyname ?x ?t, Hg : good ?t |- context [nm (id ?x)] => rewrite (nm_anyname x t Hg H)
  | H : optname ?c ?x ?ts, Hg : Forall good ?ts |- context [nms ?x] => rewrite (nms_optname c x ts Hg H)
  | H : dname ?c ?x ?ts, Hg : Forall good ?ts |- context [nm (id ?x)] => rewrite (nm_dname c x ts Hg H)
  | H : star ?g ?ts |- context [if ?g then [P PStar] else []] => rewrite (star_items g ts H)
  end.

Lemma plain_nest o c b x : Forall plain_item x -> Forall plain_item (nest o c b x).
Proof.
  intros H. unfold nest. constructor; [exact Logic.I|].
  assert (Y : Forall plain_item (sps b)) by (destruct b; [constructor; [exact Logic.I|]|]; constructor).
  repeat apply plain_app; auto. constructor; [exact Logic.I|constructor].
Qed.
Lemma solid_nest o c b x : c <> PSemiColon -> solid (nest o c b x).
Proof. intros H. unfold nest. apply solid_cons, solid_app, solid_app, solid_app, solid_T. congruence. Qed.
Lemma headed_commas a l ts us : headed a ts -> headed (commas (a :: l)) (ts ++ us).
Proof. intros H. destruct l; [rewrite <- (app_nil_r a)|]; now apply headed_app. Qed.
Lemma asyncs_commas a l ts us : asyncs a ts -> asyncs (commas (a :: l)) (ts ++ us).
Proof. intros H. destruct l; [rewrite <- (app_nil_r (commas [a]))|]; now apply asyncs_app. Qed.
Lemma solid_commas a l : solid (commas l) -> solid (commas (a :: l)).
Proof.
  intros H. destruct l; [|cbn [commas] in *; apply solid_app, solid_cons, solid_cons, H].
  destruct H as (l0 & v & E & _). now destruct l0.
Qed.
Lemma plain_class n h l : Forall plain_item n -> Forall plain_item match h with Some x => K KExtends :: items m x | None => [] end ->
  Forall plain_item (flat_map (fun x => x ++ [NL]) l) -> Forall plain_item (class_items m n (option_map (items m) h) l).
Proof.
  intros Hn Hh Hl. unfold class_items. constructor; [exact Logic.I|]. apply plain_app; auto. apply plain_app.
  - destruct h; exact Hh.
  - constructor; [exact Logic.I|]. now apply plain_blk.
Qed.
Lemma solid_class n h l : solid (class_items m n h l).
Proof. unfold class_items. apply solid_cons, solid_app, solid_app, solid_cons, solid_blk. Qed.
Lemma flat_map_map {A B C} (f : A -> B) (g : B -> list C) l : flat_map g (map f l) = flat_map (fun x => g (f x)) l.
Proof. induction l; cbn; congruence. Qed.

Ltac pl :=
  repeat first
  [ assumption | exact Logic.I
  | lazymatch goal with
    | |- Forall plain_item (nest _ _ _ _) => apply plain_nest
    | |- Forall plain_item (commas (map _ (_ :: _))) => cbn [map]; apply plain_commas
    | |- Forall plain_item (commas (map _ [])) => constructor
    | |- Forall plain_item (decl_items (map _ [])) => constructor
    | |- Forall plain_item (commas (map _ (_ :: _)) ++ rest _ _) => cbn [map]; apply plain_commas_rest
    | |- Forall plain_item (pats (map _ (_ :: _)) ++ rest _ _) => cbn [map]; apply plain_pats_rest
    | |- Forall plain_item (pats (map _ [])) => constructor
    | |- Forall plain_item (items _ ElemElision) => apply Forall_nil
    | |- Forall plain_item (items _ (BindElement _ (BindIdent _) None) ++ []) => cbn [items equals option_map]; nameit
    | |- Forall plain_item (flat_map _ []) => apply Forall_nil
    | |- Forall plain_item (flat_map _ (_ :: _)) => cbn [flat_map]; apply plain_app
    | |- Forall plain_item (dirs []) => apply Forall_nil
    | |- Forall plain_item (dirs (_ :: _)) => unfold dirs in *; cbn [flat_map]; apply plain_app
    | |- Forall plain_item (stmts []) => apply Forall_nil
    | |- Forall plain_item (stmts (_ :: _)) => unfold stmts in *; cbn [flat_map]; apply plain_app
    | |- Forall plain_item (_ ++ _) => apply plain_app
    | |- Forall plain_item (_ :: _) => apply plain_cons_
    | |- Forall plain_item [] => constructor
    | |- Forall plain_item (blk _ _) => apply plain_blk
    | |- Forall plain_item (map (fun t => T (t_value t)) _) => apply plain_toks
    | |- Forall plain_item (if ?b then _ else _) => destruct b
    | |- Forall plain_item (class_items _ _ _ _) => apply plain_class; [ | |rewrite flat_map_map]
    | |- Forall plain_item (decl_items (map _ (_ :: _))) => cbn [map]; apply plain_decls
    | |- match option_map _ ?h with Some _ => _ | None => _ end => destruct h; cbn [option_map]
    | |- plain_item (T (t_value ?t)) => assumption
    | |- plain_item (T (update_tok ?o)) => destruct o; exact Logic.I
    | |- plain_item (T (unary_tok ?o)) => destruct o; exact Logic.I
    | |- plain_item (T (bin_tok ?o)) => destruct o; exact Logic.I
    | |- plain_item (T (log_tok ?o)) => destruct o; exact Logic.I
    | |- plain_item (T (assign_tok ?o)) => destruct o; exact Logic.I
    | |- plain_item (T (kind_tok ?o)) => destruct o; exact Logic.I
    | |- plain_item (str_item _) => unfold str_item
    | |- plain_item (T ?v) =>
        match goal with H : t_value ?t = v, Hg : good ?t |- _ => unfold good in Hg; rewrite H in Hg; exact Hg end
    end ].

Ltac hd_ :=
  first [ apply headed_T; first [assumption | reflexivity | congruence | eapply slashes_name; eassumption | eapply slashes_anyname; eassumption
            | match goal with H : t_value _ = ?f ?o |- slashes (?f ?o) _ => rewrite H; destruct o; reflexivity end ]
        | apply headed_app; assumption | apply headed_commas; assumption ].
Ltac so :=
  repeat first [ assumption | (cbn [map]; apply solid_commas; assumption) | apply solid_blk | apply solid_class | (apply solid_nest; discriminate)
               | lazymatch goal with
                 | |- solid (_ :: _ :: _) => apply solid_cons
                 | |- solid (_ :: _ ++ _) => apply solid_cons
                 | |- solid (_ ++ []) => rewrite app_nil_r
                 | |- solid (_ ++ _) => apply solid_app
                 | |- solid [str_item _] => apply solid_T; discriminate
                 | |- solid [T (update_tok ?o)] => apply solid_T; destruct o; discriminate
                 | |- solid [T _] => apply solid_T; first [discriminate | congruence | eapply name_not_semi; eassumption | eapply anyname_not_semi; eassumption]
                 | |- solid (_ :: _) => apply solid_cons
                 end ].
Ltac as_ :=
  first [ assumption | apply asyncs_app; assumption | apply asyncs_commas; assumption
        | apply asyncs_no; first [congruence | (match goal with H : pu _ _ \/ pu _ _ |- _ => destruct H as [H|H]; rewrite H; discriminate end) | (intros ?; match goal with H : t_value _ = ?f ?o, H' : t_value _ = _ |- _ => rewrite H in H'; destruct o; discriminate H' end)]
        | intros _; eexists; eexists; eexists; split; [reflexivity|]; split; [reflexivity|]; unfold nest; cbn [second app sps]; congruence
        | let E := fresh in intros E; rewrite E; eexists; eexists; eexists; split; [reflexivity|]; split; [reflexivity|]; unfold nest; cbn [second app sps]; congruence ].

Lemma G_method st c ts n : G (CMethod st) c ts (N n) -> exists x k p b g a, n = Method z x k p b g a st.
Proof. intros H. inversion H; subst; repeat eexists. Qed.
Lemma G_varn nx k c ts n : G (CVar nx k) c ts (N n) -> exists l, n = SVariable z k l.
Proof. intros H. inversion H; subst; eauto. Qed.
Definition not_var (n : node) : Prop := match n with SVariable _ _ _ => False | _ => True end.
Lemma G_not_var cc c ts n : G cc c ts (N n) -> match cc with CE _ | CNew | CCall | COpt => True | _ => False end -> not_var n.
Proof.
  intros H. remember (N n) as r eqn:E. revert n E.
  induction H; intros ? E Hc; try discriminate E; try contradiction; injection E; intros; subst; try exact Logic.I; eauto.
Qed.
Lemma init_not_var n : not_var n -> init_items (Some n) = items m n.
Proof. destruct n; intros H; try reflexivity. contradiction. Qed.
Lemma items_bare n : items m n = bare_items n \/ items m n = Brk :: bare_items n.
Proof. destruct n; auto. Qed.
Lemma method_static s x k p b g a : items m (Method s x k p b g a true) = K KStatic :: Sp :: items m (Method s x k p b g a false).
Proof. reflexivity. Qed.
Lemma items_for s i t u b : items m (SFor s i t u b) =
  K KFor :: Sp :: P PParenOpen :: init_items i ++ P PSemiColon :: match t with Some x => Sp :: items m x | None => [] end ++
    P PSemiColon :: match u with Some x => Sp :: items m x | None => [] end ++ P PParenClose :: Sp :: items m b ++ [Brk].
Proof. reflexivity. Qed.
Lemma items_xdecl s d : items m (XDecl s d) = K KExport :: Sp :: bare_items d ++ [Brk].
Proof. reflexivity. Qed.
Lemma items_xdefault s d : items m (XDefaultDecl s d) = K KExport :: Bl :: K KDefault :: Sp :: bare_items d ++ [Brk].
Proof. reflexivity. Qed.
Lemma items_import s d ns l f : clause_items d ns l <> [] -> items m (SImport s d ns l f) =
  K KImport :: clause_items d ns l ++ [Sp; K KFrom; Sp; str_item f; P PSemiColon].
Proof.
  unfold clause_items. intros H. cbn [items]. rewrite <- !app_assoc. f_equal.
  destruct d, ns, l; try reflexivity. now elim H.
Qed.
Lemma clause_some c ts d ns l : G CClause c ts (IC d ns l) -> clause_items d ns l <> [].
Proof. intros H. inversion H; subst; discriminate. Qed.

Lemma items_case s t l : items m (SwitchCase s t l) =
  match t with Some x => K KCase :: Bl :: items m x | None => [K KDefault] end ++ P PColon :: NL :: stmts l.
Proof. reflexivity. Qed.
Lemma items_arrow_name s a q x b : items m (EArrow s a true (FormalParameters q [BindElement z (BindIdent (id x)) None] None) b) =
  (if a then [K KAsync; Sp] else []) ++ nm (id x) ++ Sp :: P PEqualGreater :: Sp :: items m b.
Proof. cbn [items flat_map option_map equals]. now rewrite !app_nil_r. Qed.
Lemma nm_new : nm (id (chars "new")) = [K KNew]. Proof. reflexivity. Qed.
Lemma nm_target : nm (id (chars "target")) = [K KTarget]. Proof. reflexivity. Qed.
Lemma nm_import : nm (id (chars "import")) = [K KImport]. Proof. reflexivity. Qed.
Lemma nm_meta : nm (id (chars "meta")) = [T (VIdentifier (chars "meta"))]. Proof. reflexivity. Qed.
Lemma headed'_l l ts : headed l ts -> headed' l ts.
Proof. now left. Qed.
Lemma headed'_T v l t us : slashes v (t_value t) -> headed' (T v :: l) (t :: us).
Proof. intros. now apply headed'_l, headed_T. Qed.
Lemma headed'_bare n ts : headed (bare_items n) ts -> headed' (items m n) ts.
Proof. intros H. destruct (items_bare n) as [E|E]; rewrite E; [now left|right; eauto]. Qed.
Lemma plain_bare n : Forall plain_item (bare_items n) -> Forall plain_item (items m n).
Proof. intros H. destruct (items_bare n) as [E|E]; rewrite E; auto. constructor; auto. exact Logic.I. Qed.

(** Templates. *)
Lemma text_part s : map (tpl_part m) (text s) = [] /\ s = [] \/ map (tpl_part m) (text s) = [inl s].
Proof. destruct s; [left|right]; auto. Qed.
Lemma text_pieces s l : (exists a l', l = TplExpr a :: l') -> pieces_ok false l = true -> pieces_ok false (text s ++ l) = true.
Proof. intros (a & l' & ->) H. destruct s; exact H. Qed.
Lemma tpl_cases c ts l : G CTpl c ts (NS l) -> (exists a l', l = TplExpr a :: l') /\ pieces_ok false l = true.
Proof.
  intros H. remember CTpl as cc eqn:Ec. remember (NS l) as r eqn:Er. revert l Er.
  induction H; intros l0 Er; try discriminate Ec; injection Er as <-; (split; [eauto|]); cbn [pieces_ok].
  - destruct s; reflexivity.
  - destruct (IHG2 Ec _ eq_refl) as [H3 H4]. now apply text_pieces.
Qed.
Lemma tpl_rest_expr a l : tpl_rest (TplExpr a :: l) = items m a ++ tpl_items false [] (map (tpl_part m) l).
Proof. reflexivity. Qed.
Lemma tpl_rest_tail a s : tpl_rest (TplExpr a :: text s) = items m a ++ [T (VTemplateTail s)].
Proof. rewrite tpl_rest_expr. destruct (text_part s) as [[-> ->]| ->]; reflexivity. Qed.
Lemma tpl_items_text h s l : (exists a l', l = TplExpr a :: l') ->
  tpl_items h [] (map (tpl_part m) (text s ++ l)) = T (piece h false s) :: tpl_rest l.
Proof.
  intros (a & l' & ->). rewrite map_app. destruct (text_part s) as [[-> ->]| ->]; reflexivity.
Qed.
Lemma tpl_rest_more c ts a s l : G CTpl c ts (NS l) ->
  tpl_rest (TplExpr a :: text s ++ l) = items m a ++ T (VTemplateMiddle s) :: tpl_rest l.
Proof. intros H. apply tpl_cases in H. rewrite tpl_rest_expr, tpl_items_text by tauto. reflexivity. Qed.
Lemma items_tpl_head c ts s l : G CTpl c ts (NS l) -> items m (LitTemplate (text s ++ l)) = T (VTemplateHead s) :: tpl_rest l.
Proof.
  intros H. apply tpl_cases in H. rewrite items_template by (apply text_pieces; tauto). now rewrite tpl_items_text by tauto.
Qed.
Lemma items_lit_head c ts s l : G CTpl c ts (NS l) ->
  items m (ELiteral z (LitTemplate (text s ++ l))) = T (VTemplateHead s) :: tpl_rest l.
Proof. apply items_tpl_head. Qed.
Lemma items_tag_head c ts a s l : G CTpl c ts (NS l) ->
  items m (ETaggedTemplate z a (LitTemplate (text s ++ l))) = items m a ++ T (VTemplateHead s) :: tpl_rest l.
Proof. intros H. rewrite <- (items_tpl_head _ _ _ _ H). reflexivity. Qed.
Lemma items_tpl_whole s : items m (LitTemplate [TplString s]) = [T (VLiteral (TLTemplate s))].
Proof. reflexivity. Qed.
Lemma items_lit_whole s : items m (ELiteral z (LitTemplate [TplString s])) = [T (VLiteral (TLTemplate s))].
Proof. reflexivity. Qed.
Lemma items_tag_whole a s : items m (ETaggedTemplate z a (LitTemplate [TplString s])) = items m a ++ [T (VLiteral (TLTemplate s))].
Proof. reflexivity. Qed.
Ltac tpl := repeat match goal with
  | H : G CTpl ?c ?ts (NS ?l) |- context [items m (ELiteral z (LitTemplate (text ?s ++ ?l)))] => rewrite (items_lit_head c ts s l H)
  | H : G CTpl ?c ?ts (NS ?l) |- context [items m (ETaggedTemplate z ?a (LitTemplate (text ?s ++ ?l)))] => rewrite (items_tag_head c ts a s l H)
  | H : G CTpl ?c ?ts (NS ?l) |- context [tpl_rest (TplExpr ?a :: text ?s ++ ?l)] => rewrite (tpl_rest_more c ts a s l H)
  | |- context [tpl_rest (TplExpr ?a :: text ?s)] => rewrite (tpl_rest_tail a s)
  | |- context [items m (ELiteral z (LitTemplate [TplString ?s]))] => rewrite (items_lit_whole s)
  | |- context [items m (ETaggedTemplate z ?a (LitTemplate [TplString ?s]))] => rewrite (items_tag_whole a s)
  end.

Definition asg_cat (cc : cat) : bool := match cc with CAsg | CAsgElem | CAsgProp => true | _ => false end.
Lemma asg_not_ok cc c ts n : G cc c ts (N n) -> asg_cat cc = true -> okn n -> False.
Proof. intros H Hc Ho. destruct cc; try discriminate Hc; clear Hc; (apply okn_inv in Ho; destruct Ho as [Ho _]; inversion H; subst; discriminate Ho). Qed.
Lemma okn_program (b : bool) s dl l : okn (if b then Module s dl l else Script s dl l) -> Forall okn l.
Proof. intros H. destruct b; apply okn_inv in H; destruct H as [_ H]; exact H. Qed.
Ltac hd t := lazymatch t with ?f _ => hd f | _ => t end.
Ltac oks :=
  repeat match goal with
  | H : okr _ |- _ => cbn [okr] in H
  | H : okn (if _ then Module _ _ _ else Script _ _ _) |- _ => apply okn_program in H
  | H : okn ?n |- _ =>
    lazymatch goal with X : G CBody _ _ (N n) |- _ => fail | _ => idtac end;
    let h := hd n in is_constructor h; apply okn_inv in H; cbn [children node_ok] in H; destruct H
  | H : Forall okn (_ ++ _) |- _ => apply Forall_app in H; destruct H
  | H : Forall okn (_ :: _) |- _ => apply Forall_cons_iff in H; destruct H
  | H : Forall okn (opt_list _) |- _ => apply oko_list in H
  | H : Forall okn (cat_options _) |- _ => apply oko_cat in H
  | H : Forall okn match ?o with Some l => l | None => [] end |- _ =>
    assert (match o with Some l => Forall okn l | None => True end) by (destruct o; [exact H|exact Logic.I]); clear H
  | H : Forall okn [] |- _ => clear H
  | H : true = true |- _ => clear H
  | H : oko (Some _) |- _ => cbn [oko] in H
  | H : oko None |- _ => clear H
  | H : Forall oko (_ :: _) |- _ => apply Forall_cons_iff in H; destruct H
  | H : _ /\ _ |- _ => destruct H
  end.
Ltac okly := cbn [okr oko]; repeat first [ assumption | exact Logic.I | apply Forall_nil | apply Forall_cons | split ].
Ltac noasg := try solve [exfalso; first
  [ match goal with H : false = true |- _ => discriminate H end
  | match goal with H : G ?cc _ _ (N ?n), O : okn ?n |- _ => exact (asg_not_ok cc _ _ _ H eq_refl O) end
  | match goal with H : forall b, G CAsg _ _ (N ?n), O : okn ?n |- _ => exact (asg_not_ok _ _ _ _ (H true) eq_refl O) end ]].

Lemma G_shape cc c ts r : G cc c ts r -> SH cc ts r.
Proof.
  induction 1; unfold SH in *; intros Hg Ho; goods; oks; noasg; vals;
  repeat match goal with H : Forall good ?l -> _ |- _ => first [specialize (H ltac:(goodly) ltac:(okly)) | clear H] end;
  repeat match goal with H : _ /\ _ |- _ => destruct H end;
  cbn [hcat hcat' scat acat] in *;
  cbn [it] in *; tpl;
  rewrite ?items_for, ?items_xdecl, ?items_xdefault, ?items_case, ?items_arrow_name in *;
  cbn [items bare_items method_items fun_items clause_items init_items as_name] in *;
  rewrite ?nm_new, ?nm_target, ?nm_import, ?nm_meta in *; nameit;
  cbn [sps app rest equals option_map nil_ fun_items] in *;
  (split; [|split; [|split; [|split]]]); try exact Logic.I;
  try solve [assumption | pl | hd_ | so | as_ | apply headed'_T; assumption | now apply headed'_bare | now apply headed'_l | now apply plain_bare ].
  - (* prop_method *) destruct (G_method _ _ _ _ H) as (? & ? & ? & ? & ? & ? & ->). exact H1.
  - (* members_more *) destruct ts as [|t0 ts]; [contradiction|]. specialize (H0 t0 eq_refl ltac:(goodly) ltac:(okly)). destruct H0 as (P1 & _).
    destruct (G_method _ _ _ _ (H t0 eq_refl)) as (? & ? & ? & ? & ? & ? & ->). cbn [flat_map]. pl.
  - (* members_static *) destruct (G_method _ _ _ _ H0) as (? & ? & ? & ? & ? & ? & ->). cbn [flat_map]. rewrite method_static. pl.
  - (* for *) pl; match goal with |- Forall plain_item match ?e with _ => _ end => destruct e; pl end.
  - (* case *) cbn [flat_map]. rewrite items_case. pl.
  - (* default *) cbn [flat_map]. rewrite items_case. pl.
  - destruct (G_varn _ _ _ _ _ H) as (? & ->). assumption.
  - destruct (G_varn _ _ _ _ _ H) as (? & ->). assumption.
  - change (Forall plain_item (init_items (Some a))). rewrite init_not_var; [assumption|]. exact (G_not_var _ _ _ _ H Logic.I).
  - (* forleft *) specialize (H0 true ltac:(goodly) ltac:(okly)). destruct H0 as (P1 & _). exact P1.
  - (* import *)
    change (Forall plain_item (items m (SImport z d ns nm s))). rewrite items_import; [|exact (clause_some _ _ _ _ _ H1)]. pl.
  - unfold clause_items; nameit; pl.
  - unfold clause_items; nameit; pl.
  - unfold clause_items; nameit; pl.
  - unfold clause_items; nameit; pl.
  - unfold clause_items; nameit; pl.
  - destruct (G_varn _ _ _ _ _ H1) as (? & ->). cbn [bare_items]. pl.
  - fold (stmts l) in *. destruct (c_module c); cbn [items]; pl.
Qed.
End Shape.
