(** * LayoutSound: the tokens of a derivation are a writing of its tree. *)

From Coq Require Import Sorted.
From Verif Require Import Base Tokens CharReader Lexer LexSpec LexerFacts Ast Prog TokChain ParseState Parser
  Grammar GrammarFacts AstSpec Layout.
Local Open Scope string_scope.
Local Open Scope list_scope.

Definition fin (p : nat) (ts : list token) : nat := last (map tend ts) p.

Lemma last_cons {A} (l : list A) : forall x p, last (x :: l) p = last l x.
Proof.
  induction l as [|y l IH]; intros x p; [reflexivity|].
  change (last (x :: y :: l) p) with (last (y :: l) p). rewrite !IH. reflexivity.
Qed.
Lemma fin_cons p t ts : fin p (t :: ts) = fin (tend t) ts.
Proof. unfold fin. cbn [map]. apply last_cons. Qed.
Lemma fin_app p a b : fin p (a ++ b) = fin (fin p a) b.
Proof. revert p. induction a as [|t a IH]; intros p; [reflexivity|]. cbn [app]. now rewrite !fin_cons. Qed.
Lemma fin_tfin p ts : ts <> [] -> fin p ts = tfin ts.
Proof.
  intros H. destruct (exists_last H) as (l & t & ->). rewrite fin_app, tfin_snoc. reflexivity.
Qed.

(** Tokens one after the other. *)
Definition ordered (ts : list token) : Prop :=
  Forall (fun t => tstart t < tend t) ts /\ StronglySorted (fun t u => tend t <= tstart u) ts.

Lemma ordered_cons t ts : ordered (t :: ts) <->
  tstart t < tend t /\ Forall (fun u => tend t <= tstart u) ts /\ ordered ts.
Proof.
  unfold ordered. split.
  - intros [H1 H2]. inversion H1; inversion H2; subst; auto.
  - intros (H1 & H2 & H3 & H4). split; constructor; auto.
Qed.
Lemma ordered_app a b : ordered (a ++ b) -> ordered a /\ ordered b.
Proof.
  induction a as [|t a IH]; cbn [app]; intros H.
  - split; [split; constructor|exact H].
  - apply ordered_cons in H. destruct H as (H1 & H2 & H3). apply Forall_app in H2. destruct H2 as [H2 _].
    destruct (IH H3) as [Ha Hb]. split; [|exact Hb]. apply ordered_cons. auto.
Qed.
Lemma ordered_fin p ts : ordered ts -> Forall (fun u => p <= tstart u) ts -> p <= fin p ts.
Proof.
  revert p. induction ts as [|t ts IH]; intros p H HF; [unfold fin; cbn; lia|]. rewrite fin_cons.
  apply ordered_cons in H. destruct H as (H1 & H2 & H3). inversion HF; subst. specialize (IH _ H3 H2). lia.
Qed.
Lemma ordered_span ts : ordered ts -> ts <> [] -> sp_start (span_of ts) < sp_end (span_of ts).
Proof.
  intros H Hne. destruct ts as [|t ts]; [congruence|].
  change (tstart t < tfin (t :: ts)). rewrite <- (fin_tfin 0) by discriminate. rewrite fin_cons. apply ordered_cons in H. destruct H as (H1 & H2 & H3).
  pose proof (ordered_fin _ _ H3 H2). lia.
Qed.

(** [ts] is a writing of [l], wherever it starts. *)
Definition F (ts : list token) (l : list mark) : Prop := ordered ts -> forall p, fits p ts l (fin p ts).

Lemma fits_app p a l q b m r : fits p a l q -> fits q b m r -> fits p (a ++ b) (l ++ m) r.
Proof. induction 1; intros H2'; cbn [app]; try (econstructor; eauto; fail); auto. Qed.

Lemma F_nil : F [] [].
Proof. intros _ p. constructor. Qed.
Lemma F_app a b l m : F a l -> F b m -> F (a ++ b) (l ++ m).
Proof. intros H1 H2 Ho p. apply ordered_app in Ho. destruct Ho. rewrite fin_app. eapply fits_app; eauto. Qed.
Lemma F_sym t s ts l : symbol s t -> F ts l -> F (t :: ts) (Sym s :: l).
Proof. intros H1 H2 Ho p. rewrite fin_cons. apply ordered_cons in Ho. constructor; auto. apply H2, Ho. Qed.
Lemma F_opt t s ts l : symbol s t -> F ts l -> F (t :: ts) (Opt s :: l).
Proof. intros H1 H2 Ho p. rewrite fin_cons. apply ordered_cons in Ho. constructor; auto. apply H2, Ho. Qed.
Lemma F_opt_none s ts l : F ts l -> F ts (Opt s :: l).
Proof. intros H2 Ho p. now apply fits_opt_none, H2. Qed.
Lemma F_rep t s ts l : symbol s t -> F ts (Rep s :: l) -> F (t :: ts) (Rep s :: l).
Proof. intros H1 H2 Ho p. rewrite fin_cons. apply ordered_cons in Ho. constructor; auto. apply H2, Ho. Qed.
Lemma F_rep_none s ts l : F ts l -> F ts (Rep s :: l).
Proof. intros H2 Ho p. now apply fits_rep_none, H2. Qed.
Lemma F_id t i ts l : named i t -> F ts l -> F (t :: ts) (Id i :: l).
Proof. intros H1 H2 Ho p. rewrite fin_cons. apply ordered_cons in Ho. constructor; auto. apply H2, Ho. Qed.
Lemma F_idopt t i ts l : named i t -> F ts l -> F (t :: ts) (IdOpt i :: l).
Proof. intros H1 H2 Ho p. rewrite fin_cons. apply ordered_cons in Ho. constructor; auto. apply H2, Ho. Qed.
Lemma F_idopt_none ts p0 l : ts <> [] -> p0 = tsta ts -> F ts l -> F ts (IdOpt (ident_dummy p0) :: l).
Proof. intros H0 -> H2 Ho p. destruct ts as [|t ts]; [congruence|]. apply fits_idopt_none; auto. Qed.
Lemma F_val t v ts l : t_value t = v -> F ts l -> F (t :: ts) (Val v :: l).
Proof. intros H1 H2 Ho p. rewrite fin_cons. apply ordered_cons in Ho. constructor; auto. apply H2, Ho. Qed.
Lemma F_bracket ts sp l : sp = span_of ts -> ts <> [] -> F ts l -> F ts (bracket sp l).
Proof.
  intros -> Hne H Ho p. pose proof (ordered_span _ Ho Hne) as Hs.
  unfold bracket. destruct ts as [|t ts]; [congruence|]. apply fits_begin; [reflexivity|exact Hs|].
  rewrite <- (app_nil_r (t :: ts)) at 1. eapply fits_app; [apply H, Ho|].
  apply fits_end; [|constructor]. now rewrite fin_tfin.
Qed.
Lemma F_val1 t v : t_value t = v -> F [t] [Val v].
Proof. intros. apply F_val; auto using F_nil. Qed.
Lemma F_id1 t i : named i t -> F [t] [Id i].
Proof. intros. apply F_id; auto using F_nil. Qed.
Lemma F_ident t i : named i t -> F [t] (bracket (id_span i) [Id i]).
Proof.
  intros H. apply F_bracket; [|discriminate|now apply F_id1]. destruct H as [<- _]. symmetry. apply span_one.
Qed.

(** ** Lists *)

Definition rlisted2 (f g : node -> list mark) (l : list node) (r : option node) (close : string) : list mark :=
  match r with
  | None => listed f l close
  | Some x => flat_map (fun y => f y ++ [Sym ","]) l ++ Sym "..." :: g x ++ [Sym close]
  end.
Lemma rlisted_2 f l r close : rlisted2 f f l r close = rlisted f l r close.
Proof. reflexivity. Qed.

Definition nonvar (n : node) : bool := match n with SVariable _ _ _ => false | _ => true end.

Definition im_marks (d ns : option ident) (nm : option (list node)) : list mark :=
  idents d ++
  match d, ns, nm with Some _, None, None => [] | Some _, _, _ => [Sym ","] | _, _, _ => [] end ++
  match ns with Some i => [Sym "*"; Sym "as"; Id i] | None => [] end ++
  match nm with Some l => Sym "{" :: listed lay l "}" | None => [] end.

Definition lay1 (s : sort) : node -> list mark :=
  match s with
  | YProp => fun n => match n with PropIdent i => [Sym "."; Id i] | _ => lay n end
  | YOptProp q => fun n =>
      match n with PropIdent i => [Sym (if q then "?." else "."); Id i] | _ => flag q "?." ++ lay n end
  | _ => lay
  end.

Definition lay_item (s : sort) (it : item) : list mark :=
  match it with
  | I n => lay1 s n
  | L l =>
    match s with
    | YSep s' => sep (lay1 s') l
    | YMany s' => many (lay1 s') l
    | YList s' close => listed (lay1 s') l (punct_string close)
    | YArgs => Sym "(" :: listed lay l ")"
    | YTpl => template_parts lay l
    | YArr => elements lay l
    | YClassBody _ => flat_map (fun x => Rep ";" :: lay x) l ++ [Rep ";"; Sym "}"]
    | _ => []
    end
  | O o =>
    match s with
    | YInit => match o with Some x => Sym "=" :: lay x | None => [] end
    | YHeritage => match o with Some x => Sym "extends" :: lay x | None => [] end
    | YForInit =>
      match o with
      | Some (SVariable vsp k l) => bracket vsp (Sym (kind_string k) :: sep lay l)
      | Some x => lay x
      | None => []
      end
    | YOptStmt => match o with Some x => Sym "else" :: lay x | None => [] end
    | YFinally => match o with Some x => Sym "finally" :: lay x | None => [] end
    | _ => opt lay o
    end
  | R l r => match s with YRList s' r' close => rlisted2 (lay1 s') (lay1 r') l r (punct_string close) | _ => [] end
  | RO l r =>
    match s with
    | YBindArr => bind_elements lay l (option_map lay r)
    | _ => asg_elements lay l (option_map lay r)
    end
  | Im d ns nm => im_marks d ns nm
  end.

Lemma sep_snoc lay l x : l <> [] -> sep lay (l ++ [x]) = sep lay l ++ Sym "," :: lay x.
Proof.
  induction l as [|y l IH]; intros H; [congruence|]. destruct l as [|z l].
  - cbn. rewrite !app_nil_r. reflexivity.
  - assert (E : sep lay ((z :: l) ++ [x]) = sep lay (z :: l) ++ Sym "," :: lay x) by (apply IH; discriminate).
    change (sep lay ((y :: z :: l) ++ [x])) with (lay y ++ Sym "," :: sep lay ((z :: l) ++ [x])).
    change (sep lay (y :: z :: l)) with (lay y ++ Sym "," :: sep lay (z :: l)).
    rewrite E, <- app_assoc. reflexivity.
Qed.

(** ** Tokens *)

Lemma isp_sym p t s : isp p t -> s = punct_string p -> symbol s t.
Proof. intros H ->. left. exists p. auto. Qed.
Lemma isk_sym k t s : isk k t -> s = keyword_string k -> symbol s t.
Proof. intros H ->. right. exists k. auto. Qed.
Lemma name_named t i : name_tok t i -> named i t.
Proof. intros [H1 [H2|(k & H2 & H3)]]; split; eauto. Qed.
Lemma ident_named c t i : ident_tok c t i -> named i t.
Proof. intros [H1 [H2|(k & H2 & _ & H3)]]; split; auto. right. exists k. auto. Qed.
Lemma kind_sym k t : kind_tok k t -> symbol (kind_string k) t.
Proof. destruct k; intros H; (eapply isk_sym; [exact H|reflexivity]). Qed.
Lemma assignop_sym t o : assignment_operator t = Some o -> symbol (assign_string o) t.
Proof.
  unfold assignment_operator. intros H. left.
  destruct (t_value t) as [| |p| | | |]; try discriminate. exists p. split; [reflexivity|].
  destruct p; try discriminate; injection H as <-; reflexivity.
Qed.
Lemma unary_sym t o : unary_operator t = Some o -> symbol (unary_string o) t.
Proof.
  unfold unary_operator, symbol. intros H.
  destruct (t_value t) as [| |p| | | |]; try discriminate.
  - right. destruct k; try discriminate; injection H as <-; eexists; split; reflexivity.
  - left. destruct p; try discriminate; injection H as <-; eexists; split; reflexivity.
Qed.
Lemma update_sym t o : update_operator t = Some o -> symbol (update_string o) t.
Proof.
  unfold update_operator, symbol. intros H.
  destruct (t_value t) as [| |p| | | |]; try discriminate. left.
  destruct p; try discriminate; injection H as <-; eexists; split; reflexivity.
Qed.
Lemma bin_sym l b t o : map_operator l b t = Some o ->
  symbol (match o with inl x => bin_string x | inr x => log_string x end) t.
Proof.
  unfold map_operator, symbol. intros H.
  destruct l, (t_value t) as [| |p| | | |]; try discriminate;
  try (right; destruct k; try discriminate; try destruct b; try discriminate; injection H as <-; eexists; split; reflexivity);
  left; destruct p; try discriminate; injection H as <-; eexists; split; reflexivity.
Qed.

Section Sound.
Context {PF : Platform}.
Variable D : str.

Lemma der_nonvar s c n ts : der D s c (I n) ts ->
  match s with
  | YExpr | YAssign | YArrow | YCond | YBin _ | YUnary | YUpdate | YLhs | YLhs0 | YOpt | YRec
  | YMember | YTerm | YPrimary | YFunction | YClass => nonvar n = true
  | YElem => n <> ElemElision
  | _ => True
  end.
Proof.
  enough (H : forall it, der D s c it ts ->
    match it with I n =>
      match s with
      | YExpr | YAssign | YArrow | YCond | YBin _ | YUnary | YUpdate | YLhs | YLhs0 | YOpt | YRec
      | YMember | YTerm | YPrimary | YFunction | YClass => nonvar n = true
      | YElem => n <> ElemElision
      | _ => True
      end | _ => True end) by (intros; eapply (H (I n)); eauto).
  clear n. intros it.
  induction 1; try exact Logic.I; try reflexivity; try assumption; try discriminate.
  - destruct l; assumption.
  - destruct o; reflexivity.
Qed.

Lemma der_tpl_head s c l ts : der D s c (L l) ts -> s = YTpl -> exists e l', l = TplExpr e :: l'.
Proof. intros H E. inversion H; subst; try discriminate; eauto. Qed.

Ltac sym :=
  first
  [ assumption
  | solve [eapply isp_sym; [eassumption|reflexivity]]
  | solve [eapply isk_sym; [eassumption|reflexivity]]
  | apply kind_sym; assumption | apply assignop_sym; assumption | apply unary_sym; assumption
  | apply update_sym; assumption
  | eapply bin_sym; eassumption ].

Ltac nonempty :=
  repeat first
  [ apply cons_ne
  | match goal with |- ?a ++ _ :: _ <> [] => apply app_ne_r; apply cons_ne end
  | match goal with H : der _ ?s _ _ ?a |- ?a <> [] => apply (der_nonempty _ _ _ _ _ H); reflexivity end
  | match goal with H : der _ ?s _ _ ?a |- ?a ++ _ <> [] =>
      apply app_ne_l; apply (der_nonempty _ _ _ _ _ H); reflexivity end
  | apply app_ne_r ].

Lemma F_semi ts : opt_semi ts -> F ts [Opt ";"].
Proof.
  destruct ts as [|t [|]]; cbn; [intros _|intros H|intros []].
  - apply F_opt_none, F_nil.
  - apply F_opt; [sym|apply F_nil].
Qed.
Lemma F_terminated a ts : terminated D a ts -> F ts [Opt ";"].
Proof.
  destruct ts as [|t [|]]; cbn; [intros _|intros H|intros []].
  - apply F_opt_none, F_nil.
  - apply F_opt; [sym|apply F_nil].
Qed.
Lemma F_async a ts : async_prefix a ts -> F ts (flag a "async").
Proof.
  destruct ts as [|t [|]]; cbn; [intros ->|intros [-> H]|intros []]; [apply F_nil|].
  apply F_sym; [sym|apply F_nil].
Qed.
Lemma F_star a ts : star_prefix a ts -> F ts (flag a "*").
Proof.
  destruct ts as [|t [|]]; cbn; [intros ->|intros [-> H]|intros []]; [apply F_nil|].
  apply F_sym; [sym|apply F_nil].
Qed.
Lemma F_static c a ts : static_prefix c a ts -> F ts (flag a "static").
Proof.
  destruct ts as [|t [|]]; cbn; [intros ->|intros (-> & _ & H)|intros []]; [apply F_nil|].
  apply F_sym; [sym|apply F_nil].
Qed.
Lemma F_opt_name c o ts : opt_name c o ts -> F ts (idents o).
Proof.
  destruct ts as [|t [|]]; cbn; [intros ->|intros (i & -> & H)|intros []]; [apply F_nil|].
  apply F_id1. eapply ident_named; eauto.
Qed.
Lemma F_decl_name c p i ti ts l :
  decl_name c p i ti -> ts <> [] -> p = tsta ts -> F ts l -> F (ti ++ ts) (IdOpt i :: l).
Proof.
  intros H H0 H1 H2. destruct ti as [|t [|]]; cbn in H; [|cbn|contradiction].
  - destruct H as [_ ->]. now apply F_idopt_none.
  - apply F_idopt; [eapply ident_named; eassumption|assumption].
Qed.
Lemma F_bracket1 t l : F [t] l -> F [t] (bracket (t_span t) l).
Proof. intros H. apply F_bracket; [symmetry; apply span_one|discriminate|exact H]. Qed.

Lemma tsta_app_cons th (t1 : token) tl : tsta (th ++ [t1]) = tsta (th ++ t1 :: tl).
Proof. destruct th; reflexivity. Qed.

(** The directives of a prologue are their statements, without the brackets. *)
Lemma fits_inv_sym p ts s l q : fits p ts (Sym s :: l) q ->
  exists t ts', ts = t :: ts' /\ symbol s t /\ fits (tend t) ts' l q.
Proof. intros H. inversion H; subst; eauto. Qed.
Lemma fits_directives dl ds p q ts : map directive_of dl = map Some ds ->
  fits p ts (many lay dl) q -> fits p ts (directives ds) q.
Proof.
  revert ds p ts. induction dl as [|x dl IH]; intros [|d ds] p ts E H; try discriminate; [exact H|].
  cbn in E. injection E as E1 E2. destruct x; try discriminate E1. cbn in E1.
  destruct x; try discriminate E1. cbn in E1. destruct x; try discriminate E1. injection E1 as ->.
  cbn in H. inversion H; subst; clear H.
  match goal with H : fits _ _ _ _ |- _ => inversion H; subst; clear H end.
  match goal with H : fits _ _ _ _ |- _ => inversion H; subst; clear H end.
  match goal with H : fits _ _ _ _ |- _ => inversion H; subst; clear H end.
  cbn [directives flat_map app]. apply fits_val; [auto|].
  match goal with H : fits _ _ _ _ |- _ => inversion H; subst; clear H end.
  - apply fits_opt; [assumption|]. 
    match goal with H : fits _ _ _ _ |- _ => inversion H; subst; clear H end. apply IH; auto.
  - apply fits_opt_none. 
    match goal with H : fits _ _ _ _ |- _ => inversion H; subst; clear H end. apply IH; auto.
Qed.
Lemma F_directives dl ds ts : map directive_of dl = map Some ds -> F ts (many lay dl) -> F ts (directives ds).
Proof. intros E H Ho p. eapply fits_directives; eauto. Qed.

Lemma F_listed lay x l s tx t tl :
  F tx (lay x) -> symbol "," t -> F tl (listed lay l s) -> F (tx ++ t :: tl) (listed lay (x :: l) s).
Proof.
  intros Hx Ht Hl. destruct l as [|y l].
  - cbn. rewrite app_nil_r. apply F_app; [exact Hx|]. apply F_opt; [exact Ht|exact Hl].
  - change (listed lay (x :: y :: l) s) with ((lay x ++ Sym "," :: sep lay (y :: l)) ++ [Opt ","; Sym s]).
    rewrite <- app_assoc. apply F_app; [exact Hx|]. apply F_sym; [exact Ht|exact Hl].
Qed.

Lemma F_bind_elements x l (r : option (list mark)) tx t tl :
  F tx (lay x) -> symbol "," t -> F tl (bind_elements lay l r) -> F (tx ++ t :: tl) (bind_elements lay (Some x :: l) r).
Proof.
  intros Hx Ht Hl. cbn [bind_elements]. apply F_app; [exact Hx|].
  destruct l; [destruct r|]; try (apply F_sym; [exact Ht|exact Hl]). apply F_opt; [exact Ht|exact Hl].
Qed.

Lemma elements_cons x l : x <> ElemElision ->
  elements lay (x :: l) = lay x ++ match l with [] => [Opt ","; Sym "]"] | _ => Sym "," :: elements lay l end.
Proof. intros H. destruct x; try reflexivity. congruence. Qed.

Lemma many_inv_nil c dl td : der D (YMany YItem) c (L dl) td -> dl = [] -> td = [].
Proof. intros H ->. inversion H; reflexivity. Qed.

Ltac fit :=
  repeat first
  [ assumption
  | apply F_nil
  | eapply F_semi; eassumption
  | eapply F_terminated; eassumption
  | apply F_async; assumption
  | apply F_star; assumption
  | eapply F_static; eassumption
  | eapply F_opt_name; eassumption
  | apply F_ident; first [eapply ident_named; eassumption | apply name_named; assumption]
  | apply F_bracket1
  | apply F_bracket; [assumption || reflexivity | solve [nonempty] |]
  | apply F_sym; [sym|]
  | apply F_val1; solve [eassumption|eauto]
  | apply F_val; [solve [eassumption|eauto]|]
  | apply F_id; [first [eapply ident_named; eassumption | apply name_named; assumption]|]
  | match goal with |- F (_ ++ _) (_ ++ _) => apply F_app end ].

Theorem der_fits s c it ts : der D s c it ts -> F ts (lay_item s it).
Proof.
  induction 1; subst; cbn [lay_item lay lay1] in *; rewrite ?rlisted_2 in *; try solve [fit].
  - cbn [sep]. now rewrite app_nil_r.
  - rewrite sep_snoc; [fit|]. intros ->. inversion H0.
    match goal with H : ?a ++ [_] = [] |- _ => destruct a; discriminate H end.
  - cbn [many flat_map]. fit.
  - apply F_listed; auto; sym.
  - cbn. rewrite app_nil_r. apply F_app; [assumption|]. apply F_opt_none. fit.
  - destruct o as [y|]; cbn [rlisted2 flat_map] in *.
    + rewrite <- !app_assoc. cbn [app]. fit.
    + apply F_listed; auto; sym.
  - cbn. rewrite app_nil_r. apply F_app; [assumption|]. apply F_opt_none. fit.
  - apply F_bracket; [reflexivity|discriminate|]. change (t :: ta) with ([t] ++ ta). fit.
  - cbn [sep]. rewrite app_nil_r. cbn [lay]. rewrite app_nil_r.
    apply F_bracket; [reflexivity|nonempty|]. apply F_app; [fit|].
    change (t :: t' :: tb) with ([t] ++ t' :: tb). apply F_app; [|fit].
    apply F_bracket; [reflexivity|discriminate|]. apply F_bracket; [reflexivity|discriminate|].
    apply F_ident. eapply ident_named; eassumption.
  - destruct l; cbn [next_sort next_level lay1] in *; assumption.
  - replace (lay1 (next_sort l) r) with (lay r) in * by (destruct l; reflexivity).
    pose proof (bin_sym _ _ _ _ H1) as Hs.
    assert (Hne : te ++ t :: tr <> []) by nonempty.
    destruct o; cbn [create_expr lay]; fit.
  - cbn. change (t :: t1 :: te ++ [t2]) with ([t] ++ t1 :: te ++ [t2]).
    apply F_bracket; [reflexivity|discriminate|]. apply (F_app [t] _ [Sym "import"]); [fit|].
    apply F_bracket; [reflexivity|discriminate|]. apply F_sym; [sym|]. rewrite app_nil_r.
    apply F_app; [assumption|]. apply F_opt_none. fit.
  - change (t :: tp) with ([t] ++ tp). apply F_bracket; [reflexivity|discriminate|]. fit.
  - cbn [many flat_map]. rewrite app_nil_r. fit.
  - apply F_bracket; [reflexivity|discriminate|]. apply F_id; [|fit]. split; [reflexivity|].
    right. exists KNew. split; [assumption|reflexivity].
  - apply F_bracket; [reflexivity|discriminate|]. apply F_id; [|fit]. split; [reflexivity|].
    right. exists KImport. split; [assumption|reflexivity].
  - destruct b; fit.
  - destruct (der_tpl_head _ _ _ _ H1 eq_refl) as (e & l' & ->).
    unfold str_part. destruct s; cbn [is_empty app template]; (apply F_val; [assumption|exact IHder]).
  - unfold str_part. destruct s; cbn [is_empty template_parts]; fit.
  - destruct (der_tpl_head _ _ _ _ H2 eq_refl) as (e' & l' & ->).
    unfold str_part. destruct s; cbn [is_empty app]; 
      (match goal with |- F _ (template_parts lay (TplExpr e :: TplString ?s' :: ?r)) =>
         change (template_parts lay (TplExpr e :: TplString s' :: r)) with (lay e ++ Val (VTemplateMiddle s') :: template_parts lay r)
       | |- F _ (template_parts lay (TplExpr e :: ?r)) =>
         change (template_parts lay (TplExpr e :: r)) with (lay e ++ Val (VTemplateMiddle []) :: template_parts lay r) end); fit.
  - destruct l; cbn [literal_node lay template str_mark]; fit.
  - rewrite elements_cons by exact (der_nonvar _ _ _ _ H0).
    apply F_app; [assumption|]. destruct l; [apply F_opt; [sym|exact IHder2]|fit].
  - rewrite elements_cons by exact (der_nonvar _ _ _ _ H0).
    apply F_app; [assumption|]. apply F_opt_none. fit.
  - cbn [flag app]. apply F_bracket; [reflexivity|nonempty|].
    change (tn ++ tp ++ tb) with ([] ++ tn ++ tp ++ tb). apply F_app; [|fit].
    destruct (c_await c), (c_yield c); cbn; repeat apply F_opt_none; apply F_nil.
  - apply F_app; [fit|]. apply F_bracket; [reflexivity|nonempty|]. apply F_app; [|fit].
    match goal with H : mhead _ _ _ _ |- _ => destruct H end.
    + destruct (c_await c), (c_yield c); cbn; repeat apply F_opt_none; apply F_nil.
    + cbn. apply F_opt; [sym|apply F_nil].
    + fit.
    + fit.
    + cbn. apply F_opt; [sym|]. destruct tg as [|u [|]]; cbn in *; [subst g; apply F_nil| |contradiction].
      destruct H1 as [-> H1]. apply F_opt; [sym|apply F_nil].
  - apply F_bracket; [reflexivity|discriminate|]. apply F_sym; [sym|]. apply F_app; [|fit].
    eapply F_directives; eassumption.
  - cbn. apply F_rep_none. fit.
  - destruct l; cbn [flat_map app] in *; (apply F_rep; [sym|exact IHder]).
  - cbn [flat_map]. rewrite <- app_assoc. cbn [app]. apply F_rep_none. fit.
  - apply F_bind_elements; auto; sym.
  - cbn. apply F_app; [assumption|]. apply F_opt_none. fit.
  - cbn [asg_elements]. fit.
  - apply F_bracket; [reflexivity|nonempty|]. fit. 
    eapply F_decl_name; [eassumption| | |]; [nonempty| |fit].
    symmetry. apply tsta_app. eapply der_nonempty; [eassumption|reflexivity].
  - apply F_bracket; [reflexivity|nonempty|]. fit. 
    eapply F_decl_name; [eassumption| | |]; [nonempty| |fit]. apply tsta_app_cons.
  - assert (Hc : d <> None \/ ns <> None \/ nm <> None).
    { inversion H2; subst; [left|right; left|right; right]; discriminate. }
    match goal with |- F _ (bracket _ (Sym "import" :: ?x ++ _)) => replace x with (im_marks d ns nm ++ [Sym "from"]) end.
    + rewrite <- app_assoc. cbn [app]. apply F_bracket; [reflexivity|nonempty|]. fit.
    + unfold im_marks. destruct d, ns, nm; cbn [idents app]; rewrite ?app_nil_r, <- ?app_assoc; cbn [app]; try reflexivity.
      destruct Hc as [Hc|[Hc|Hc]]; congruence.
  - unfold im_marks. destruct td as [|u [|v [|]]]; try contradiction; [subst d|destruct H0 as (j & -> & Hu & Hv)];
      cbn [idents app]; fit.
  - unfold im_marks. destruct td as [|u [|v [|]]]; try contradiction; [subst d|destruct H0 as (j & -> & Hu & Hv)];
      cbn [idents app]; fit.
  - apply F_bracket; [reflexivity|nonempty|]. fit.
    destruct ta as [|u [|v [|]]]; try contradiction; [subst a|destruct H3 as (Hu & i & -> & Hv)]; fit.
  - pose proof (der_nonvar _ _ _ _ H) as Hv. destruct e; try discriminate Hv; assumption.
  - apply F_bracket; [reflexivity|nonempty|]. fit.
    destruct ta as [|v [|]]; try contradiction; [subst a|]; cbn [app flag]; [|destruct H1 as (-> & _ & Hv)]; fit.
  - assert (E : lay (if c_module c then Module (span_of (td ++ tl)) ds l else Script (span_of (td ++ tl)) ds l) =
                match ds, l with [], [] => [] | _, _ => bracket (span_of (td ++ tl)) (directives ds ++ many lay l) end)
      by (destruct (c_module c), ds, l; reflexivity).
    rewrite E. assert (HF : F (td ++ tl) (directives ds ++ many lay l)).
    { apply F_app; [|assumption]. eapply F_directives; eassumption. }
    destruct ds as [|d ds]; [destruct l as [|x l]|].
    + destruct dl; [|discriminate]. rewrite (many_inv_nil _ _ _ H0 eq_refl), (many_inv_nil _ _ _ H2 eq_refl). apply F_nil.
    + apply F_bracket; [reflexivity| |exact HF]. apply app_ne_r. inversion H2; subst. apply app_ne_l.
      eapply der_nonempty; [eassumption|reflexivity].
    + apply F_bracket; [reflexivity| |exact HF]. apply app_ne_l. destruct dl; [discriminate|]. inversion H0; subst.
      apply app_ne_l. eapply der_nonempty; [eassumption|reflexivity].
Qed.
End Sound.
