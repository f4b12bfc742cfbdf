(** * Fwd8: the parser on written statements. *)

From Verif Require Import Base Tokens PeekReader CharReader Lexer LexSpec Ast Prog TokChain ParseState Parser
  ParseRuns Source Stream AstSpec StaticSem Layout Bare Written Starts Forward Fwd1 Fwd2 Fwd3 Fwd4 Fwd5 Fwd7.
Local Open Scope string_scope.
Local Open Scope list_scope.
Local Open Scope prog_scope.

Section Fwd.
Context {PF : Platform}.
Variable D : str.
Variable st : lexer_state.
Variable full : list token.
Hypothesis HS : setting D st full.

Notation W := (wpt D st full).
Notation ME := (ME D st full).
Notation PPat := (PPat D st full).
Notation PBody := (PBody D st full).
Notation PDecls := (PDecls D st full).
Notation PVar := (PVar D st full).
Notation PHoist := (PHoist D st full).
Notation PLex := (PLex D st full).
Notation PStmt := (PStmt D st full).
Notation PItem := (PItem D st full).
Notation PItems := (PItems D st full).
Notation PBlock := (PBlock D st full).
Notation PDirs := (PDirs D st full).
Notation PNoDir := (PNoDir D st full).

(** ** Expression statements *)

Lemma fexp_stmt c t us Q : fexp 0 c (t_value t) = true -> t_value t <> VPunct PBracketOpen ->
  W (parse_stmt_other c t) (t :: us) Q -> W (body _ (NStmt c)) (t :: us) Q.
Proof.
  intros Hf Hn H. wbody. w HS. destruct (t_value t) as [[]| |[]| | | |]; try discriminate Hf; try exact H; congruence.
Qed.

Lemma expr_stmt_read nx c ts a us rest : starts 0 c ts -> ME 0 (with_in true c) ts a ->
  not_first [VPunct PBracketOpen; VKeyword KFunction; VKeyword KClass; VKeyword KImport] ts ->
  (forall t u vs, ts = t :: u :: vs -> ~ (kw KAsync t /\ kw KFunction u)) ->
  ends_expr us nx -> fol nx rest -> W (body _ (NStmt c)) (ts ++ us ++ rest) (okq (isb (SExpr z a)) rest).
Proof.
  intros (t & ts' & -> & Hf & Hsec) H Hnf Has Hu Hr.
  pose proof (H (us ++ rest) (ends_stops us nx rest _ Hu Hr)) as HE.
  cbn [app not_first In] in *. apply fexp_stmt; [exact Hf|intuition congruence|]. unfold parse_stmt_other.
  assert (Hcl : isname c (t_value t) = true -> clear (t :: ts' ++ us ++ rest)) by (intros En; clr).
  assert (Hca : t_value t = VKeyword KAsync -> clear (t :: ts' ++ us ++ rest)) by (intros En; clr).
  w HS. apply wpt_b_peek_matches_any; [exact HS|]. intros r0 Hr0. rewrite <- isname_ident. cbn [tl] in Hr0.
  assert (Hc : (isname c (t_value t) && r0)%bool = false).
  { destruct (isname c (t_value t)) eqn:En; [|reflexivity]. cbn [andb]. specialize (Hsec En). rewrite (Hr0 (Hcl eq_refl)). destruct ts' as [|u ts'].
    - cbn [app]. eapply ends_not_colon; [apply ends_expr_ends; exact Hu|exact Hr].
    - cbn [app hdo hd_error]. apply value_is_false. now destruct Hsec. }
  rewrite Hc. unfold is_expr_stmt. w HS. w HS. w HS. apply wpt_b_peek_any; [exact HS|]. intros r1 Hr1. cbn [tl] in Hr1.
  assert (Hb : match t_value t with
        | VPunct PBracketOpen | VKeyword KFunction | VKeyword KClass => false
        | VKeyword KLet => negb (value_is (VPunct PBraceOpen) r1)
        | VKeyword KAsync => if value_is (VKeyword KFunction) r1 then opt_fol r1 else true
        | _ => true
        end = true).
  { destruct (t_value t) as [[]| |[]| | | |] eqn:Ev; try reflexivity; try discriminate Hf; try (exfalso; intuition congruence).
    rewrite (Hr1 (Hca eq_refl)). destruct ts' as [|u ts'].
    - exfalso. now apply Hsec.
    - cbn [app hdo hd_error]. rewrite value_is_false; [reflexivity|]. intros E. apply (Has t u ts' eq_refl). now split. }
  w HS. rewrite Hb. w HS. wbody. w HS. change (with_in true (with_in true c)) with (with_in true c).
  eapply W_ok; [exact HE|]. intros x Hx. eapply (osemi_read D st full HS); [apply ends_expr_ends; exact Hu|exact Hr|]. w HS. w HS. apply okq_intro. red. cbn. now rewrite Hx.
Qed.
Lemma sem_expr_stmt nx c ts a us : starts 0 c ts -> ME 0 (with_in true c) ts a ->
  not_first [VPunct PBracketOpen; VKeyword KFunction; VKeyword KClass; VKeyword KImport] ts ->
  (forall t u vs, ts = t :: u :: vs -> ~ (kw KAsync t /\ kw KFunction u)) ->
  ends_expr us nx -> PStmt nx c (ts ++ us) (SExpr z a).
Proof. intros H1 H2 H3 H4 H5 rest Hr. rewrite <- app_assoc. eapply expr_stmt_read; eassumption. Qed.

(** ** Directives *)

Lemma sem_dirs nx c s t us vs l : str_tok s t -> ends_expr us (first vs nx) -> ord_hd vs -> PDirs nx c vs l -> PDirs nx c (t :: us ++ vs) (s :: l).
Proof.
  intros Ht Hu Hvs Hl acc rest Q Hr H.
  assert (HP : PItem (first vs nx) c ([t] ++ us) (SExpr z (ELiteral z (LitString s)))).
  { apply sem_stmt_item; [exact HS|exists t, us; unfold str_tok in Ht; rewrite Ht; repeat split; reflexivity|].
    apply sem_expr_stmt; [|now apply string_expr| | |exact Hu].
    - unfold str_tok in Ht. exists t, []. rewrite Ht. repeat split. intros E; discriminate E.
    - unfold str_tok in Ht. cbn. rewrite Ht. intuition discriminate.
    - intros ? ? ? E. discriminate E. }
  specialize (HP (vs ++ rest) (first_hd vs nx rest Hvs Hr)). nrm. cbn [app] in HP.
  unfold str_tok in Ht. wbody. apply wpt_b_string. cbn [hdo hd_error]. rewrite is_str_hd. unfold is_str. rewrite Ht. cbn [negb]. w HS.
  eapply W_ok; [exact HP|]. intros x Hx.
  assert (E : directive_of x = Some s) by (rewrite <- directive_bare, Hx; reflexivity). rewrite E. w HS.
  apply (Hl (acc ++ [s]) rest Q Hr). rewrite <- app_assoc. exact H.
Qed.

Lemma sem_nodir nx c ts : (forall t, first ts nx = Some t -> is_str t = false) -> PNoDir nx c ts.
Proof.
  intros H acc rest Hr. wbody. apply wpt_b_string. assert (E : hd_error (ts ++ rest) = first ts nx) by (destruct Hr as [<- _]; now destruct ts). unfold hdo. rewrite E.
  destruct (first ts nx) as [t|]; [|cbn [is_string_literal negb]; w HS; now apply okq_intro].
  rewrite is_str_hd, (H t eq_refl). cbn [negb]. w HS. now apply okq_intro.
Qed.
Lemma sem_nodir_expr nx c ts a us : head fitem ts -> ord_hd ts -> ord_hd us -> PItem (first us nx) c ts a ->
  (forall s, a <> SExpr z (ELiteral z (LitString s))) -> PNoDir nx c (ts ++ us).
Proof.
  intros (t & ts' & -> & _) Hots Hous H Hn acc rest Hr. pose proof (H (us ++ rest) (first_hd us nx rest Hous Hr)) as HP. rewrite <- app_assoc. cbn [app] in *.
  apply wpt_sfx. intros Hsf. wbody. apply wpt_b_string. cbn [hdo hd_error].
  destruct (is_string_literal (Some t)); cbn [negb]; [|w HS; now apply okq_intro]. w HS.
  eapply W_ok; [exact HP|]. intros x Hx.
  assert (E : directive_of x = None).
  { rewrite <- directive_bare, Hx. destruct (directive_of a) as [s|] eqn:E; [|reflexivity]. exfalso.
    rewrite <- Hx in E, Hn. destruct x; try discriminate E. cbn [bare directive_of] in *.
    match type of E with context [bare ?e] => destruct e end; try discriminate E. cbn [bare] in *.
    match type of E with context [bare ?e] => destruct e end; try discriminate E. cbn [bare] in *. now apply (Hn s0). }
  rewrite E. eapply (wpt_b_rewind D st full HS); [oh|exact Hsf|]. w HS. now apply okq_intro.
Qed.

Lemma sem_body c o ds dl ts l cl : pu PBracketOpen o -> ord_hd ts -> PDirs (first ts (Some cl)) c ds dl -> PNoDir (Some cl) c ts ->
  PItems (Some cl) (body_ctx dl c) ts l -> pu PBracketClose cl -> PBody c (o :: ds ++ ts ++ [cl]) (Body z dl l).
Proof.
  intros Ho Hots Hd Hn Hl Hc rest Hrest. tokval. nrm. wbody. w HS. w HS.
  eapply W_ok with (P := fun l' => l' = dl) (rest := ts ++ cl :: rest).
  - apply (Hd [] (ts ++ cl :: rest)); [apply first_hd; [oh|apply fol_cons; oh]|]. apply (Hn ([] ++ dl) (cl :: rest)). apply fol_cons; oh.
  - intros dl' ->. change (with_return true (with_strict (c_strict c || contains_strict dl) c)) with (body_ctx dl c).
    eapply W_ok with (P := fun l' => map bare l' = l) (rest := rest).
    + apply (Hl _ (body_loop D st full _) [] (cl :: rest)); [apply fol_cons; oh|]. intros l' E. wbody. w HS. w HS. now apply okq_intro.
    + intros l' E. w HS. w HS. apply okq_intro. red. cbn. now rewrite E.
Qed.

(** ** Statements *)

Lemma sem_empty nx c t : pu PSemiColon t -> PStmt nx c [t] (SEmpty z).
Proof. intros H rest _. tokval. cbn [app]. wbody. w HS. rewrite H. w HS. wbody. w HS. w HS. now apply okq_intro. Qed.
Lemma sem_block_stmt nx c ts a : head (feq (VPunct PBracketOpen)) ts -> PBlock c ts a -> PStmt nx c ts a.
Proof.
  intros (t & ts' & -> & Ht) H rest Hr. unfold feq in Ht. destruct tvalue_eq_dec as [E|]; [|discriminate].
  pose proof (H rest (fol_ord _ _ Hr)) as HP. cbn [app] in *. wbody. w HS. rewrite <- E. w HS. exact HP.
Qed.
Lemma sem_var_stmt nx c ts a : var_start VKVar c ts -> PVar nx VKVar c ts a -> PStmt nx c ts a.
Proof.
  intros (t & u & us & -> & Ht & _) H rest Hr. change (t_value t = VKeyword KVar) in Ht. pose proof (H rest Hr) as HP. cbn [app] in *.
  wbody. w HS. rewrite Ht. w HS. exact HP.
Qed.

Lemma cond_read {A : Set} c o cs a cl us (k : node -> prg A) Q : pu PParenOpen o -> ME 0 c cs a -> pu PParenClose cl ->
  (forall x, bare x = a -> W (k x) us Q) ->
  W (consume_assert (VPunct PParenOpen);? let? x := pcall (NExpr c) in consume_assert (VPunct PParenClose);? k x) (o :: cs ++ cl :: us) Q.
Proof.
  intros Ho H Hc Hk. tokval. w HS. eapply W_ok; [apply (H (cl :: us)); stp|]. intros x Hx. w HS. now apply Hk.
Qed.

Lemma sem_if nx c t o cs a cl ts b : kw KIf t -> pu PParenOpen o -> ME 0 (with_in true c) cs a -> pu PParenClose cl ->
  PStmt nx c ts b -> (forall u, nx = Some u -> ~ kw KElse u) -> PStmt nx c (t :: o :: cs ++ cl :: ts) (SIf z a b None).
Proof.
  intros Ht Ho H Hc Hb Hn rest Hr. unfold kw in Ht. nrm. wbody. w HS. rewrite Ht. w HS. wbody. w HS. w HS.
  eapply cond_read; [exact Ho|exact H|exact Hc|]. intros x Hx. eapply W_ok; [apply (Hb rest Hr)|]. intros y Hy.
  apply wpt_b_maybe_no.
  - destruct rest as [|u rest]; [reflexivity|]. apply value_is_false. intros E. apply (Hn u); [now destruct Hr as [<- _]|exact E].
  - w HS. w HS. w HS. apply okq_intro. red. cbn. now rewrite Hx, Hy.
Qed.
Lemma sem_if_else nx c t o cs a cl ts b e us d : kw KIf t -> pu PParenOpen o -> ME 0 (with_in true c) cs a -> pu PParenClose cl ->
  PStmt (Some e) c ts b -> kw KElse e -> PStmt nx c us d -> PStmt nx c (t :: o :: cs ++ cl :: ts ++ e :: us) (SIf z a b (Some d)).
Proof.
  intros Ht Ho H Hc Hb He Hd rest Hr. unfold kw in Ht, He. nrm. wbody. w HS. rewrite Ht. w HS. wbody. w HS. w HS.
  eapply cond_read; [exact Ho|exact H|exact Hc|]. intros x Hx. eapply W_ok; [apply (Hb (e :: us ++ rest)); apply fol_cons; oh|]. intros y Hy.
  w HS. w HS. eapply W_ok; [apply (Hd rest Hr)|]. intros d' Hd'. w HS. w HS. apply okq_intro. red. cbn. now rewrite Hx, Hy, Hd'.
Qed.
Lemma sem_while nx c t o cs a cl ts b : kw KWhile t -> pu PParenOpen o -> ME 0 (with_in true c) cs a -> pu PParenClose cl ->
  PStmt nx c ts b -> PStmt nx c (t :: o :: cs ++ cl :: ts) (SWhile z a b).
Proof.
  intros Ht Ho H Hc Hb rest Hr. unfold kw in Ht. nrm. wbody. w HS. rewrite Ht. w HS. wbody. w HS. w HS.
  eapply cond_read; [exact Ho|exact H|exact Hc|]. intros x Hx. eapply W_ok; [apply (Hb rest Hr)|]. intros y Hy.
  w HS. w HS. apply okq_intro. red. cbn. now rewrite Hx, Hy.
Qed.
Lemma sem_with nx c t o cs a cl ts b : kw KWith t -> pu PParenOpen o -> ME 0 c cs a -> pu PParenClose cl ->
  PStmt nx c ts b -> PStmt nx c (t :: o :: cs ++ cl :: ts) (SWith z a b).
Proof.
  intros Ht Ho H Hc Hb rest Hr. unfold kw in Ht. nrm. wbody. w HS. rewrite Ht. w HS. wbody. w HS. w HS.
  eapply cond_read; [exact Ho|exact H|exact Hc|]. intros x Hx. eapply W_ok; [apply (Hb rest Hr)|]. intros y Hy.
  w HS. w HS. apply okq_intro. red. cbn. now rewrite Hx, Hy.
Qed.
Lemma sem_do nx c d ts b w o cs a cl us : kw KDo d -> PStmt (Some w) c ts b -> kw KWhile w -> pu PParenOpen o ->
  ME 0 (with_in true c) cs a -> pu PParenClose cl ->
  ((exists t, us = [t] /\ pu PSemiColon t) \/ (us = [] /\ forall t, nx = Some t -> ~ pu PSemiColon t)) ->
  PStmt nx c (d :: ts ++ w :: o :: cs ++ cl :: us) (SDoWhile z b a).
Proof.
  intros Hd Hb Hw Ho H Hc Hu rest Hr. unfold kw in Hd, Hw. nrm. wbody. w HS. rewrite Hd. w HS. wbody. w HS. w HS.
  eapply W_ok; [apply (Hb (w :: o :: cs ++ cl :: us ++ rest)); apply fol_cons; oh|]. intros y Hy. w HS.
  eapply cond_read; [exact Ho|exact H|exact Hc|]. intros x Hx.
  assert (Hk : W (let? span := span_from (tstart d) in pret (SDoWhile span y x)) rest (okq (isb (SDoWhile z b a)) rest)).
  { w HS. w HS. apply okq_intro. red. cbn. now rewrite Hx, Hy. }
  destruct Hu as [(t & -> & Ht)|[-> Hn]]; cbn [app].
  - unfold pu in Ht. w HS. exact Hk.
  - apply wpt_b_maybe_no; [|exact Hk]. destruct rest as [|u rest]; [reflexivity|]. apply value_is_false. intros E. apply (Hn u); [now destruct Hr as [<- _]|exact E].
Qed.

Lemma not_ended t us : t_value t <> VPunct PSemiColon -> t_value t <> VPunct PBracketClose -> t_fol t = false ->
  (value_is (VPunct PSemiColon) (Some t) || can_end (t :: us))%bool = false.
Proof. intros H1 H2 H3. cbn [can_end]. now rewrite (value_is_false _ _ H1), (value_is_false _ _ H2), H3. Qed.

Ltac jump_none Hr :=
  w HS; rewrite (ends_ended _ _ _ ltac:(eassumption) Hr); cbn [negb]; w HS;
  (eapply (semi_read D st full HS); [eassumption|exact Hr|]); intros ?; w HS; w HS; now apply okq_intro.
Lemma sem_continue nx c t us : kw KContinue t -> ends us nx -> PStmt nx c (t :: us) (SContinue z None).
Proof. intros Ht Hu rest Hr. unfold kw in Ht. cbn [app]. wbody. w HS. rewrite Ht. w HS. wbody. w HS. w HS. jump_none Hr. Qed.
Lemma sem_break nx c t us : kw KBreak t -> ends us nx -> PStmt nx c (t :: us) (SBreak z None).
Proof. intros Ht Hu rest Hr. unfold kw in Ht. cbn [app]. wbody. w HS. rewrite Ht. w HS. wbody. w HS. w HS. jump_none Hr. Qed.
Ltac jump_label Hx Hr :=
  w HS; cbn [hdo hd_error];
  (rewrite not_ended;
     [|intros Ev; apply name_isname in Hx; rewrite Ev in Hx; discriminate Hx
      |intros Ev; apply name_isname in Hx; rewrite Ev in Hx; discriminate Hx|assumption]);
  cbn [negb]; w HS; (eapply W_ok; [eapply (ident_read D st full HS); exact Hx|]); intros i Hi;
  (eapply (semi_read D st full HS); [eassumption|exact Hr|]); intros ?; w HS; w HS; apply okq_intro; red; cbn; now rewrite Hi.
Lemma sem_continue_label nx c t l x us : kw KContinue t -> name c x l -> t_fol l = false -> ends us nx ->
  PStmt nx c (t :: l :: us) (SContinue z (Some (id x))).
Proof. intros Ht Hx Hf Hu rest Hr. unfold kw in Ht. cbn [app]. wbody. w HS. rewrite Ht. w HS. wbody. w HS. w HS. jump_label Hx Hr. Qed.
Lemma sem_break_label nx c t l x us : kw KBreak t -> name c x l -> t_fol l = false -> ends us nx ->
  PStmt nx c (t :: l :: us) (SBreak z (Some (id x))).
Proof. intros Ht Hx Hf Hu rest Hr. unfold kw in Ht. cbn [app]. wbody. w HS. rewrite Ht. w HS. wbody. w HS. w HS. jump_label Hx Hr. Qed.

Lemma sem_return nx c t us : c_return c = true -> kw KReturn t -> ends us nx -> PStmt nx c (t :: us) (SReturn z None).
Proof.
  intros Hc Ht Hu rest Hr. unfold kw in Ht. cbn [app]. wbody. w HS. rewrite Ht. w HS. wbody. w HS. w HS. rewrite Hc. cbn [negb]. jump_none Hr.
Qed.
Lemma fexp_not_end k c t : fexp k c (t_value t) = true -> t_value t <> VPunct PSemiColon /\ t_value t <> VPunct PBracketClose.
Proof. intros H. split; intros E; rewrite E in H; discriminate H. Qed.
Lemma sem_return_value nx c t ts a us : c_return c = true -> kw KReturn t -> starts 0 c ts -> ME 0 (with_in true c) ts a ->
  (forall u, first ts None = Some u -> t_fol u = false) -> ends_expr us nx -> PStmt nx c (t :: ts ++ us) (SReturn z (Some a)).
Proof.
  intros Hc Ht (u & us' & -> & Hu & _) H Hf He rest Hr. pose proof (H (us ++ rest) (ends_stops us nx rest _ He Hr)) as HE.
  unfold kw in Ht. nrm. cbn [app] in HE. specialize (Hf u eq_refl). apply fexp_not_end in Hu. destruct Hu as [Hu1 Hu2].
  wbody. w HS. rewrite Ht. w HS. wbody. w HS. w HS. rewrite Hc. cbn [negb]. w HS. cbn [hdo hd_error]. rewrite not_ended by assumption. cbn [negb]. w HS.
  eapply W_ok; [exact HE|]. intros x Hx.
  eapply (semi_read D st full HS); [apply ends_expr_ends; exact He|exact Hr|]. intros ?. w HS. w HS. apply okq_intro. red. cbn. now rewrite Hx.
Qed.
Lemma sem_throw nx c t ts a us : kw KThrow t -> starts 0 c ts -> ME 0 (with_in true c) ts a ->
  (forall u, first ts None = Some u -> t_fol u = false) -> ends_expr us nx -> PStmt nx c (t :: ts ++ us) (SThrow z a).
Proof.
  intros Ht (u & us' & -> & Hu & _) H Hf He rest Hr. pose proof (H (us ++ rest) (ends_stops us nx rest _ He Hr)) as HE.
  unfold kw in Ht. nrm. cbn [app] in HE. specialize (Hf u eq_refl). apply fexp_not_end in Hu. destruct Hu as [Hu1 Hu2].
  wbody. w HS. rewrite Ht. w HS. wbody. w HS. w HS. w HS. rewrite (value_is_false _ _ Hu1), Hf.
  eapply W_ok; [exact HE|]. intros x Hx.
  eapply (semi_read D st full HS); [apply ends_expr_ends; exact He|exact Hr|]. intros ?. w HS. w HS. apply okq_intro. red. cbn. now rewrite Hx.
Qed.
Lemma sem_debugger nx c t us : kw KDebugger t -> ends us nx -> PStmt nx c (t :: us) (SDebugger z).
Proof.
  intros Ht Hu rest Hr. unfold kw in Ht. cbn [app]. wbody. w HS. rewrite Ht. w HS. wbody. w HS. w HS.
  eapply (semi_read D st full HS); [eassumption|exact Hr|]. intros ?. w HS. w HS. now apply okq_intro.
Qed.
Lemma sem_label nx c l x d ts b : name c x l -> pu PColon d -> PStmt nx c ts b -> PStmt nx c (l :: d :: ts) (SLabeled z (id x) b).
Proof.
  intros Hx Hd Hb rest Hr. pose proof (ident_read D st full HS c x l (d :: ts ++ rest) Hx) as HI. apply name_isname in Hx. tokval. cbn [app].
  assert (HO : W (parse_stmt_other c l) (l :: d :: ts ++ rest) (okq (isb (SLabeled z (id x) b)) rest)).
  { unfold parse_stmt_other. w HS. w HS. rewrite <- isname_ident, Hx. cbn [andb]. w HS. wbody. w HS. eapply W_ok; [exact HI|]. intros i Hi.
    w HS. eapply W_ok; [apply (Hb rest Hr)|]. intros y Hy. w HS. w HS. apply okq_intro. red. cbn. now rewrite Hi, Hy. }
  wbody. w HS. destruct (t_value l) as [[]| |[]| | | |]; try discriminate Hx; exact HO.
Qed.

(** ** try, switch *)

Definition PCatch (c : ctx) (ts : list token) (o : option node) : Prop :=
  (ts = [] /\ o = None) \/
  (exists t us a, ts = t :: us /\ o = Some a /\ t_value t = VKeyword KCatch /\
     forall rest, ord_hd rest -> W (body _ (NCatch c)) (ts ++ rest) (okq (isb a) rest)).
Definition PFinally (c : ctx) (ts : list token) (o : option node) : Prop :=
  (ts = [] /\ o = None) \/ (exists t us a, ts = t :: us /\ o = Some a /\ t_value t = VKeyword KFinally /\ PBlock c us a).
Definition PCases (c : ctx) (ts : list token) (l : list node) : Prop :=
  exists us cl, ts = us ++ [cl] /\ t_value cl = VPunct PBracketClose /\
    forall acc rest, ord_hd rest -> W (body _ (NCaseBlockLoop c acc)) (ts ++ rest) (okq (fun l' => map bare l' = map bare acc ++ l) (cl :: rest)).

Lemma sem_catch c t bs b : kw KCatch t -> head (feq (VPunct PBracketOpen)) bs -> PBlock c bs b -> PCatch c (t :: bs) (Some (CatchClause z None b)).
Proof.
  intros Ht (u & us & -> & Hu) H. right. exists t, (u :: us), (CatchClause z None b). repeat split; [exact Ht|]. intros rest Hrest.
  pose proof (H rest Hrest) as HP. unfold feq in Hu. destruct tvalue_eq_dec as [E|]; [|discriminate]. symmetry in E. unfold kw in Ht. cbn [app] in *.
  wbody. w HS. w HS. w HS. w HS. eapply W_ok; [exact HP|]. intros x Hx. w HS. w HS. apply okq_intro. red. cbn. now rewrite Hx.
Qed.
Lemma sem_catch_param c t o ps p cl bs b : kw KCatch t -> pu PParenOpen o -> PPat c ps p -> pu PParenClose cl ->
  PBlock c bs b -> PCatch c (t :: o :: ps ++ cl :: bs) (Some (CatchClause z (Some p) b)).
Proof.
  intros Ht Ho [_ Hp] Hc H. right. exists t, (o :: ps ++ cl :: bs), (CatchClause z (Some p) b). repeat split; [exact Ht|]. intros rest Hrest.
  tokval. nrm. wbody. w HS. w HS. w HS. w HS. w HS. eapply W_ok; [apply (Hp (cl :: bs ++ rest)); oh|]. intros q Hq. w HS. w HS.
  eapply W_ok; [apply (H rest); oh|]. intros x Hx. w HS. w HS. apply okq_intro. red. cbn. now rewrite Hx, Hq.
Qed.
Lemma sem_finally c t bs b : kw KFinally t -> PBlock c bs b -> PFinally c (t :: bs) (Some b).
Proof. intros Ht H. right. exists t, bs, b. auto. Qed.

Lemma sem_try nx c t bs b hs h fs f : kw KTry t -> PBlock c bs b -> PCatch c hs h -> PFinally c fs f ->
  (h <> None \/ f <> None) -> (forall u, nx = Some u -> ~ kw KCatch u /\ ~ kw KFinally u) ->
  PStmt nx c (t :: bs ++ hs ++ fs) (STry z b h f).
Proof.
  intros Ht Hb Hh Hf Hor Hn rest Hr.
  assert (Ohs : ord_hd hs) by (destruct Hh as [[-> _]|(? & ? & ? & -> & _ & ? & _)]; oh).
  assert (Ofs : ord_hd fs) by (destruct Hf as [[-> _]|(? & ? & ? & -> & _ & ? & _)]; oh).
  unfold kw in Ht. nrm. wbody. w HS. rewrite Ht. w HS. wbody. w HS. w HS.
  eapply W_ok; [apply (Hb (hs ++ fs ++ rest)); oh|]. intros b' Eb.
  assert (N : value_is (VKeyword KCatch) (hdo rest) = false /\ value_is (VKeyword KFinally) (hdo rest) = false).
  { destruct rest as [|u rest]; [auto|]. cbn [hdo hd_error]. destruct (Hn u (eq_sym (proj1 Hr))) as [N1 N2]. split; now apply value_is_false. }
  destruct N as [N1 N2].
  assert (Hk : forall h', option_map bare h' = h ->
    W (let? b := maybe_consume (VKeyword KFinally) in
       let? finalizer := then_try b (pcall (NBlock c)) in
       let? span := span_from (tstart t) in
       if (is_none h' && is_none finalizer)%bool
       then perror (syntax_error "Missing catch or finally after try" span)
       else pret (STry span b' h' finalizer)) (fs ++ rest) (okq (isb (STry z b h f)) rest)).
  { intros h' Eh. destruct Hf as [[-> ->]|(u & us & a & -> & -> & Hu & Hfin)]; cbn [app].
    - apply wpt_b_maybe_no; [exact N2|]. w HS. w HS. destruct h' as [h'|]; [|exfalso; destruct Hor as [Hor|Hor]; apply Hor; [now rewrite <- Eh|reflexivity]].
      change (is_none (Some h') && is_none (@None node))%bool with false. cbv iota. w HS. apply okq_intro. red. cbn in *. now rewrite Eb, Eh.
    - w HS. w HS. eapply W_ok; [apply (Hfin rest); oh|]. intros x Hx. w HS. change (is_none (Some x)) with false. rewrite Bool.andb_false_r. w HS.
      apply okq_intro. red. cbn. now rewrite Eb, Eh, Hx. }
  destruct Hh as [[-> ->]|(u & us & a & -> & -> & Hu & Hcat)]; cbn [app].
  - apply wpt_b_current_matches. replace (value_is (VKeyword KCatch) (hdo (fs ++ rest))) with false.
    + w HS. now apply Hk.
    + symmetry. destruct Hf as [[-> ->]|(u & us & a & -> & -> & Hu & Hfin)]; cbn [app]; [exact N1|]. apply value_is_false. congruence.
  - w HS. w HS. eapply W_ok; [apply (Hcat (fs ++ rest)); oh|]. intros x Hx. apply Hk. cbn. now rewrite Hx.
Qed.

Lemma sem_switch nx c t o es e cl b cs l : kw KSwitch t -> pu PParenOpen o -> ME 0 (with_in true c) es e ->
  pu PParenClose cl -> pu PBracketOpen b -> PCases c cs l -> PStmt nx c (t :: o :: es ++ cl :: b :: cs) (SSwitch z e l).
Proof.
  intros Ht Ho H Hc Hb (us & k & -> & Hk & Hl) rest Hr. unfold kw in Ht. unfold pu in Hb. nrm. wbody. w HS. rewrite Ht. w HS. wbody. w HS. w HS.
  eapply cond_read; [exact Ho|exact H|exact Hc|]. intros x Hx.
  eapply W_ok with (P := fun l' => map bare l' = l) (rest := rest).
  - pose proof (Hl [] rest (fol_ord _ _ Hr)) as HL. nrm. rewrite <- app_assoc in HL. wbody. w HS. eapply W_ok; [exact HL|]. intros l' E. w HS. w HS. now apply okq_intro.
  - intros l' E. w HS. w HS. apply okq_intro. red. cbn. now rewrite Hx, E.
Qed.
Lemma sem_cases_end c t : pu PBracketClose t -> PCases c [t] [].
Proof.
  intros H. exists [], t. split; [reflexivity|]. split; [exact H|]. intros acc rest Hrest. tokval. cbn [app]. wbody. w HS. w HS. apply okq_intro. now rewrite app_nil_r.
Qed.
Lemma case_stmts c ts l us rest : head (fun v => negb (fitem v)) us -> PItems (first us None) c ts l ->
  W (body _ (NCaseStmts c [])) (ts ++ us ++ rest) (okq (fun l' => map bare l' = l) (us ++ rest)).
Proof.
  intros (u & us' & -> & Hu) H. apply (H _ (case_loop D st full c) [] ((u :: us') ++ rest)); [apply fol_cons; unfold ordinary; destruct (t_value u) as [[]| |[]|[]| | |]; first [reflexivity|discriminate Hu]|]. intros l' E. cbn [app].
  wbody. w HS. replace (_ || _ || _)%bool with true; [w HS; now apply okq_intro|]. cbn [rok value_is].
  destruct (t_value u) as [[]| |[]| | | |]; try discriminate Hu; reflexivity.
Qed.
Lemma sem_case c t es e d ts l us m : kw KCase t -> ME 0 (with_in true c) es e -> pu PColon d ->
  head (fun v => negb (fitem v)) us -> PItems (first us None) c ts l -> PCases c us m ->
  PCases c (t :: es ++ d :: ts ++ us) (SwitchCase z (Some e) l :: m).
Proof.
  intros Ht H Hd Hu Hl (vs & cl & E & Hcl & Hm). exists (t :: es ++ d :: ts ++ vs), cl. split; [rewrite E; nrm; reflexivity|].
  split; [exact Hcl|]. intros acc rest Hrest. tokval. nrm. wbody. w HS.
  eapply W_ok with (P := isb (SwitchCase z (Some e) l)) (rest := us ++ rest).
  - wbody. w HS. w HS. w HS. eapply W_ok; [apply (H (d :: ts ++ us ++ rest)); stp|]. intros x Hx. w HS. w HS. w HS.
    eapply W_ok; [apply (case_stmts c ts l us rest Hu Hl)|]. intros l' El. w HS. w HS. apply okq_intro. red. cbn. now rewrite Hx, El.
  - intros x Hx. w HS. eapply wpt_conseq; [apply (Hm (acc ++ [x]) rest Hrest)|]. intros r ts' (-> & l' & -> & El). apply okq_intro.
    rewrite El, map_app, <- app_assoc. cbn. now rewrite Hx.
Qed.
Lemma sem_default c t d ts l us m : kw KDefault t -> pu PColon d ->
  head (fun v => negb (fitem v)) us -> PItems (first us None) c ts l -> PCases c us m ->
  PCases c (t :: d :: ts ++ us) (SwitchCase z None l :: m).
Proof.
  intros Ht Hd Hu Hl (vs & cl & E & Hcl & Hm). exists (t :: d :: ts ++ vs), cl. split; [rewrite E; nrm; reflexivity|].
  split; [exact Hcl|]. intros acc rest Hrest. tokval. nrm. wbody. w HS.
  eapply W_ok with (P := isb (SwitchCase z None l)) (rest := us ++ rest).
  - wbody. w HS. w HS. w HS. w HS. w HS. w HS. w HS.
    eapply W_ok; [apply (case_stmts c ts l us rest Hu Hl)|]. intros l' El. w HS. w HS. apply okq_intro. red. cbn. now rewrite El.
  - intros x Hx. w HS. eapply wpt_conseq; [apply (Hm (acc ++ [x]) rest Hrest)|]. intros r ts' (-> & l' & -> & El). apply okq_intro.
    rewrite El, map_app, <- app_assoc. cbn. now rewrite Hx.
Qed.

End Fwd.
