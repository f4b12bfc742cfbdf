(** * Fwd3: the parser on written expressions: primaries, members, calls, literals. *)

From Verif Require Import Base Tokens PeekReader CharReader Lexer LexSpec Ast Prog TokChain ParseState Parser
  ParseRuns Source Stream AstSpec Layout Bare Written Starts Forward Fwd1 Fwd2.
Local Open Scope string_scope.
Local Open Scope list_scope.
Local Open Scope prog_scope.

Ltac nrm := repeat (progress (cbn [app]; rewrite <- ?app_assoc)).
(** [stops k c (t :: rest)] where the value of [t] is known. *)
Ltac stp := cbn [stops app]; unfold jn;
  match goal with H : t_value ?t = _ |- context [t_value ?t] => rewrite H; lia end.

Section Fwd.
Context {PF : Platform}.
Variable D : str.
Variable st : lexer_state.
Variable full : list token.
Hypothesis HS : setting D st full.

Notation W := (wpt D st full).
Notation P := (P D st full).
Notation PB := (PB D st full).
Notation PM := (PM D st full).
Notation PN := (PN D st full).
Notation PC := (PC D st full).
Notation PL := (PL D st full).
Notation PO := (PO D st full).
Notation ME := (ME D st full).

(** ** Names *)

Lemma usable_allowed c k : usable c k = is_allowed_as_identifier k (keyword_context c).
Proof. exact (isname_ident c (mk_token (VKeyword k) false z)). Qed.

Lemma ident_read c x t rest : name c x t ->
  W (body ident (NIdentifier c)) (t :: rest) (okq (fun i => bare_ident i = id x) rest).
Proof.
  intros H. wbody. w HS. destruct H as [->|(k & -> & Hu & ->)].
  - w HS. now apply okq_intro.
  - rewrite <- usable_allowed, Hu. w HS. now apply okq_intro.
Qed.
Lemma name_read x t rest : anyname x t ->
  W (body ident NIdentifierName) (t :: rest) (okq (fun i => bare_ident i = id x) rest).
Proof.
  intros H. wbody. w HS. destruct H as [->|(k & -> & ->)]; w HS; now apply okq_intro.
Qed.

Lemma isname_default c v : isname c v = true -> isname (ctx_default (c_module c)) v = true.
Proof. destruct v as [k| | | | | |]; try discriminate; [|reflexivity]. destruct k; cbn; auto. Qed.

(** ** Primary expressions *)

Lemma sem_ident c x t : name c x t -> ~ kw KLet t -> ~ kw KAsync t -> ME 19 c [t] (EIdentRef (id x)).
Proof.
  intros H Hl Ha rest _. cbn [app]. change (nt_of 19 c) with (NPrimary c). wbody. w HS.
  assert (E : W (parse_primary_other c) (t :: rest) (okq (isb (EIdentRef (id x))) rest)).
  { unfold parse_primary_other. w HS. rewrite <- isname_ident. rewrite isname_default by now apply name_isname with x.
    unfold parse_identifier_reference. eapply W_ok; [apply (ident_read c x t rest H)|]. intros i Hi. w HS. apply okq_intro. red. cbn. now rewrite Hi. }
  apply name_isname in H. unfold kw in *.
  destruct (t_value t) as [[]| |[]| | | |]; try discriminate H; try exact E; congruence.
Qed.

Lemma sem_this c t : kw KThis t -> ME 19 c [t] (EThis z).
Proof.
  intros H rest _. cbn [app]. change (nt_of 19 c) with (NPrimary c). wbody. w HS. rewrite H. unfold parse_this_expr. w HS. w HS.
  now apply okq_intro.
Qed.

Lemma sem_const c t k l : kw k t -> (k = KNull /\ l = LitNull \/ k = KTrue /\ l = LitBoolean true \/ k = KFalse /\ l = LitBoolean false) ->
  ME 19 c [t] (ELiteral z l).
Proof.
  intros H Hk rest _. cbn [app]. change (nt_of 19 c) with (NPrimary c). wbody. w HS. rewrite H.
  destruct Hk as [[-> ->]|[[-> ->]|[-> ->]]]; unfold consume_literal; w HS; w HS; now apply okq_intro.
Qed.

Lemma sem_literal c t l a : t_value t = VLiteral l -> bare (literal_node l) = a -> ME 19 c [t] (ELiteral z a).
Proof.
  intros H <- rest _. cbn [app]. change (nt_of 19 c) with (NPrimary c). wbody. w HS. rewrite H. unfold parse_literal. w HS.
  rewrite H. w HS. now apply okq_intro.
Qed.

Lemma sem_string c t s : str_tok s t -> ME 19 c [t] (ELiteral z (LitString s)).
Proof. intros H. eapply sem_literal; [exact H|]. now destruct s. Qed.

Lemma paren_read c o ts cl a rest : pu PParenOpen o -> ME 0 (with_in true c) ts a -> pu PParenClose cl ->
  W (body node (NParenthesized c)) (o :: ts ++ cl :: rest) (okq (isb (EParenthesized z a)) rest).
Proof.
  intros Ho H Hc. tokval. wbody. w HS. w HS. change (NExpr (with_in true c)) with (nt_of 0 (with_in true c)).
  eapply W_ok; [apply H; stp|]. intros x Hx. w HS. w HS. w HS. apply okq_intro. red. cbn. now rewrite Hx.
Qed.

Lemma sem_paren c o ts cl a : pu PParenOpen o -> starts 0 (with_in true c) ts -> ME 0 (with_in true c) ts a -> pu PParenClose cl ->
  ME 19 c (o :: ts ++ [cl]) (EParenthesized z a).
Proof.
  intros Ho (u & us & -> & Hu & _) H Hc rest Hs. pose proof (paren_read c o (u :: us) cl a rest Ho H Hc) as HP.
  tokval. nrm. change (nt_of 19 c) with (NPrimary c). wbody. w HS. rewrite Ho. w HS. wbody. w HS. w HS.
  eapply wpt_b_ok_try; [exact HP|]. intros x Hx. w HS. w HS. apply okq_intro. exact Hx.
Qed.

(** ** Arguments *)

Definition PArgs (c : ctx) (ts : list token) (l : list node) : Prop :=
  forall acc rest, W (body _ (NArgumentsLoop c acc)) (ts ++ rest) (okq (fun l' => map bare l' = map bare acc ++ l) rest).
Definition PArg (c : ctx) (ts : list token) (a : node) : Prop :=
  forall rest, stops 1 c rest -> W (body _ (NArgument c)) (ts ++ rest) (okq (isb a) rest).

Lemma sem_args_end c t : pu PParenClose t -> PArgs c [t] [].
Proof.
  intros H acc rest. tokval. wbody. cbn [app]. w HS. w HS. apply okq_intro. now rewrite app_nil_r.
Qed.

Lemma sem_args_last c ts a t : head (felem (with_in true c)) ts -> PArg (with_in true c) ts a -> pu PParenClose t ->
  PArgs c (ts ++ [t]) [a].
Proof.
  intros (u & us & -> & Hu) H Ht acc rest. tokval. nrm. wbody. w HS.
  eapply W_ok; [apply (H (t :: rest)); stp|]. intros x Hx. apply wpt_b_delim_close; [exact Ht|discriminate|].
  w HS. pose proof (sem_args_end c t Ht (acc ++ [x]) rest) as E. eapply wpt_conseq; [exact E|].
  intros r ts' (-> & l' & -> & Hl). apply okq_intro. rewrite Hl, map_app, app_nil_r. cbn. now rewrite Hx.
Qed.

Lemma sem_args_more c ts a t us l : head (felem (with_in true c)) ts -> PArg (with_in true c) ts a -> pu PComma t ->
  PArgs c us l -> PArgs c (ts ++ t :: us) (a :: l).
Proof.
  intros (u & vs & -> & Hu) H Ht Hl acc rest. tokval. nrm. wbody. w HS.
  eapply W_ok; [apply (H (t :: us ++ rest)); stp|]. intros x Hx. eapply wpt_b_delim_comma; [exact HS|exact Ht|].
  w HS. eapply wpt_conseq; [apply (Hl (acc ++ [x]))|].
  intros r ts' (-> & l' & -> & E). apply okq_intro. rewrite E, map_app, <- app_assoc. cbn. now rewrite Hx.
Qed.

Lemma sem_arg c ts a : starts 1 c ts -> ME 1 c ts a -> PArg c ts (ArgExpr a).
Proof.
  intros (u & us & -> & Hu & _) H rest Hs. cbn [app]. wbody. w HS. change (NAssignment c) with (nt_of 1 c).
  eapply W_ok; [apply (H rest Hs)|]. intros x Hx. w HS. apply okq_intro. red. cbn. now rewrite Hx.
Qed.
Lemma sem_arg_spread c d ts a : pu PTripleDot d -> ME 1 c ts a -> PArg c (d :: ts) (ArgSpread a).
Proof.
  intros Hd H rest Hs. tokval. cbn [app]. wbody. w HS. change (NAssignment c) with (nt_of 1 c).
  eapply W_ok; [apply (H rest Hs)|]. intros x Hx. w HS. apply okq_intro. red. cbn. now rewrite Hx.
Qed.

Lemma arguments_read c o ts l rest : pu PParenOpen o -> PArgs c ts l ->
  W (body _ (NArguments c)) (o :: ts ++ rest) (okq (fun p => map bare (snd p) = l) rest).
Proof.
  intros Ho H. tokval. wbody. w HS. w HS. eapply W_ok; [apply (H [] rest)|]. intros x Hx. w HS. w HS.
  apply okq_intro. exact Hx.
Qed.

(** ** Members *)

Lemma index_read c ts e rest o cl : pu PBraceOpen o -> ME 0 c ts e -> pu PBraceClose cl ->
  W (body _ (NComputedProperty c)) (o :: ts ++ cl :: rest) (okq (isb e) rest).
Proof.
  intros Ho H Hc. tokval. wbody. w HS. change (NExpr c) with (nt_of 0 c). eapply W_ok; [apply H; stp|].
  intros x Hx. w HS. w HS. now apply okq_intro.
Qed.

Lemma dot_read c start left a d t x rest : bare left = a -> pu PDot d -> anyname x t ->
  W (body _ (NMemberRight c start left)) (d :: t :: rest) (okq (isb (EMember z a (PropIdent (id x)))) rest).
Proof.
  intros Ha Hd Ht. tokval. wbody. eapply W_ok with (P := isb (PropIdent (id x))) (rest := rest).
  - wbody. w HS. rewrite Hd. w HS. eapply W_ok; [apply (name_read x t rest Ht)|]. intros i Hi. w HS. apply okq_intro. red. cbn. now rewrite Hi.
  - intros p Hp. w HS. w HS. apply okq_intro. red. cbn. now rewrite Ha, Hp.
Qed.
Lemma bracket_read c start left a o ts e cl rest : bare left = a -> pu PBraceOpen o -> ME 0 (with_in true c) ts e ->
  pu PBraceClose cl ->
  W (body _ (NMemberRight c start left)) (o :: ts ++ cl :: rest) (okq (isb (EMember z a (PropExpr e))) rest).
Proof.
  intros Ha Ho H Hc. tokval. wbody. eapply W_ok with (P := isb (PropExpr e)) (rest := rest).
  - wbody. w HS. rewrite Ho. eapply W_ok; [eapply index_read; eassumption|]. intros i Hi. w HS. apply okq_intro. red. cbn. now rewrite Hi.
  - intros p Hp. w HS. w HS. apply okq_intro. red. cbn. now rewrite Ha, Hp.
Qed.
Lemma tagged_read c start left a t s rest : bare left = a -> t_value t = VLiteral (TLTemplate s) ->
  W (body _ (NTaggedTemplate c start left)) (t :: rest) (okq (isb (ETaggedTemplate z a (LitTemplate [TplString s]))) rest).
Proof.
  intros Ha Ht. wbody. eapply W_ok with (P := isb (LitTemplate [TplString s])) (rest := rest).
  - wbody. w HS. rewrite Ht. w HS. rewrite Ht. w HS. now apply okq_intro.
  - intros p Hp. w HS. w HS. apply okq_intro. red. cbn. now rewrite Ha, Hp.
Qed.

Lemma sem_dot c ts a d t x : ME 18 c ts a -> pu PDot d -> anyname x t ->
  ME 18 c (ts ++ [d; t]) (EMember z a (PropIdent (id x))).
Proof.
  intros H Hd Ht rest Q Hs Hc. pose proof Hd as Hd'. tokval. nrm. apply H; [stp|]. intros start e He. wbody. w HS. rewrite Hd.
  eapply W_ok; [now apply dot_read with (a := a) (x := x)|]. intros y Hy. w HS. now apply Hc.
Qed.
Lemma sem_index c ts a o es e cl : ME 18 c ts a -> pu PBraceOpen o -> ME 0 (with_in true c) es e -> pu PBraceClose cl ->
  ME 18 c (ts ++ o :: es ++ [cl]) (EMember z a (PropExpr e)).
Proof.
  intros H Ho He Hcl rest Q Hs Hc. pose proof Ho as Ho'. tokval. nrm. apply H; [stp|]. intros start x Hx. wbody. w HS. rewrite Ho.
  eapply W_ok; [now apply bracket_read with (a := a) (e := e)|]. intros y Hy. w HS. now apply Hc.
Qed.
Lemma sem_tagged c ts a t s : ME 18 c ts a -> t_value t = VLiteral (TLTemplate s) ->
  ME 18 c (ts ++ [t]) (ETaggedTemplate z a (LitTemplate [TplString s])).
Proof.
  intros H Ht rest Q Hs Hc. nrm. apply H; [stp|]. intros start x Hx. wbody. w HS. rewrite Ht.
  eapply W_ok; [now apply tagged_read with (a := a) (s := s)|]. intros y Hy. w HS. now apply Hc.
Qed.

(** From the first part of a member expression. *)
Lemma PM_terminal c ts a : (exists t ts', ts = t :: ts') ->
  (forall rest, stops 19 c rest -> W (body node (NMemberTerminal c)) (ts ++ rest) (okq (isb a) rest)) -> PM c ts a.
Proof.
  intros (t & ts' & ->) H rest Q Hs Hc. wbody. cbn [app]. w HS. eapply W_ok; [apply (H rest Hs)|].
  intros x Hx. w HS. now apply Hc.
Qed.

Lemma sem_new_args c n ts a o bs l : kw KNew n -> starts 18 c ts -> ME 18 c ts a -> pu PParenOpen o -> PArgs c bs l ->
  ME 18 c (n :: ts ++ o :: bs) (ENew z a (Some z) l).
Proof.
  intros Hn (u & us & -> & Hu & _) H Ho Hl. apply PM_terminal; [eauto|]. intros rest Hs.
  pose proof (arguments_read c o bs l rest Ho Hl) as HA. tokval. nrm.
  wbody. w HS. w HS. rewrite Hn. w HS. wbody. w HS. w HS.
  eapply W_ok; [apply (PM_read D st full c (u :: us) a (o :: bs ++ rest) H); stp|]. intros x Hx.
  eapply W_ok with (P := fun p => is_some (fst p) = true /\ map bare (snd p) = l) (rest := rest).
  - wbody. w HS. eapply W_ok; [exact HA|]. intros [sp args] Hy. w HS. apply okq_intro. auto.
  - intros [sp args] [Hy1 Hy2]. w HS. w HS. apply okq_intro. red. cbn. cbn in Hy2. rewrite Hx, Hy2.
    destruct sp; [reflexivity|discriminate].
Qed.

Lemma sem_super_dot c s d t x : c_in_method c = true -> kw KSuper s -> pu PDot d -> anyname x t ->
  ME 18 c [s; d; t] (EMember z (ObjSuper z) (PropIdent (id x))).
Proof.
  intros Hm Hsu Hd Ht. apply PM_terminal; [eauto|]. intros rest Hs. pose proof Hd as Hd'. tokval. nrm.
  wbody. w HS. w HS. rewrite Hsu. w HS. wbody. w HS. w HS. w HS. w HS. rewrite Hm. cbn [negb orb]. w HS.
  now apply dot_read.
Qed.
Lemma sem_super_index c s o es e cl : c_in_method c = true -> kw KSuper s -> pu PBraceOpen o ->
  ME 0 (with_in true c) es e -> pu PBraceClose cl ->
  ME 18 c (s :: o :: es ++ [cl]) (EMember z (ObjSuper z) (PropExpr e)).
Proof.
  intros Hm Hsu Ho H Hc. apply PM_terminal; [eauto|]. intros rest Hs. pose proof Ho as Ho'. tokval. nrm.
  wbody. w HS. w HS. rewrite Hsu. w HS. wbody. w HS. w HS. w HS. w HS. rewrite Hm. cbn [negb orb]. w HS.
  now apply bracket_read.
Qed.
Lemma sem_new_target c n d t : kw KNew n -> pu PDot d -> kw KTarget t ->
  ME 18 c [n; d; t] (EMetaProperty z (id (chars "new")) (id (chars "target"))).
Proof.
  intros Hn Hd Ht. apply PM_terminal; [eauto|]. intros rest Hs.
  assert (Hid : name c (chars "target") t) by (right; exists KTarget; auto).
  tokval. nrm. wbody. w HS. w HS. rewrite Hn. w HS. wbody. w HS. w HS. w HS.
  eapply W_ok; [now apply ident_read with (x := chars "target")|]. intros i Hi.
  assert (E : id_name i = chars "target") by now injection Hi. rewrite E. change (str_eqb (chars "target") (chars "target")) with true. cbn [negb].
  w HS. w HS. apply okq_intro. red. cbn. now rewrite Hi.
Qed.
Lemma sem_import_meta c n d t : kw KImport n -> pu PDot d -> t_value t = VIdentifier (chars "meta") ->
  ME 18 c [n; d; t] (EMetaProperty z (id (chars "import")) (id (chars "meta"))).
Proof.
  intros Hn Hd Ht. apply PM_terminal; [eauto|]. intros rest Hs.
  assert (Hid : name c (chars "meta") t) by now left.
  tokval. nrm. wbody. w HS. w HS. rewrite Hn. w HS. wbody. w HS. w HS. w HS.
  eapply W_ok; [now apply ident_read with (x := chars "meta")|]. intros i Hi.
  assert (E : id_name i = chars "meta") by now injection Hi. rewrite E. change (str_eqb (chars "meta") (chars "meta")) with true. cbn [negb].
  w HS. w HS. apply okq_intro. red. cbn. now rewrite Hi.
Qed.

Lemma sem_new c n ts a : kw KNew n -> starts 18 c ts -> PN c ts a -> PN c (n :: ts) (ENew z a None []).
Proof.
  intros Hn (u & us & -> & Hu & _) H rest Hs. tokval. nrm. wbody. w HS.
  eapply W_ok with (P := isb (ENew z a None [])) (rest := rest).
  - wbody. w HS. w HS. rewrite Hn. w HS. wbody. w HS. w HS.
    eapply W_ok; [apply (H rest Hs)|]. intros x Hx.
    eapply W_ok with (P := fun p => p = (None, [])) (rest := rest).
    + wbody. w HS. w HS. now apply okq_intro.
    + intros p ->. w HS. w HS. apply okq_intro. red. cbn. now rewrite Hx.
  - intros x Hx. red in Hx. rewrite <- Hx. w HS. apply member_exit. eapply stops_le; [|exact Hs]; lia.
Qed.

(** ** Calls *)

Lemma callee_read c start e a o bs l rest : bare e = a -> pu PParenOpen o -> PArgs c bs l ->
  W (body _ (NCallExpr c start e)) (o :: bs ++ rest) (okq (isb (ECall z a z l)) rest).
Proof.
  intros Ha Ho Hl. wbody. eapply W_ok; [now apply arguments_read|]. intros [sp args] Hy. w HS. w HS. apply okq_intro.
  red. cbn. cbn in Hy. now rewrite Ha, Hy.
Qed.

Lemma sem_call c ts a o bs l : ME 18 c ts a -> pu PParenOpen o -> PArgs c bs l -> PC c (ts ++ o :: bs) (ECall z a z l).
Proof.
  intros H Ho Hl start rest Q Hs Hc. pose proof Ho as Ho'. tokval. nrm.
  eapply W_ok; [apply (PM_read D st full c ts a (o :: bs ++ rest) H); stp|]. intros x Hx. w HS. wbody. w HS. rewrite Ho.
  eapply W_ok; [now apply callee_read with (a := a) (l := l)|]. intros y Hy. w HS. now apply Hc.
Qed.
Lemma sem_call_call c ts a o bs l : PC c ts a -> pu PParenOpen o -> PArgs c bs l -> PC c (ts ++ o :: bs) (ECall z a z l).
Proof.
  intros H Ho Hl start rest Q Hs Hc. pose proof Ho as Ho'. tokval. nrm. apply H; [stp|]. intros e He. wbody. w HS. rewrite Ho.
  eapply W_ok; [now apply callee_read with (a := a) (l := l)|]. intros y Hy. w HS. now apply Hc.
Qed.
Lemma sem_call_dot c ts a d t x : PC c ts a -> pu PDot d -> anyname x t -> PC c (ts ++ [d; t]) (EMember z a (PropIdent (id x))).
Proof.
  intros H Hd Ht start rest Q Hs Hc. pose proof Hd as Hd'. tokval. nrm. apply H; [stp|]. intros e He. wbody. w HS. rewrite Hd.
  eapply W_ok; [now apply dot_read with (a := a) (x := x)|]. intros y Hy. w HS. now apply Hc.
Qed.
Lemma sem_call_index c ts a o es e cl : PC c ts a -> pu PBraceOpen o -> ME 0 (with_in true c) es e -> pu PBraceClose cl ->
  PC c (ts ++ o :: es ++ [cl]) (EMember z a (PropExpr e)).
Proof.
  intros H Ho He Hcl start rest Q Hs Hc. pose proof Ho as Ho'. tokval. nrm. apply H; [stp|]. intros x Hx. wbody. w HS. rewrite Ho.
  eapply W_ok; [now apply bracket_read with (a := a) (e := e)|]. intros y Hy. w HS. now apply Hc.
Qed.
Lemma sem_call_tagged c ts a t s : PC c ts a -> t_value t = VLiteral (TLTemplate s) ->
  PC c (ts ++ [t]) (ETaggedTemplate z a (LitTemplate [TplString s])).
Proof.
  intros H Ht start rest Q Hs Hc. nrm. apply H; [stp|]. intros x Hx. wbody. w HS. rewrite Ht.
  eapply W_ok; [now apply tagged_read with (a := a) (s := s)|]. intros y Hy. w HS. now apply Hc.
Qed.

Lemma sem_super_call c s o bs l : c_super_call c = true -> kw KSuper s -> pu PParenOpen o -> PArgs c bs l ->
  ME 17 c (s :: o :: bs) (ECall z CalleeSuper z l).
Proof.
  intros Hc Hsu Ho Hl rest Q Hs Hk. pose proof (arguments_read c o bs l rest Ho Hl) as HA. tokval. nrm. wbody.
  w HS. w HS. w HS. cbn [rok]. vis.
  eapply W_ok with (P := isb (ECall z CalleeSuper z l)) (rest := rest).
  - wbody. w HS. w HS. eapply W_ok; [exact HA|]. intros [sp args] Hy. w HS. rewrite Hc. cbn [negb]. w HS. apply okq_intro.
    red. cbn. cbn in Hy. now rewrite Hy.
  - intros x Hx. now apply Hk.
Qed.
Lemma sem_import_call c s o es e cl : kw KImport s -> pu PParenOpen o -> ME 1 c es e -> pu PParenClose cl ->
  ME 17 c (s :: o :: es ++ [cl]) (ECall z CalleeImport z [ArgExpr e]).
Proof.
  intros Hi Ho He Hcl rest Q Hs Hk. tokval. nrm. wbody.
  w HS. w HS. w HS. cbn [rok]. vis.
  eapply W_ok with (P := isb (ECall z CalleeImport z [ArgExpr e])) (rest := rest).
  - wbody. w HS. w HS. eapply W_ok with (P := fun p => map bare (snd p) = [ArgExpr e]) (rest := rest).
    + wbody. w HS. w HS. change (NAssignment c) with (nt_of 1 c). eapply W_ok; [apply He; stp|]. intros x Hx. w HS. w HS. w HS.
      apply okq_intro. cbn. now rewrite Hx.
    + intros [sp args] Hy. w HS. w HS. apply okq_intro. red. cbn. cbn in Hy. now rewrite Hy.
  - intros x Hx. now apply Hk.
Qed.

(** ** Optional chains *)

(** One more link: after [e], at [t]. *)
Lemma opt_call_link c start e a o p bs l rest Q : bare e = a -> t_value o = VPunct PQuestionMarkDot -> pu PParenOpen p ->
  PArgs c bs l ->
  (forall e', bare e' = EOptionalCall z a z l true -> W (body _ (NOptionalExpr c start e')) rest Q) ->
  W (body _ (NOptionalExpr c start e)) (o :: p :: bs ++ rest) Q.
Proof.
  intros Ha Ho Hp Hl Hk. pose proof (arguments_read c p bs l rest Hp Hl) as HA. tokval. wbody. w HS. rewrite Ho. w HS.
  eapply W_ok with (P := isb (EOptionalCall z a z l true)) (rest := rest).
  - wbody. w HS. eapply W_ok; [exact HA|]. intros [sp args] Hy. w HS. w HS. apply okq_intro. red. cbn. cbn in Hy. now rewrite Ha, Hy.
  - intros x Hx. w HS. now apply Hk.
Qed.
Lemma plain_call_link c start e a p bs l rest Q : bare e = a -> pu PParenOpen p ->
  PArgs c bs l ->
  (forall e', bare e' = EOptionalCall z a z l false -> W (body _ (NOptionalExpr c start e')) rest Q) ->
  W (body _ (NOptionalExpr c start e)) (p :: bs ++ rest) Q.
Proof.
  intros Ha Hp Hl Hk. pose proof (arguments_read c p bs l rest Hp Hl) as HA. tokval. wbody. w HS. rewrite Hp.
  eapply W_ok with (P := isb (EOptionalCall z a z l false)) (rest := rest).
  - wbody. w HS. eapply W_ok; [exact HA|]. intros [sp args] Hy. w HS. w HS. apply okq_intro. red. cbn. cbn in Hy. now rewrite Ha, Hy.
  - intros x Hx. w HS. now apply Hk.
Qed.
Lemma opt_dot_link c start e a o t x rest Q : bare e = a -> t_value o = VPunct PQuestionMarkDot -> name c x t ->
  (forall e', bare e' = EOptionalMember z a (PropIdent (id x)) true -> W (body _ (NOptionalExpr c start e')) rest Q) ->
  W (body _ (NOptionalExpr c start e)) (o :: t :: rest) Q.
Proof.
  intros Ha Ho Ht Hk. pose proof (ident_read c x t rest Ht) as HA. apply name_isname in Ht. wbody. w HS. rewrite Ho.
  w HS. w HS. eapply wpt_b_ofres.
  { unfold validate_no_template_in_optional_chain. destruct (t_value t); try discriminate Ht; reflexivity. }
  eapply W_ok with (P := isb (EOptionalMember z a (PropIdent (id x)) true)) (rest := rest).
  - wbody. w HS. eapply W_ok with (P := isb (PropIdent (id x))) (rest := rest).
    + wbody. w HS. rewrite Ho. w HS. w HS. eapply W_ok; [exact HA|]. intros i Hi. w HS. apply okq_intro. red. cbn. now rewrite Hi.
    + intros y Hy. w HS. w HS. apply okq_intro. red. cbn. now rewrite Ha, Hy.
  - intros y Hy. w HS. now apply Hk.
Qed.
Lemma plain_dot_link c start e a o t x rest Q : bare e = a -> t_value o = VPunct PDot -> name c x t ->
  (forall e', bare e' = EOptionalMember z a (PropIdent (id x)) false -> W (body _ (NOptionalExpr c start e')) rest Q) ->
  W (body _ (NOptionalExpr c start e)) (o :: t :: rest) Q.
Proof.
  intros Ha Ho Ht Hk. pose proof (ident_read c x t rest Ht) as HA. wbody. w HS. rewrite Ho.
  eapply W_ok with (P := isb (EOptionalMember z a (PropIdent (id x)) false)) (rest := rest).
  - wbody. w HS. eapply W_ok with (P := isb (PropIdent (id x))) (rest := rest).
    + wbody. w HS. rewrite Ho. w HS. eapply W_ok; [exact HA|]. intros i Hi. w HS. apply okq_intro. red. cbn. now rewrite Hi.
    + intros y Hy. w HS. w HS. apply okq_intro. red. cbn. now rewrite Ha, Hy.
  - intros y Hy. w HS. now apply Hk.
Qed.
Lemma opt_index_link c start e a o b es i cl rest Q : bare e = a -> t_value o = VPunct PQuestionMarkDot -> pu PBraceOpen b ->
  ME 0 c es i -> pu PBraceClose cl ->
  (forall e', bare e' = EOptionalMember z a (PropExpr i) true -> W (body _ (NOptionalExpr c start e')) rest Q) ->
  W (body _ (NOptionalExpr c start e)) (o :: b :: es ++ cl :: rest) Q.
Proof.
  intros Ha Ho Hb Hi Hcl Hk. pose proof (index_read c es i rest b cl Hb Hi Hcl) as HA. tokval. wbody. w HS. rewrite Ho.
  w HS. w HS. eapply wpt_b_ofres.
  { unfold validate_no_template_in_optional_chain. rewrite Hb. reflexivity. }
  eapply W_ok with (P := isb (EOptionalMember z a (PropExpr i) true)) (rest := rest).
  - wbody. w HS. eapply W_ok with (P := isb (PropExpr i)) (rest := rest).
    + wbody. w HS. rewrite Ho. w HS. w HS. eapply W_ok; [exact HA|]. intros y Hy. w HS. apply okq_intro. red. cbn. now rewrite Hy.
    + intros y Hy. w HS. w HS. apply okq_intro. red. cbn. now rewrite Ha, Hy.
  - intros y Hy. w HS. now apply Hk.
Qed.
Lemma plain_index_link c start e a b es i cl rest Q : bare e = a -> pu PBraceOpen b ->
  ME 0 c es i -> pu PBraceClose cl ->
  (forall e', bare e' = EOptionalMember z a (PropExpr i) false -> W (body _ (NOptionalExpr c start e')) rest Q) ->
  W (body _ (NOptionalExpr c start e)) (b :: es ++ cl :: rest) Q.
Proof.
  intros Ha Hb Hi Hcl Hk. pose proof (index_read c es i rest b cl Hb Hi Hcl) as HA. tokval. wbody. w HS. rewrite Hb.
  eapply W_ok with (P := isb (EOptionalMember z a (PropExpr i) false)) (rest := rest).
  - wbody. w HS. eapply W_ok with (P := isb (PropExpr i)) (rest := rest).
    + wbody. w HS. rewrite Hb. eapply W_ok; [exact HA|]. intros y Hy. w HS. apply okq_intro. red. cbn. now rewrite Hy.
    + intros y Hy. w HS. w HS. apply okq_intro. red. cbn. now rewrite Ha, Hy.
  - intros y Hy. w HS. now apply Hk.
Qed.

(** The first link. *)
Lemma opt_enter c ts a o us Q : ME 17 c ts a -> double_new a = false -> t_value o = VPunct PQuestionMarkDot ->
  (forall start e, bare e = a -> W (body _ (NOptionalExpr c start e)) (o :: us) Q) ->
  W (body node (NLeftHandSide c)) (ts ++ o :: us) Q.
Proof.
  intros H Hd Ho Hk. apply H; [stp|]. intros start e He. unfold lhs_tail. w HS. rewrite nested_bare, He, Hd. w HS. now apply Hk.
Qed.

Lemma sem_opt_start_call c ts a o p bs l : ME 17 c ts a -> double_new a = false ->
  pu PQuestionMarkDot o -> pu PParenOpen p -> PArgs c bs l -> PO c (ts ++ o :: p :: bs) (EOptionalCall z a z l true).
Proof.
  intros H Hd Ho Hp Hl rest Q Hk. tokval. nrm. apply (opt_enter c ts a); auto. intros start e He.
  apply opt_call_link with (a := a) (l := l); auto.
Qed.
Lemma sem_opt_start_dot c ts a o t x : ME 17 c ts a -> double_new a = false ->
  pu PQuestionMarkDot o -> name c x t -> PO c (ts ++ [o; t]) (EOptionalMember z a (PropIdent (id x)) true).
Proof.
  intros H Hd Ho Ht rest Q Hk. tokval. nrm. apply (opt_enter c ts a); auto. intros start e He.
  apply opt_dot_link with (a := a) (x := x); auto.
Qed.
Lemma sem_opt_start_index c ts a o b es e cl : ME 17 c ts a -> double_new a = false ->
  pu PQuestionMarkDot o -> pu PBraceOpen b -> ME 0 c es e -> pu PBraceClose cl ->
  PO c (ts ++ o :: b :: es ++ [cl]) (EOptionalMember z a (PropExpr e) true).
Proof.
  intros H Hd Ho Hb He Hcl rest Q Hk. tokval. nrm. apply (opt_enter c ts a); auto. intros start x Hx.
  apply opt_index_link with (a := a) (i := e); auto.
Qed.
Lemma sem_opt_opt_call c ts a o p bs l : PO c ts a -> pu PQuestionMarkDot o -> pu PParenOpen p -> PArgs c bs l ->
  PO c (ts ++ o :: p :: bs) (EOptionalCall z a z l true).
Proof.
  intros H Ho Hp Hl rest Q Hk. tokval. nrm. apply H. intros start e He. apply opt_call_link with (a := a) (l := l); auto.
Qed.
Lemma sem_opt_opt_dot c ts a o t x : PO c ts a -> pu PQuestionMarkDot o -> name c x t ->
  PO c (ts ++ [o; t]) (EOptionalMember z a (PropIdent (id x)) true).
Proof.
  intros H Ho Ht rest Q Hk. tokval. nrm. apply H. intros start e He. apply opt_dot_link with (a := a) (x := x); auto.
Qed.
Lemma sem_opt_opt_index c ts a o b es e cl : PO c ts a -> pu PQuestionMarkDot o -> pu PBraceOpen b -> ME 0 c es e ->
  pu PBraceClose cl -> PO c (ts ++ o :: b :: es ++ [cl]) (EOptionalMember z a (PropExpr e) true).
Proof.
  intros H Ho Hb He Hcl rest Q Hk. tokval. nrm. apply H. intros start x Hx. apply opt_index_link with (a := a) (i := e); auto.
Qed.
Lemma sem_opt_call c ts a o bs l : PO c ts a -> pu PParenOpen o -> PArgs c bs l ->
  PO c (ts ++ o :: bs) (EOptionalCall z a z l false).
Proof.
  intros H Ho Hl rest Q Hk. nrm. apply H. intros start e He. apply plain_call_link with (a := a) (l := l); auto.
Qed.
Lemma sem_opt_dot c ts a d t x : PO c ts a -> pu PDot d -> name c x t ->
  PO c (ts ++ [d; t]) (EOptionalMember z a (PropIdent (id x)) false).
Proof.
  intros H Ho Ht rest Q Hk. nrm. apply H. intros start e He. apply plain_dot_link with (a := a) (x := x); auto.
Qed.
Lemma sem_opt_index c ts a o es e cl : PO c ts a -> pu PBraceOpen o -> ME 0 c es e -> pu PBraceClose cl ->
  PO c (ts ++ o :: es ++ [cl]) (EOptionalMember z a (PropExpr e) false).
Proof.
  intros H Ho He Hcl rest Q Hk. nrm. apply H. intros start x Hx. apply plain_index_link with (a := a) (i := e); auto.
Qed.

(** ** Arrays *)

Definition PElems (c : ctx) (ts : list token) (l : list node) : Prop :=
  forall acc rest, W (body _ (NArrayLoop c acc)) (ts ++ rest) (okq (fun l' => map bare l' = map bare acc ++ l) rest).
Definition PElem (c : ctx) (ts : list token) (a : node) : Prop :=
  is_elision a = false /\ forall rest, stops 1 c rest -> W (body _ (NArrayElement c)) (ts ++ rest) (okq (isb a) rest).

Lemma elision_bare e : is_elision (bare e) = is_elision e.
Proof. now destruct e. Qed.

Lemma sem_elem c ts a : starts 1 c ts -> ME 1 c ts a -> PElem c ts (ElemExpr a).
Proof.
  intros (u & us & -> & Hu & _) H. split; [reflexivity|]. intros rest Hs. cbn [app]. wbody. w HS.
  assert (E : W (let? e := pcall (NAssignment c) in pret (ElemExpr e)) (u :: us ++ rest) (okq (isb (ElemExpr a)) rest)).
  { change (NAssignment c) with (nt_of 1 c). eapply W_ok; [apply (H rest Hs)|]. intros x Hx. w HS. apply okq_intro. red. cbn. now rewrite Hx. }
  destruct (t_value u) as [| |[]| | | |]; try discriminate Hu; exact E.
Qed.
Lemma sem_elem_spread c d ts a : pu PTripleDot d -> ME 1 c ts a -> PElem c (d :: ts) (ElemSpread a).
Proof.
  intros Hd H. split; [reflexivity|]. intros rest Hs. tokval. cbn [app]. wbody. w HS. rewrite Hd. w HS.
  change (NAssignment c) with (nt_of 1 c). eapply W_ok; [apply (H rest Hs)|]. intros x Hx. w HS. apply okq_intro. red. cbn. now rewrite Hx.
Qed.
Lemma sem_elems_end c t : pu PBraceClose t -> PElems c [t] [].
Proof. intros H acc rest. tokval. wbody. cbn [app]. w HS. w HS. apply okq_intro. now rewrite app_nil_r. Qed.
Lemma sem_elems_hole c t ts l : pu PComma t -> PElems c ts l -> PElems c (t :: ts) (ElemElision :: l).
Proof.
  intros H Hl acc rest. tokval. cbn [app]. wbody. w HS. eapply W_ok with (P := fun e => e = ElemElision) (rest := ts ++ rest).
  - wbody. w HS. rewrite H. w HS. w HS. now apply okq_intro.
  - intros x ->. cbn [is_elision]. w HS. w HS. eapply wpt_conseq; [apply (Hl (acc ++ [ElemElision]))|].
    intros r ts' (-> & l' & -> & E). apply okq_intro. rewrite E, map_app, <- app_assoc. reflexivity.
Qed.
Lemma sem_elems_last c ts a t : head (felem c) ts -> PElem c ts a -> pu PBraceClose t -> PElems c (ts ++ [t]) [a].
Proof.
  intros (u & us & -> & Hu) [He H] Ht acc rest. tokval. nrm. wbody. w HS.
  eapply W_ok; [apply (H (t :: rest)); stp|]. intros x Hx. rewrite <- elision_bare, Hx, He.
  apply wpt_b_delim_close; [exact Ht|discriminate|].
  w HS. pose proof (sem_elems_end c t Ht (acc ++ [x]) rest) as E. eapply wpt_conseq; [exact E|].
  intros r ts' (-> & l' & -> & Hl). apply okq_intro. rewrite Hl, map_app, app_nil_r. cbn. now rewrite Hx.
Qed.
Lemma sem_elems_more c ts a t us l : head (felem c) ts -> PElem c ts a -> pu PComma t -> PElems c us l ->
  PElems c (ts ++ t :: us) (a :: l).
Proof.
  intros (u & vs & -> & Hu) [He H] Ht Hl acc rest. tokval. nrm. wbody. w HS.
  eapply W_ok; [apply (H (t :: us ++ rest)); stp|]. intros x Hx. rewrite <- elision_bare, Hx, He.
  eapply wpt_b_delim_comma; [exact HS|exact Ht|].
  w HS. eapply wpt_conseq; [apply (Hl (acc ++ [x]))|].
  intros r ts' (-> & l' & -> & E). apply okq_intro. rewrite E, map_app, <- app_assoc. cbn. now rewrite Hx.
Qed.
Lemma sem_array c o ts l : pu PBraceOpen o -> PElems c ts l -> ME 19 c (o :: ts) (ELiteral z (LitArray l)).
Proof.
  intros Ho H rest Hs. tokval. cbn [app]. change (nt_of 19 c) with (NPrimary c). wbody. w HS. rewrite Ho. w HS. wbody. w HS. w HS.
  eapply W_ok; [apply (H [] rest)|]. intros x Hx. w HS. w HS. apply okq_intro. red. cbn. cbn in Hx. now rewrite Hx.
Qed.

(** ** Names of properties *)

Definition PName (c : ctx) (ts : list token) (n : node) : Prop :=
  forall rest, W (body _ (NPropertyName c)) (ts ++ rest) (okq (isb n) rest).

Lemma sem_name_ident c x t : anyname x t -> PName c [t] (NameIdent (id x)).
Proof.
  intros H rest. cbn [app]. wbody. w HS.
  assert (E : W (let? b := is_identifier_name in
     if b then let? i := pcall NIdentifierName in pret (NameIdent i)
     else let? t := consume in perror (unexpected_token t)) (t :: rest) (okq (isb (NameIdent (id x))) rest)).
  { w HS. replace (is_name_token (Some t)) with true by (destruct H as [E|(? & E & _)]; cbn; now rewrite E).
    eapply W_ok; [apply (name_read x t rest H)|]. intros i Hi. w HS. apply okq_intro. red. cbn. now rewrite Hi. }
  destruct H as [->|(? & -> & _)]; exact E.
Qed.
Lemma sem_name_string c s t : str_tok s t -> PName c [t] (NameString s).
Proof.
  intros H rest. cbn [app]. wbody. w HS. rewrite H. w HS. rewrite H. w HS. apply okq_intro. red. now destruct s.
Qed.
Lemma sem_name_number c r t : t_value t = VLiteral (TLNumber r) -> PName c [t] (NameNumber r).
Proof. intros H rest. cbn [app]. wbody. w HS. rewrite H. w HS. rewrite H. w HS. now apply okq_intro. Qed.
Lemma sem_name_computed c o ts a cl : pu PBraceOpen o -> ME 1 c ts a -> pu PBraceClose cl -> PName c (o :: ts ++ [cl]) (NameComputed a).
Proof.
  intros Ho H Hc rest. tokval. nrm. wbody. w HS. rewrite Ho. w HS. change (NAssignment c) with (nt_of 1 c).
  eapply W_ok; [apply H; stp|]. intros x Hx. w HS. w HS. apply okq_intro. red. cbn. now rewrite Hx.
Qed.

(** ** Sequences *)

Definition PSeq (c : ctx) (ts : list token) (l : list node) : Prop :=
  forall start acc rest Q, stops 1 c rest ->
    (forall l', map bare l' = l -> W (body _ (NSequence c start (acc ++ l'))) rest Q) ->
    W (pbind (pcall (NAssignment c)) (fun e => pcall (NSequence c start (acc ++ [e])))) (ts ++ rest) Q.

Lemma sem_seq_one c ts a : ME 1 c ts a -> PSeq c ts [a].
Proof.
  intros H start acc rest Q Hs Hk. change (NAssignment c) with (nt_of 1 c). eapply W_ok; [apply (H rest Hs)|].
  intros x Hx. w HS. apply Hk. cbn. now rewrite Hx.
Qed.
Lemma sem_seq_more c ts a t us l : ME 1 c ts a -> pu PComma t -> PSeq c us l -> PSeq c (ts ++ t :: us) (a :: l).
Proof.
  intros H Ht Hl start acc rest Q Hs Hk. tokval. nrm. change (NAssignment c) with (nt_of 1 c).
  eapply W_ok; [apply (H (t :: us ++ rest)); stp|].
  intros x Hx. w HS. wbody. w HS. apply Hl; [exact Hs|]. intros l' E. rewrite <- app_assoc. apply Hk. cbn. now rewrite Hx, E.
Qed.

Lemma sem_sequence c ts a t us l : ME 1 c ts a -> pu PComma t -> PSeq c us l -> ME 0 c (ts ++ t :: us) (ESequence z (a :: l)).
Proof.
  intros H Ht Hl rest Hs. tokval. nrm. change (nt_of 0 c) with (NExpr c). wbody. w HS. change (NAssignment c) with (nt_of 1 c).
  eapply W_ok; [apply (H (t :: us ++ rest)); stp|]. intros x Hx. w HS. w HS. wbody. w HS.
  apply (Hl start [x] rest); [eapply stops_le; [|exact Hs]; lia|]. intros l' E. wbody. w HS. w HS. w HS. apply okq_intro.
  red. cbn. now rewrite Hx, E.
Qed.

(** ** Regular expressions, templates with substitutions *)

Lemma sem_regexp c o t s : pu PSlash o \/ pu PSlashEqual o -> t_value t = VLiteral (TLRegexp s) ->
  ME 19 c [o; t] (ELiteral z (LitRegexp s)).
Proof.
  intros Ho Ht rest Hs. unfold pu in Ho. cbn [app]. change (nt_of 19 c) with (NPrimary c).
  assert (HR : W (pop (OReread ls_regex_allowed);? parse_regexp_literal) (o :: t :: rest) (okq (isb (ELiteral z (LitRegexp s))) rest)).
  { apply (wpt_b_open D st full HS); [oh|rewrite Ht; reflexivity|]. unfold parse_regexp_literal, parse_literal. w HS. w HS. rewrite Ht.
    w HS. unfold pdebug_assert. cbn [literal_node is_regexp_node negb]. rewrite Bool.andb_false_r. w HS. w HS. now apply okq_intro. }
  wbody. w HS. destruct Ho as [Ho|Ho]; rewrite Ho.
  - exact HR.
  - unfold parse_primary_other. w HS. rewrite <- isname_ident, Ho. cbn [isname]. exact HR.
Qed.

Definition PTpl (c : ctx) (ts : list token) (l : list node) : Prop :=
  forall acc rest, W (body _ (NTemplateParts c acc)) (ts ++ rest) (okq (fun l' => map bare l' = map bare acc ++ l) rest).

Lemma str_part_text s : str_part s = text s.
Proof. now destruct s. Qed.
Lemma text_bare s : map bare (text s) = text s.
Proof. now destruct s. Qed.

Lemma sem_tpl_tail c ts a t u s : ME 0 c ts a -> pu PBracketClose t -> t_value u = VTemplateTail s ->
  PTpl c (ts ++ [t; u]) (TplExpr a :: text s).
Proof.
  intros H Ht Hu acc rest. tokval. nrm. wbody. eapply W_ok; [apply (H (t :: u :: rest)); stp|]. intros x Hx.
  apply (wpt_b_open D st full HS); [oh|rewrite Hu; reflexivity|]. w HS. rewrite Hu. w HS. apply okq_intro.
  rewrite str_part_text, !map_app, text_bare. cbn. now rewrite Hx.
Qed.
Lemma sem_tpl_middle c ts a t u s us l : ME 0 c ts a -> pu PBracketClose t -> t_value u = VTemplateMiddle s -> PTpl c us l ->
  PTpl c (ts ++ t :: u :: us) (TplExpr a :: text s ++ l).
Proof.
  intros H Ht Hu Hl acc rest. tokval. nrm. wbody. eapply W_ok; [apply (H (t :: u :: us ++ rest)); stp|]. intros x Hx.
  apply (wpt_b_open D st full HS); [oh|rewrite Hu; reflexivity|]. w HS. rewrite Hu. w HS.
  eapply wpt_conseq; [apply (Hl _ rest)|]. intros r ts' (-> & l' & -> & E). apply okq_intro.
  rewrite E, str_part_text, !map_app, text_bare. cbn. rewrite Hx. nrm. reflexivity.
Qed.

Lemma template_read c t s ts l rest : t_value t = VTemplateHead s -> PTpl c ts l ->
  W (body _ (NTemplate c)) (t :: ts ++ rest) (okq (isb (LitTemplate (text s ++ l))) rest).
Proof.
  intros Ht H. wbody. w HS. rewrite Ht. w HS. rewrite Ht. eapply W_ok; [apply (H _ rest)|]. intros l' E. w HS. apply okq_intro.
  red. cbn. now rewrite E, str_part_text, text_bare.
Qed.
Lemma sem_template_head c t s ts l : t_value t = VTemplateHead s -> PTpl c ts l ->
  ME 19 c (t :: ts) (ELiteral z (LitTemplate (text s ++ l))).
Proof.
  intros Ht H rest Hs. cbn [app]. change (nt_of 19 c) with (NPrimary c). wbody. w HS. rewrite Ht. w HS. wbody. w HS.
  eapply W_ok; [apply (template_read c t s ts l rest Ht H)|]. intros x Hx. w HS. w HS. apply okq_intro. red. cbn. now rewrite Hx.
Qed.
Lemma tagged_head_read c start e a t s ts l rest : bare e = a -> t_value t = VTemplateHead s -> PTpl c ts l ->
  W (body _ (NTaggedTemplate c start e)) (t :: ts ++ rest) (okq (isb (ETaggedTemplate z a (LitTemplate (text s ++ l)))) rest).
Proof.
  intros He Ht H. wbody. eapply W_ok; [apply (template_read c t s ts l rest Ht H)|]. intros x Hx. w HS. w HS. apply okq_intro.
  red. cbn. now rewrite He, Hx.
Qed.
Lemma sem_tagged_head c ts a t s us l : ME 18 c ts a -> t_value t = VTemplateHead s -> PTpl c us l ->
  ME 18 c (ts ++ t :: us) (ETaggedTemplate z a (LitTemplate (text s ++ l))).
Proof.
  intros H Ht Hl rest Q Hs Hc. nrm. apply H; [stp|]. intros start x Hx. wbody. w HS. rewrite Ht.
  eapply W_ok; [now apply tagged_head_read with (a := a) (s := s) (l := l)|]. intros y Hy. w HS. now apply Hc.
Qed.
End Fwd.
