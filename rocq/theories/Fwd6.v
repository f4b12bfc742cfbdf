(** * Fwd6: the parser on written arrow functions. *)

From Verif Require Import Base Tokens PeekReader CharReader Lexer LexSpec Ast Prog TokChain ParseState Parser
  ParseRuns Source Stream AstSpec StaticSem Layout Bare Written Starts Forward Fwd1 Fwd2 Fwd3 Fwd4 Fwd5.
Local Open Scope string_scope.
Local Open Scope list_scope.
Local Open Scope prog_scope.

Section Fwd.
Context {PF : Platform}.
Variable D : str.
Variable st : lexer_state.
Variable full : list token.
Hypothesis HS : setting D st full.

Notation W := (wpt D st full).
Notation P := (P D st full).
Notation ME := (ME D st full).
Notation PSeq := (PSeq D st full).
Notation PArgs := (PArgs D st full).
Notation PParams := (PParams D st full).
Notation PConcise := (PConcise D st full).

(** ** Failing at the first token *)

(** An opening bracket or [...] *)
Definition front (v : tvalue) : Prop :=
  v = VPunct PParenOpen \/ v = VPunct PTripleDot \/ v = VPunct PBraceOpen \/ v = VPunct PBracketOpen.

Lemma front_clear t us : front (t_value t) -> clear (t :: us).
Proof. intros [E|[E|[E|E]]]; cbn [clear]; rewrite E; discriminate. Qed.

Lemma fail_member c t us E R : front (t_value t) ->
  W (body node (NPrimary c)) (t :: us) (errx E R) -> W (body node (NUnary c)) (t :: us) (errx E R).
Proof.
  intros Ho H.
  assert (H1 : W (body node (NNewOrMember c)) (t :: us) (errx E R)).
  { wbody. w HS. apply W_errx. wbody. w HS. apply wpt_b_peek_matches; [exact HS|now apply front_clear|].
    destruct Ho as [->|[->|[->| ->]]]; w HS; exact H. }
  assert (H2 : W (body node (NLeftHandSide c)) (t :: us) (errx E R)).
  { wbody. w HS. w HS. apply wpt_b_peek_matches; [exact HS|now apply front_clear|]. cbn [rok].
    rewrite (value_is_false (VKeyword KSuper) t) by (destruct Ho as [->|[->|[->| ->]]]; discriminate).
    rewrite (value_is_false (VKeyword KImport) t) by (destruct Ho as [->|[->|[->| ->]]]; discriminate). cbn [andb].
    w HS. w HS. w HS. now apply W_errx. }
  assert (H3 : W (body node (NUpdate c)) (t :: us) (errx E R)).
  { wbody. w HS. apply no_update_op; [unfold update_operator; destruct Ho as [->|[->|[->| ->]]]; reflexivity|]. now apply W_errx. }
  wbody. w HS. apply no_unary_op; [unfold unary_operator; destruct Ho as [->|[->|[->| ->]]]; reflexivity|].
  destruct (c_await c); [|w HS; exact H3]. w HS.
  rewrite (value_is_false (VKeyword KAwait) t) by (destruct Ho as [->|[->|[->| ->]]]; discriminate). w HS. exact H3.
Qed.

Lemma fail_levels c ts E R : W (body node (NUnary c)) ts (errx E R) ->
  forall l, W (body node (NBinary c l)) ts (errx E R).
Proof.
  intros H.
  assert (HX : W (body node (NBinary c LvExponent)) ts (errx E R)).
  { wbody. apply wpt_b_position. intros n. apply W_errx. exact H. }
  assert (HL : forall l l', next_level l = Some l' -> W (body node (NBinary c l')) ts (errx E R) ->
                 W (body node (NBinary c l)) ts (errx E R)).
  { intros l l' El Hl. wbody. apply wpt_b_position. intros n. unfold parse_next_level. rewrite El. now apply W_errx. }
  assert (H1 := HL LvMultiplicative LvExponent eq_refl HX).
  assert (H2 := HL LvAdditive LvMultiplicative eq_refl H1).
  assert (H3 := HL LvShift LvAdditive eq_refl H2).
  assert (H4 := HL LvRelational LvShift eq_refl H3).
  assert (H5 := HL LvEquality LvRelational eq_refl H4).
  assert (H6 := HL LvBitAnd LvEquality eq_refl H5).
  assert (H7 := HL LvBitXor LvBitAnd eq_refl H6).
  assert (H8 := HL LvBitOr LvBitXor eq_refl H7).
  assert (H9 := HL LvAnd LvBitOr eq_refl H8).
  assert (H10 := HL LvOr LvAnd eq_refl H9).
  assert (H11 := HL LvCoalesce LvOr eq_refl H10).
  intros []; assumption.
Qed.

Lemma fail_conditional c t us E R : front (t_value t) ->
  W (body node (NPrimary c)) (t :: us) (errx E R) -> W (body node (NConditional c)) (t :: us) (errx E R).
Proof.
  intros Ho H. wbody. w HS. apply W_errx. apply fail_levels. now apply fail_member.
Qed.

(** Up to the assignment level, an opener is not a special case. *)
Lemma assign_opener c t us Q : front (t_value t) ->
  W (let? r := ptry (NConditionalOrArrow c) in
     match r with
     | Ok e =>
       let? o := parse_optional_assignment_operator in
       match o with
       | Some AAssign =>
         let? left := normalize_left_side_assignment c t e in
         pcall (NAssignRight c (tstart t) left AAssign)
       | Some o =>
         ofres (early_errors_left_hand_side_expr c e);?
         pcall (NAssignRight c (tstart t) e o)
       | None => pret e
       end
     | Err error =>
       match pe_kind error with
       | PInitializedNameNotAllowed =>
         pop (ORewind t);?
         let? b1 := current_matches (VPunct PBracketOpen) in
         let? b2 := current_matches (VPunct PBraceOpen) in
         if (negb b1 && negb b2)%bool then perror error else
         let? pattern := pcall (NAsgPattern c) in
         let? o := parse_optional_assignment_operator in
         match o with
         | Some AAssign => pcall (NAssignRight c (tstart t) pattern AAssign)
         | _ => perror error
         end
       | _ => perror error
       end
     end) (t :: us) Q -> W (body node (NAssignment c)) (t :: us) Q.
Proof.
  intros Ho H. wbody. w HS. w HS. cbn [rok].
  rewrite (value_is_false (VKeyword KYield) t) by (destruct Ho as [->|[->|[->| ->]]]; discriminate).
  rewrite (value_is_false (VKeyword KAsync) t) by (destruct Ho as [->|[->|[->| ->]]]; discriminate). cbn [andb].
  apply wpt_b_peek_matches; [exact HS|now apply front_clear|]. rewrite <- isname_ident.
  replace (isname c (t_value t)) with false by (destruct Ho as [->|[->|[->| ->]]]; reflexivity). cbn [andb]. w HS. exact H.
Qed.

(** [...] is not an expression. *)
Definition dots_err : perr -> Prop := fun e => retries_as_arrow e = true /\ exists o, pe_kind e = PUnexpectedToken (VPunct PTripleDot) o.
Lemma dots_primary c d us : t_value d = VPunct PTripleDot -> W (body node (NPrimary c)) (d :: us) (errq dots_err us).
Proof.
  intros Hd. wbody. w HS. rewrite Hd. unfold parse_primary_other. w HS. rewrite <- isname_ident, Hd. cbn [isname].
  apply (wpt_b_reread D st full HS); [reflexivity|oh|now rewrite Hd|].
  unfold parse_regexp_literal, parse_literal. w HS. w HS. rewrite Hd. w HS. split; [reflexivity|].
    eexists. split; [reflexivity|]. unfold dots_err, retries_as_arrow, unexpected_token. rewrite Hd. cbn. eauto.
Qed.
Lemma dots_assign c d us : t_value d = VPunct PTripleDot -> W (body node (NAssignment c)) (d :: us) (errq dots_err us).
Proof.
  intros Hd. apply assign_opener; [right; now left|].
  apply (W_err_try D st full (NConditionalOrArrow c) dots_err us).
  - wbody. w HS. apply (W_err_try D st full (NConditional c) dots_err us).
    + apply fail_conditional; [right; now left|]. now apply dots_primary.
    + intros e [He [o Ho]]. rewrite Ho. destruct (Nat.eqb _ _); w HS; (split; [reflexivity|]; exists e; split; [reflexivity|]; split; eauto).
  - intros e [He [o Ho]]. rewrite Ho. w HS. split; [reflexivity|]; exists e; split; [reflexivity|]; split; eauto.
Qed.

(** Two ways to read a sequence of expressions. *)
Definition PSeq2 (c : ctx) (ts : list token) (l : list node) : Prop :=
  PSeq c ts l /\ forall t rest Q, t_value t = VPunct PComma ->
    (forall start l', map bare l' = l -> W (body _ (NSequence c start l')) (t :: rest) Q) ->
    W (body _ (NExpr c)) (ts ++ t :: rest) Q.

Lemma sem_seq2_one c ts a : ME 1 c ts a -> PSeq2 c ts [a].
Proof.
  intros H. split; [now apply sem_seq_one|]. intros t rest Q Ht Hk. wbody. w HS. change (NAssignment c) with (nt_of 1 c).
  eapply W_ok; [apply (H (t :: rest)); stp|]. intros x Hx. w HS. w HS. apply Hk. cbn. now rewrite Hx.
Qed.
Lemma sem_seq2_more c ts a t us l : ME 1 c ts a -> pu PComma t -> PSeq2 c us l -> PSeq2 c (ts ++ t :: us) (a :: l).
Proof.
  intros H Ht [Hl _]. split; [now apply sem_seq_more|]. intros t' rest Q Ht' Hk. tokval. nrm. wbody. w HS. change (NAssignment c) with (nt_of 1 c).
  eapply W_ok; [apply (H (t :: us ++ t' :: rest)); stp|]. intros x Hx. w HS. w HS. wbody. w HS.
  apply (Hl start [x] (t' :: rest)).
  - cbn [stops]. unfold jn. rewrite Ht'. lia.
  - intros l' E. apply Hk. cbn. now rewrite Hx, E.
Qed.

(** ** Arrow functions *)

Definition arrow_at (a : node) (start : nat) : node -> Prop := fun x => bare x = a /\ sp_start (node_span x) = start.

Lemma arrow_read c start asyn ps bp params a bs b rest :
  W (body _ (NArrowParameters c)) (ps ++ a :: bs ++ rest) (okq (fun p => fst p = bp /\ bare (snd p) = params) (a :: bs ++ rest)) ->
  pu PEqualGreater a -> t_fol a = false -> PConcise (arrow_ctx asyn c) bs b -> stops 1 c rest ->
  W (body _ (NArrow c start asyn)) (ps ++ a :: bs ++ rest) (okq (arrow_at (EArrow z asyn bp params b) start) rest).
Proof.
  intros Hp Ha Hf Hb Hs. unfold pu in Ha. wbody. eapply W_ok; [exact Hp|]. intros [bp' params'] [E1 E2]. cbn in E1, E2. subst bp'. w HS.
  rewrite Hf. change (arrow_body_ctx c asyn) with (arrow_ctx asyn c). eapply W_ok; [apply (Hb rest); exact Hs|]. intros x Hx. w HS. w HS. apply okq_intro.
  split; [|exact H]. cbn. now rewrite E2, Hx.
Qed.

Definition one_name (x : str) : node := FormalParameters z [BindElement z (BindIdent (id x)) None] None.
Lemma name_params c x t us : name c x t ->
  W (body _ (NArrowParameters c)) (t :: us) (okq (fun p => fst p = true /\ bare (snd p) = one_name x) us).
Proof.
  intros H. pose proof (ident_read D st full HS c x t us H) as HI. apply name_isname in H. wbody. w HS. rewrite <- isname_ident, H.
  eapply W_ok with (P := isb (one_name x)) (rest := us).
  - wbody. w HS. eapply W_ok; [exact HI|]. intros i Hi. w HS. w HS. apply okq_intro. red. cbn. now rewrite Hi.
  - intros p Hp. w HS. apply okq_intro. auto.
Qed.
Lemma paren_params c o ps p r us : pu PParenOpen o -> PParams c ps p r ->
  W (body _ (NArrowParameters c)) (o :: ps ++ us) (okq (fun q => fst q = false /\ bare (snd q) = FormalParameters z p r) us).
Proof.
  intros Ho H. pose proof (params_read D st full HS c o ps p r us Ho H) as HP. tokval. wbody. w HS. rewrite <- isname_ident, Ho.
  cbn [isname]. eapply W_ok; [exact HP|]. intros q Hq. w HS. apply okq_intro. auto.
Qed.

Lemma okq_weak {A : Set} (R R' : A -> Prop) p ts rest : (forall x, R x -> R' x) -> W p ts (okq R rest) -> W p ts (okq R' rest).
Proof.
  intros H Hw. eapply wpt_conseq; [exact Hw|]. intros r ts' (-> & x & -> & Hx). apply okq_intro. auto.
Qed.

Lemma sem_arrow_name c x t a bs b : name c x t -> ~ kw KLet t -> pu PEqualGreater a -> t_fol a = false ->
  PConcise (arrow_ctx false c) bs b -> ME 1 c (t :: a :: bs) (EArrow z false true (one_name x) b).
Proof.
  intros H Hl Ha Hf Hb rest Hs. change (nt_of 1 c) with (NAssignment c). cbn [app].
  assert (HA : W (body _ (NArrowExpr c)) (t :: a :: bs ++ rest) (okq (isb (EArrow z false true (one_name x) b)) rest)).
  { wbody. w HS. w HS. eapply okq_weak; [|apply (arrow_read c (tstart t) false [t] true (one_name x) a bs b rest); auto].
    - intros y [Hy _]. exact Hy.
    - now apply name_params. }
  apply name_isname in H. unfold pu in Ha. wbody. w HS. w HS. cbn [rok].
  destruct (value_is (VKeyword KYield) (Some t) && c_yield c)%bool eqn:E1.
  { apply andb_prop in E1. destruct E1 as [E1 E2]. cbn in E1. destruct tvalue_eq_dec as [E|]; [|discriminate].
    rewrite E in H. cbn in H. rewrite E2 in H. discriminate H. }
  destruct (value_is (VKeyword KAsync) (Some t)).
  - w HS. wbody. w HS. w HS. exact HA.
  - w HS. rewrite <- isname_ident, H. cbn [andb]. w HS. exact HA.
Qed.

(** Parameters in parentheses. *)
Definition arrow_err (a : node) (start : nat) : perr -> Prop :=
  fun e => sp_start (pe_span e) = start /\ exists x, pe_kind e = PArrowFunctionNotAllowed x /\ bare x = a.

Lemma arrow_of_err c o us a rest : t_value o = VPunct PParenOpen -> stops 1 c rest ->
  W (body _ (NCoverParen c)) (o :: us) (errq (arrow_err a (tstart o)) rest) ->
  W (body _ (NAssignment c)) (o :: us) (okq (isb a) rest).
Proof.
  intros Ho Hs H. apply assign_opener; [now left|].
  eapply wpt_b_ok_try with (P := isb a) (rest := rest).
  - wbody. w HS. apply (W_err_try D st full (NConditional c) (arrow_err a (tstart o)) rest).
    + apply fail_conditional; [now left|]. wbody. w HS. rewrite Ho. w HS. exact H.
    + intros e (E1 & x & E2 & E3). rewrite E1, Nat.eqb_refl, E2. w HS. now apply okq_intro.
  - intros x Hx. eapply no_assign_op; [exact Hs|]. w HS. now apply okq_intro.
Qed.

Lemma as_arrow c o ps p r a bs b rest : pu PParenOpen o -> PParams c ps p r -> pu PEqualGreater a -> t_fol a = false ->
  PConcise (arrow_ctx false c) bs b -> stops 1 c rest ->
  W (let? x := pcall (NArrowExpr c) in perror (arrow_function_not_allowed x) : prg node) (o :: ps ++ a :: bs ++ rest)
    (errq (arrow_err (EArrow z false false (FormalParameters z p r) b) (tstart o)) rest).
Proof.
  intros Ho Hp Ha Hf Hb Hs. eapply W_ok with (P := arrow_at (EArrow z false false (FormalParameters z p r) b) (tstart o)) (rest := rest).
  - wbody. w HS. w HS. apply (arrow_read c (tstart o) false (o :: ps) false (FormalParameters z p r) a bs b rest); auto.
    cbn [app]. now apply paren_params.
  - intros x [H1 H2]. w HS. split; [reflexivity|]. eexists. split; [reflexivity|]. split; [exact H2|]. exists x. now split.
Qed.

Lemma sem_arrow_none c o cl a bs b : pu PParenOpen o -> pu PParenClose cl -> pu PEqualGreater a -> t_fol a = false ->
  PConcise (arrow_ctx false c) bs b -> ME 1 c (o :: cl :: a :: bs) (EArrow z false false (FormalParameters z [] None) b).
Proof.
  intros Ho Hc Ha Hf Hb rest Hs. change (nt_of 1 c) with (NAssignment c). cbn [app]. apply arrow_of_err; [exact Ho|exact Hs|].
  pose proof (as_arrow c o [cl] [] None a bs b rest Ho (sem_params_end D st full HS c cl Hc) Ha Hf Hb Hs) as HA. cbn [app] in HA.
  tokval. wbody. w HS. w HS. exact HA.
Qed.

Lemma sem_arrow c o es e cl p r a bs b : pu PParenOpen o -> starts 0 (with_in true c) es -> ME 0 (with_in true c) es e -> pu PParenClose cl ->
  PParams c (es ++ [cl]) p r -> pu PEqualGreater a -> t_fol a = false ->
  PConcise (arrow_ctx false c) bs b ->
  ME 1 c (o :: es ++ cl :: a :: bs) (EArrow z false false (FormalParameters z p r) b).
Proof.
  intros Ho (u & us & -> & Hu & _) He Hc Hp Ha Hf Hb rest Hs. change (nt_of 1 c) with (NAssignment c). cbn [app].
  apply arrow_of_err; [exact Ho|exact Hs|].
  pose proof (as_arrow c o _ p r a bs b rest Ho Hp Ha Hf Hb Hs) as HA.
  pose proof (paren_read D st full HS c o (u :: us) cl e (a :: bs ++ rest) Ho He Hc) as HP.
  cbn [app] in *. rewrite <- app_assoc in *. cbn [app] in *. tokval. apply wpt_sfx. intros Hsfx. wbody. w HS. w HS.
  eapply wpt_b_ok_try; [exact HP|]. intros x Hx. w HS. eapply wpt_b_rewind; [exact HS|oh|exact Hsfx|]. exact HA.
Qed.

Lemma dots_paren c o us E rest : t_value o = VPunct PParenOpen ->
  W (body node (NExpr (with_in true c))) us (errq E rest) -> W (body node (NParenthesized c)) (o :: us) (errq E rest).
Proof. intros Ho H. wbody. w HS. w HS. now apply W_err. Qed.

Lemma sem_arrow_rest c o d ps p r a bs b : pu PParenOpen o -> pu PTripleDot d -> PParams c (d :: ps) p r ->
  pu PEqualGreater a -> t_fol a = false -> PConcise (arrow_ctx false c) bs b ->
  ME 1 c (o :: d :: ps ++ a :: bs) (EArrow z false false (FormalParameters z p r) b).
Proof.
  intros Ho Hd Hp Ha Hf Hb rest Hs. change (nt_of 1 c) with (NAssignment c). cbn [app]. rewrite <- app_assoc. cbn [app].
  apply arrow_of_err; [exact Ho|exact Hs|].
  pose proof (as_arrow c o _ p r a bs b rest Ho Hp Ha Hf Hb Hs) as HA. cbn [app] in *.
  tokval. apply wpt_sfx. intros Hsfx. wbody. w HS. w HS.
  apply (W_err_try D st full (NParenthesized c) dots_err (ps ++ a :: bs ++ rest)).
  - apply dots_paren; [exact Ho|]. wbody. w HS. apply W_err. now apply dots_assign.
  - intros e [He _]. rewrite He. eapply wpt_b_rewind; [exact HS|oh|exact Hsfx|]. exact HA.
Qed.

Lemma sem_arrow_more c o es l k d ps p r a bs b : pu PParenOpen o -> starts 1 (with_in true c) es -> PSeq2 (with_in true c) es l -> pu PComma k ->
  pu PTripleDot d -> PParams c (es ++ k :: d :: ps) p r -> pu PEqualGreater a -> t_fol a = false ->
  PConcise (arrow_ctx false c) bs b ->
  ME 1 c (o :: es ++ k :: d :: ps ++ a :: bs) (EArrow z false false (FormalParameters z p r) b).
Proof.
  intros Ho (u & us & -> & Hu & _) [_ He] Hk Hd Hp Ha Hf Hb rest Hs. change (nt_of 1 c) with (NAssignment c). nrm.
  apply arrow_of_err; [exact Ho|exact Hs|].
  pose proof (as_arrow c o _ p r a bs b rest Ho Hp Ha Hf Hb Hs) as HA. cbn [app] in HA. rewrite <- app_assoc in HA. cbn [app] in HA.
  tokval. apply wpt_sfx. intros Hsfx. wbody. w HS. w HS.
  apply (W_err_try D st full (NParenthesized c) dots_err (ps ++ a :: bs ++ rest)).
  - apply dots_paren; [exact Ho|]. apply (He k (d :: ps ++ a :: bs ++ rest)); [exact Hk|]. intros start l' El.
    wbody. w HS. apply W_err. now apply dots_assign.
  - intros e [He' _]. rewrite He'. eapply wpt_b_rewind; [exact HS|oh|exact Hsfx|]. exact HA.
Qed.

(** Async arrow functions. *)
Lemma async_read c s ps bp params a bs b rest : t_value s = VKeyword KAsync ->
  W (body _ (NArrowParameters c)) (ps ++ a :: bs ++ rest) (okq (fun p => fst p = bp /\ bare (snd p) = params) (a :: bs ++ rest)) ->
  pu PEqualGreater a -> t_fol a = false -> PConcise (arrow_ctx true c) bs b -> stops 1 c rest ->
  W (body _ (NAsyncArrowExpr c)) (s :: ps ++ a :: bs ++ rest) (okq (isb (EArrow z true bp params b)) rest).
Proof.
  intros Hs Hp Ha Hf Hb Hst. wbody. w HS. w HS. w HS. eapply okq_weak; [|apply (arrow_read c (tstart s) true ps bp params a bs b rest); auto].
  intros y [Hy _]. exact Hy.
Qed.

Lemma sem_async_arrow_name c s x t a bs b : kw KAsync s -> name c x t ->
  pu PEqualGreater a -> t_fol a = false -> PConcise (arrow_ctx true c) bs b ->
  ME 1 c (s :: t :: a :: bs) (EArrow z true true (one_name x) b).
Proof.
  intros Hs H Ha Hf Hb rest Hst. change (nt_of 1 c) with (NAssignment c). cbn [app].
  pose proof (async_read c s [t] true (one_name x) a bs b rest Hs (name_params c x t _ H) Ha Hf Hb Hst) as HA. cbn [app] in HA.
  apply name_isname in H. tokval. wbody. w HS. w HS. cbn [rok]. vis. w HS. wbody. w HS.
  rewrite <- isname_ident, H. w HS. exact HA.
Qed.
Lemma sem_async_arrow c s o ps l p r a bs b : kw KAsync s -> pu PParenOpen o -> PArgs c ps l ->
  PParams c ps p r -> pu PEqualGreater a -> t_fol a = false -> PConcise (arrow_ctx true c) bs b ->
  ME 1 c (s :: o :: ps ++ a :: bs) (EArrow z true false (FormalParameters z p r) b).
Proof.
  intros Hs Ho Hargs Hp Ha Hf Hb rest Hst. change (nt_of 1 c) with (NAssignment c). nrm.
  pose proof (async_read c s (o :: ps) false _ a bs b rest Hs (paren_params c o ps p r _ Ho Hp) Ha Hf Hb Hst) as HA. cbn [app] in HA.
  assert (Hid : name c (chars "async") s) by (right; exists KAsync; auto).
  pose proof (ident_read D st full HS c _ s (o :: ps ++ a :: bs ++ rest) Hid) as HI.
  pose proof Ho as Ho'. tokval. wbody. w HS. w HS. cbn [rok]. vis. w HS. wbody. w HS. w HS.
  apply wpt_sfx. intros Hsfx. wbody. w HS.
  eapply W_ok with (P := fun _ => True) (rest := a :: bs ++ rest).
  - wbody. w HS. eapply W_ok; [exact HI|]. intros i Hi. w HS. wbody.
    eapply W_ok; [apply (arguments_read D st full HS c o ps l (a :: bs ++ rest) Ho' Hargs)|]. intros [sp args] _. w HS. w HS.
    now apply okq_intro.
  - intros x _. w HS. eapply wpt_b_rewind; [exact HS|oh|exact Hsfx|]. w HS. exact HA.
Qed.

End Fwd.
