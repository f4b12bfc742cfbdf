(** * TokChain: the tokens a parse sees, as text of the source.

    While parsing, the lexer's state changes (regular expressions, template
    continuations, html-like comments) and positions are revisited.  A token
    the parser holds is therefore a token of the source in some lexer state:
    [tok_at].  [chain] is a sequence of such tokens, each starting where the
    previous one ended. *)

From Verif Require Import Base Tokens PeekReader CharReader Lexer LexSpec LexChars LexerFacts
  LexSound LexSound2 LexSound3 LexComplete LexComplete2 LexComplete3 LexComplete4 LexComplete5
  LexComplete6 LexProps Ast Prog.
Local Open Scope string_scope.
Local Open Scope list_scope.

Section TokChain.
Context {PF : Platform}.
Variable D : str.

(** [tok_at pre f t pre' f']: after the text [pre] of the source has been read
    (with [f]: a line terminator was passed since the last token), [t] is, in
    some lexer state, the next token; [pre'] has been read after it. *)
Inductive tok_at (pre : str) (f : bool) : token -> str -> bool -> Prop :=
| ta_normal html st gap s after v f1 b :
    D = pre ++ gap ++ s ++ after ->
    trivia html f gap (s ++ after) f1 ->
    ~ starts_comment (s ++ after) ->
    lexeme st s after v ->
    (b = true -> f1 = true) ->
    (b = true -> v = VPunct PDoubleMinus -> ~ prefix (chars ">") after) ->
    tok_at pre f (mk_token v b (mk_span (rpos (pre ++ gap)) (rpos (pre ++ gap ++ s))))
      (pre ++ gap ++ s) false
| ta_template html gap s after v f1 b :
    D = pre ++ gap ++ s ++ after ->
    trivia html f gap (s ++ after) f1 ->
    template_continue s v ->
    (b = true -> f1 = true) ->
    tok_at pre f (mk_token v false (mk_span (rpos (pre ++ gap)) (rpos (pre ++ gap ++ s))))
      (pre ++ gap ++ s) b.

Inductive chain : str -> bool -> list token -> str -> bool -> Prop :=
| chain_nil pre f : chain pre f [] pre f
| chain_cons pre f t pre1 f1 ts pre2 f2 :
    tok_at pre f t pre1 f1 -> chain pre1 f1 ts pre2 f2 -> chain pre f (t :: ts) pre2 f2.

(** Only trivia is left. *)
Definition eos_at (pre : str) (f : bool) : Prop :=
  exists html rest f', D = pre ++ rest /\ trivia html f rest [] f'.

(** The token values that depend on the lexer state. *)
Definition unstable (v : tvalue) : Prop :=
  match v with
  | VPunct PSlash | VPunct PSlashEqual | VPunct PBracketClose
  | VLiteral (TLRegexp _) | VTemplateMiddle _ | VTemplateTail _ => True
  | _ => False
  end.

(** [t] is what [t0] may become when it is read again. *)
Definition hd_rel (t0 t : token) : Prop :=
  tstart t0 = tstart t /\ (t = t0 \/ (unstable (t_value t0) /\ unstable (t_value t))).

Lemma hd_rel_refl t : hd_rel t t.
Proof. split; auto. Qed.
Lemma hd_rel_sym t u : hd_rel t u -> hd_rel u t.
Proof. intros [H1 [->|[H2 H3]]]; split; auto. Qed.
Lemma hd_rel_trans t u w : hd_rel t u -> hd_rel u w -> hd_rel t w.
Proof.
  intros [H1 [->|[H2 H3]]] [H4 [->|[H5 H6]]]; split; auto; congruence.
Qed.
Lemma hd_rel_stable t u : hd_rel t u -> ~ unstable (t_value t) -> u = t.
Proof. intros [_ [->|[H _]]] Hs; [auto|tauto]. Qed.

(** ** Lexemes *)

Lemma lexeme_state st st' s after v :
  lexeme st s after v -> regex_allowed st' = regex_allowed st -> lexeme st' s after v.
Proof.
  intros H E. destruct H; [apply lexeme_punct; auto; now rewrite E|..];
    econstructor; eauto; congruence.
Qed.

Lemma lexeme_stable st st' s after v :
  lexeme st s after v -> ~ unstable v -> lexeme st' s after v.
Proof.
  intros H Hs. destruct H;
    [apply lexeme_punct; auto; intros _; split; intros ->; apply Hs; exact I|..];
    try solve [econstructor; eauto].
  exfalso. apply Hs. exact I.
Qed.

Lemma lexeme_fun st s1 a1 v1 s2 a2 v2 :
  lexeme st s1 a1 v1 -> lexeme st s2 a2 v2 -> s1 ++ a1 = s2 ++ a2 -> ~ starts_comment (s1 ++ a1) ->
  s1 = s2 /\ v1 = v2.
Proof.
  intros H1 H2 E Hc.
  set (st' := mk_ls (html_comment_allowed st) (regex_allowed st) false).
  assert (L1 : lexeme st' s1 a1 v1) by (eapply lexeme_state; eauto).
  assert (L2 : lexeme st' s2 a2 v2) by (eapply lexeme_state; eauto).
  assert (X1 : lexed (s1 ++ a1) st' [] false
                 (mk_token v1 false (mk_span (rpos ([] ++ [])) (rpos ([] ++ [] ++ s1)))) ([] ++ [] ++ s1) false).
  { eapply lexed_intro with (after := a1); eauto; try constructor. discriminate. }
  assert (X2 : lexed (s1 ++ a1) st' [] false
                 (mk_token v2 false (mk_span (rpos ([] ++ [])) (rpos ([] ++ [] ++ s2)))) ([] ++ [] ++ s2) false).
  { eapply lexed_intro with (after := a2); eauto; try constructor; try discriminate.
    rewrite <- E. exact Hc. }
  destruct (lexed_fun _ _ _ _ _ _ _ _ _ _ X1 X2) as (Et & Es & _). simpl in Es.
  injection Et as Ev _. auto.
Qed.

Lemma lexeme_slash st s after v r :
  lexeme st s after v -> s ++ after = ch "/" :: r -> unstable v.
Proof.
  intros H E. destruct H as [p a Hp _ _|s v tv a Hw Hv _ _|s a Hn _|q s v a Hq _|s v a _|s v a _|s fl a _ _ _ _];
    try exact I.
  - destruct p; try discriminate E; exact I.
  - apply word_head in Hw. destruct Hw as (c & w & -> & [Hc| ->]); injection E as E _; [|discriminate E].
    subst c. exfalso. refine (id_start_not (chars "/}-") _ eq_refl Hc _). simpl. tauto.
  - apply number_head in Hn. destruct Hn as (c & w & -> & [Hc|(-> & _)]); injection E as E _; [|discriminate E].
    subst c. exfalso. revert Hc. unfold digit. simpl. intuition discriminate.
  - destruct Hq as [->| ->]; discriminate E.
  - discriminate E.
  - discriminate E.
Qed.

Lemma lexeme_brace st s after v r :
  lexeme st s after v -> s ++ after = ch "}" :: r -> unstable v.
Proof.
  intros H E. destruct H as [p a Hp _ _|s v tv a Hw Hv _ _|s a Hn _|q s v a Hq _|s v a _|s v a _|s fl a _ _ _ _];
    try exact I.
  - destruct p; try discriminate E; exact I.
  - apply word_head in Hw. destruct Hw as (c & w & -> & [Hc| ->]); injection E as E _; [|discriminate E].
    subst c. exfalso. refine (id_start_not (chars "/}-") _ eq_refl Hc _). simpl. tauto.
  - apply number_head in Hn. destruct Hn as (c & w & -> & [Hc|(-> & _)]); injection E as E _; [|discriminate E].
    subst c. exfalso. revert Hc. unfold digit. simpl. intuition discriminate.
  - destruct Hq as [->| ->]; discriminate E.
  - discriminate E.
  - discriminate E.
Qed.

Lemma unstable_lexeme st s after v :
  lexeme st s after v -> unstable v -> (exists r, s = ch "/" :: r) \/ (exists r, s = ch "}" :: r).
Proof.
  intros H U. destruct H as [p a Hp _ _|s v tv a Hw Hv _ _|s a Hn _|q s v a Hq _|s v a _|s v a _|s fl a _ _ _ _];
    try destruct U.
  - destruct p; try destruct U; cbn; eauto.
  - destruct Hv as [(k & _ & ->)|(_ & ->)]; destruct U.
  - left. eexists. reflexivity.
Qed.

Lemma template_continue_head s v : template_continue s v -> (exists r, s = ch "}" :: r) /\ unstable v.
Proof. intros [s' v' _|s' v' _]; split; simpl; eauto. Qed.

(** The same text read as a lexeme in two states. *)
Lemma lexeme_two st1 st2 s1 a1 v1 s2 a2 v2 :
  lexeme st1 s1 a1 v1 -> lexeme st2 s2 a2 v2 -> s1 ++ a1 = s2 ++ a2 -> ~ starts_comment (s1 ++ a1) ->
  (s1 = s2 /\ v1 = v2) \/ (unstable v1 /\ unstable v2).
Proof.
  intros H1 H2 E Hc.
  assert (Hd : {unstable v1} + {~ unstable v1}).
  { destruct v1 as [?|?|[]|[]|?|?|?]; simpl; auto. }
  destruct Hd as [U|U].
  - right. split; auto. destruct (unstable_lexeme _ _ _ _ H1 U) as [(r & ->)|(r & ->)].
    + apply (lexeme_slash _ _ _ _ (r ++ a1) H2). rewrite <- E. reflexivity.
    + apply (lexeme_brace _ _ _ _ (r ++ a1) H2). rewrite <- E. reflexivity.
  - left. apply (lexeme_fun st2 s1 a1 v1 s2 a2 v2); auto. eapply lexeme_stable; eauto.
Qed.

(** ** No trivia at the start of a token *)

Lemma lexeme_minus st s after v r :
  lexeme st s after v -> s ++ after = chars "-->" ++ r -> v = VPunct PDoubleMinus /\ prefix (chars ">") after.
Proof.
  intros H E. destruct H as [p a Hp _ _|s v tv a Hw Hv _ _|s a Hn _|q s v a Hq _|s v a _|s v a _|s fl a _ _ _ _].
  - destruct Hp as [(x & E1 & _) H2]. rewrite E in *.
    assert (P : punct_prefix PDoubleMinus (chars "-->" ++ r)).
    { exists (ch ">" :: r). split; [reflexivity|]. intros [? _]; discriminate. }
    apply H2 in P. destruct p; try discriminate E1; cbn in P; try lia.
    split; [reflexivity|]. cbn in E. injection E as ->. exists r. reflexivity.
  - apply word_head in Hw. destruct Hw as (c & w & -> & [Hc| ->]); injection E as E _; [|discriminate E].
    subst c. exfalso. refine (id_start_not (chars "/}-") _ eq_refl Hc _). simpl. tauto.
  - apply number_head in Hn. destruct Hn as (c & w & -> & [Hc|(-> & _)]); injection E as E _; [|discriminate E].
    subst c. exfalso. revert Hc. unfold digit. simpl. intuition discriminate.
  - destruct Hq as [->| ->]; discriminate E.
  - discriminate E.
  - discriminate E.
  - discriminate E.
Qed.

(** The text at the start of a token that is seen with first-on-line flag [b]. *)
Definition token_start (b : bool) (w : str) : Prop :=
  (exists st s after v, w = s ++ after /\ lexeme st s after v /\ ~ starts_comment w /\
     (b = true -> v = VPunct PDoubleMinus -> ~ prefix (chars ">") after)) \/
  (exists r, w = ch "}" :: r).

Lemma token_start_no_piece b w html s rest f' :
  token_start b w -> piece html b s rest f' -> s ++ rest = w -> False.
Proof.
  intros Hw Hp E.
  assert (Hg : ~ starts gap_char w).
  { destruct Hw as [(st & s0 & a0 & v & -> & Hl & _)|(r & ->)].
    - eapply lexeme_not_gap; eauto.
    - intros (x & y & Ex & Hx). injection Ex as <- _. revert Hx.
      unfold gap_char, white_space, line_term. simpl. clear. intuition discriminate. }
  assert (Hcom : ~ starts_comment w).
  { destruct Hw as [(st & s0 & a0 & v & -> & Hl & Hc & _)|(r & ->)]; auto.
    intros [(x & Ex)|[(x & Ex)|(x & Ex)]]; discriminate Ex. }
  assert (Hopen : forall op, line_comment_open html b op -> forall x, op ++ x = w -> False).
  { intros op Ho x Ex. destruct Ho as [f|f Hh|Hh].
    - apply Hcom. left. exists x. auto.
    - apply Hcom. right. right. exists x. auto.
    - destruct Hw as [(st & s0 & a0 & v & E0 & Hl & _ & Hm)|(r & E0)].
      + destruct (lexeme_minus st s0 a0 v x Hl) as [-> Hpre]; [congruence|]. exact (Hm eq_refl eq_refl Hpre).
      + rewrite E0 in Ex. discriminate Ex. }
  destruct Hp as [f c a Hc|f c a Hc|f op body c a Ho Hb Hc|f op body Ho Hb|f body a f' Hb Hf].
  - apply Hg. subst w. exists c, a. split; [reflexivity|]. left. exact Hc.
  - apply Hg. subst w. exists c, a. split; [reflexivity|]. right. exact Hc.
  - eapply Hopen; eauto. rewrite <- E, <- !app_assoc. reflexivity.
  - eapply Hopen; eauto. rewrite <- E, <- !app_assoc. reflexivity.
  - apply Hcom. right. left. exists (body ++ chars "*/" ++ a). rewrite <- E, <- !app_assoc. reflexivity.
Qed.

Lemma token_start_no_trivia b w html gap rest f' :
  token_start b w -> trivia html b gap rest f' -> gap ++ rest = w -> gap = [] /\ f' = b.
Proof.
  intros Hw Ht E. destruct Ht as [f a|f s1 s2 a f1 f2 Hp _]; [auto|].
  exfalso. eapply token_start_no_piece; eauto. rewrite <- E, <- app_assoc. reflexivity.
Qed.

Lemma token_start_nonempty b w : token_start b w -> w <> [].
Proof.
  intros [(st & s & a & v & -> & Hl & _)|(r & ->)]; [|discriminate].
  apply lexeme_nonempty in Hl. destruct s; [congruence|discriminate].
Qed.

(** ** Facts about [tok_at] *)

Lemma tok_at_text pre f t pre1 f1 :
  tok_at pre f t pre1 f1 ->
  exists gap s after, D = pre ++ gap ++ s ++ after /\ pre1 = pre ++ gap ++ s /\ s <> [] /\
    t_span t = mk_span (rpos (pre ++ gap)) (rpos (pre ++ gap ++ s)) /\
    token_start (t_fol t) (s ++ after).
Proof.
  intros [html st gap s after v f2 b E Hg Hc Hl Hb Hm|html gap s after v f2 b E Hg Hl Hb];
    exists gap, s, after; repeat split; auto.
  - now apply lexeme_nonempty in Hl.
  - left. exists st, s, after, v. auto.
  - now apply template_continue_nonempty in Hl.
  - right. apply template_continue_head in Hl. destruct Hl as [(r & ->) _]. simpl. eauto.
Qed.

Lemma tok_at_bounds pre f t pre1 f1 :
  tok_at pre f t pre1 f1 ->
  rpos pre <= tstart t /\ tstart t < tend t /\ tend t = rpos pre1 /\ tend t <= blen D /\
  (exists rest, D = pre1 ++ rest).
Proof.
  intros H. apply tok_at_text in H. destruct H as (gap & s & after & E & -> & Hs & Hsp & _).
  unfold tstart, tend. rewrite Hsp. cbn.
  pose proof (rpos_app_ge pre gap). pose proof (rpos_app_ge (pre ++ gap) s).
  rewrite <- !app_assoc in *. destruct s; [congruence|]. cbn [length] in *.
  repeat split; try lia.
  - pose proof (rpos_le (pre ++ gap ++ n :: s)) as Hle.
    assert (E2 : D = (pre ++ gap ++ n :: s) ++ after) by (rewrite E, <- !app_assoc; reflexivity).
    rewrite E2, blen_app. lia.
  - exists after. rewrite E, <- !app_assoc. reflexivity.
Qed.

(** In the lexer state [st], after the text [pre], there is neither a token of
    the lexical grammar nor the end of the source. *)
Definition unreadable (st : lexer_state) (pre : str) (g : bool) (rest : str) : Prop :=
  (inside_template st = false ->
    (forall t p g', ~ lexed D st pre g t p g') /\ forall f', ~ trivia (html_comment_allowed st) g rest [] f') /\
  (inside_template st = true -> forall t p g', ~ lexed_template D pre g t p g').

(** After the text [pre] and perhaps some trivia, in some lexer state. *)
Definition stuck (pre : str) (f : bool) : Prop :=
  exists st html gap rest f1 g, D = pre ++ gap ++ rest /\ trivia html f gap rest f1 /\ (g = true -> f1 = true) /\
    unreadable st (pre ++ gap) g rest.

Lemma read_err_unreadable st pre rest g e L :
  D = pre ++ rest -> read (LX D st pre rest g) = (Err (LFail e), L) -> e <> end_of_stream ->
  unreadable st pre g rest.
Proof.
  intros HD H He. split.
  - intros Ht. split.
    + intros t p g' Hl. destruct (read_complete D st _ _ _ _ _ _ HD Hl) as (r & _ & E). rewrite E in H. discriminate.
    + intros f' Hr. rewrite (read_end_complete D st _ _ _ _ Ht Hr) in H. injection H as <- <-. now apply He.
  - intros Ht t p g' Hl. destruct (read_template_complete D st _ _ _ _ _ _ Ht HD Hl) as (r & _ & E). rewrite E in H. discriminate.
Qed.

(** Reading again at the start of a token. *)
Definition reader_ok (e : lex_error) : Prop :=
  e = end_of_stream \/ eok D e.

Lemma reread_at pre f t pre1 f1 :
  tok_at pre f t pre1 f1 ->
  exists q w, D = q ++ w /\ tstart t = rpos q /\
  forall st,
  match read (LX D st q w (t_fol t)) with
  | (Ok t', L') => exists pre1' r' f1', L' = LX D st pre1' r' f1' /\ D = pre1' ++ r' /\
      tok_at pre f t' pre1' f1' /\ hd_rel t t'
  | (Err (LFail e), L') => exists p r g, L' = LX D st p r g /\ D = p ++ r /\ eok D e /\ stuck pre f
  | (Err _, _) => False
  end.
Proof.
  intros H.
  assert (X : exists html gap s after f2, D = pre ++ gap ++ s ++ after /\
     trivia html f gap (s ++ after) f2 /\ token_start (t_fol t) (s ++ after) /\
     tstart t = rpos (pre ++ gap) /\ tend t = rpos (pre ++ gap ++ s) /\
     (t_fol t = true -> f2 = true) /\
     ((exists st, lexeme st s after (t_value t) /\ ~ starts_comment (s ++ after)) \/
      (unstable (t_value t) /\ exists r, s ++ after = ch "}" :: r))).
  { destruct H as [html st gap s after v f2 b E Hg Hc Hl Hb Hm|html gap s after v f2 b E Hg Hl Hb];
      exists html, gap, s, after, f2; repeat split; auto.
    - left. exists st, s, after, v. auto.
    - left. exists st. auto.
    - right. apply template_continue_head in Hl. destruct Hl as [(r & ->) _]. simpl. eauto.
    - discriminate.
    - right. apply template_continue_head in Hl. destruct Hl as [(r & ->) U]. simpl. eauto. }
  clear H. destruct X as (html & gap & s & after & f2 & E & Hg & Hst & Hts & Hte & Hf & Hv).
  exists (pre ++ gap), (s ++ after).
  assert (E' : D = (pre ++ gap) ++ s ++ after) by (rewrite E, <- !app_assoc; reflexivity).
  split; [exact E'|]. split; [exact Hts|]. intros st.
  pose proof (read_spec D st (pre ++ gap) (s ++ after) (t_fol t)) as R. unfold read_post in R.
  rewrite <- E' in R.
  destruct (read (LX D st (pre ++ gap) (s ++ after) (t_fol t))) as [[t'|[e| |]] L'] eqn:Hread; auto.
  - destruct R as (p & r & g & -> & Er & R). exists p, r, g. split; [reflexivity|]. split; [auto|].
    destruct (inside_template st).
    + destruct R as [s' after' v' ED Hs].
      assert (Es : s ++ after = s' ++ after').
      { rewrite E' in ED. apply app_inv_head in ED. auto. }
      pose proof (template_continue_head _ _ Hs) as [(r0 & Hr0) U'].
      split.
      * rewrite <- !app_assoc. eapply ta_template with (after := after') (f1 := f2); eauto.
        -- rewrite E, Es. reflexivity.
        -- rewrite <- Es. eauto.
      * split; [exact Hts|]. right. split; [|exact U'].
        destruct Hv as [(st0 & Hl & Hc)|[U _]]; auto.
        eapply lexeme_brace; eauto. rewrite Es, Hr0. reflexivity.
    + destruct R as [gap' s' after' v' f1' _ ED Hg' Hc' Hl' Hm'].
      assert (Es : s ++ after = gap' ++ s' ++ after').
      { rewrite E' in ED. apply app_inv_head in ED. auto. }
      destruct (token_start_no_trivia _ _ _ _ _ _ Hst Hg' (eq_sym Es)) as [-> ->].
      simpl in Es. rewrite !app_nil_r in *. rewrite <- ?app_assoc. simpl app.
      split.
      * eapply ta_normal with (after := after') (f1 := f2); eauto.
        -- rewrite E, Es. reflexivity.
        -- rewrite <- Es. eauto.
      * destruct Hv as [(st0 & Hl & Hc)|[U (r0 & Hr0)]].
        -- destruct (lexeme_two _ _ _ _ _ _ _ _ Hl Hl' Es Hc) as [[<- Hvv]|[U U']].
           ++ split; [exact Hts|]. left. destruct t as [tv tf [ta tb]]. cbn in *. subst.
              unfold tstart, tend in *. cbn in *. subst. reflexivity.
           ++ split; [exact Hts|]. right. auto.
        -- split; [exact Hts|]. right. split; [exact U|].
           eapply lexeme_brace; eauto. rewrite <- Es. eauto.
  - destruct R as (p & r & g & -> & Er & R). exists p, r, g. split; [reflexivity|]. split; [auto|].
    destruct R as [R|(-> & _ & _ & R)].
    { split; [exact R|]. exists st, html, gap, (s ++ after), f2, (t_fol t).
      split; [exact E|]. split; [exact Hg|]. split; [exact Hf|].
      eapply read_err_unreadable; [exact E'|rewrite Hread; reflexivity|]. intros ->. destruct R as (_ & _ & R). now apply R. }
    exfalso.
    destruct (token_start_no_trivia _ _ _ _ _ _ Hst R (app_nil_r _)) as [Hn _].
    apply token_start_nonempty in Hst. auto.
Qed.

(** Reading the next token. *)
Definition look (pre : str) (f : bool) (r : result (nat * token) lfail) (pre1 : str) (f1 : bool) : Prop :=
  match r with
  | Ok (q, t) => q = tend t /\ tok_at pre f t pre1 f1
  | Err (LFail e) => reader_ok e /\ (e = end_of_stream -> eos_at pre f) /\ (e <> end_of_stream -> stuck pre f)
  | Err _ => False
  end.

Lemma eok_not_end e : eok D e -> e <> end_of_stream.
Proof. intros (_ & _ & H) ->. exact H. Qed.

Lemma next_at st pre rest f :
  D = pre ++ rest ->
  exists r p w g, lexer_next (LX D st pre rest f) = (r, LX D st p w g) /\ D = p ++ w /\ look pre f r p g.
Proof.
  intros E. pose proof (read_spec D st pre rest f) as R. unfold read_post in R. rewrite <- E in R.
  unfold lexer_next. destruct (read (LX D st pre rest f)) as [[t|[e| |]] L'] eqn:Hread; try contradiction.
  - destruct R as (p & r & g & -> & Er & R). eexists _, p, r, g. split; [reflexivity|].
    split; [auto|]. split; [reflexivity|].
    destruct (inside_template st).
    + destruct R as [s after v ED Hs].
      pose proof (ta_template pre f (html_comment_allowed st) [] s after v f f) as X.
      rewrite app_nil_r in X. simpl app in X. apply X; auto. constructor.
    + destruct R as [gap s after v f1 _ ED Hg Hc Hl Hm].
      eapply ta_normal with (after := after) (f1 := f1); eauto.
  - destruct R as (p & r & g & -> & Er & R). eexists _, p, r, g. split; [reflexivity|].
    split; [auto|]. cbn. destruct R as [R|(-> & _ & _ & R)].
    + split; [right; exact R|]. split; [intros ->; destruct (eok_not_end _ R eq_refl)|]. intros Hne.
      exists st, true, [], rest, f, f. split; [exact E|]. split; [constructor|]. split; [auto|].
      rewrite app_nil_r. eapply read_err_unreadable; eauto.
    + split; [left; reflexivity|]. split; [|congruence]. intros _. exists (html_comment_allowed st), rest, g. auto.
Qed.

(** ** Chains *)

Lemma chain_app pre f a pre1 f1 b pre2 f2 :
  chain pre f a pre1 f1 -> chain pre1 f1 b pre2 f2 -> chain pre f (a ++ b) pre2 f2.
Proof. induction 1; simpl; auto. intros. econstructor; eauto. Qed.

Lemma chain_snoc pre f a pre1 f1 t pre2 f2 :
  chain pre f a pre1 f1 -> tok_at pre1 f1 t pre2 f2 -> chain pre f (a ++ [t]) pre2 f2.
Proof. intros. eapply chain_app; eauto. econstructor; eauto. constructor. Qed.

Lemma chain_split pre f a b pre2 f2 :
  chain pre f (a ++ b) pre2 f2 -> exists pre1 f1, chain pre f a pre1 f1 /\ chain pre1 f1 b pre2 f2.
Proof.
  revert pre f. induction a as [|t a IH]; simpl; intros pre f H.
  - exists pre, f. split; auto. constructor.
  - inversion H as [|? ? ? p1 g1 ? ? ? Ht Hc]; subst. destruct (IH _ _ Hc) as (p & g & H1 & H2).
    exists p, g. split; auto. econstructor; eauto.
Qed.

End TokChain.
