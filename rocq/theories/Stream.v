(** * Stream: the parser's reader on a source that is one known sequence of tokens. *)

From Verif Require Import Base Tokens PeekReader CharReader Lexer LexSpec LexChars LexerFacts LexProps
  LexSound LexSound2 LexSound3 LexComplete LexComplete2 LexComplete3 LexComplete4 LexComplete5
  LexComplete6 Ast Prog TokChain ParseState Parser Source.
Local Open Scope string_scope.
Local Open Scope list_scope.

(** A token that reads differently where a regular expression is allowed, or
    that a template continues. *)
Definition slashy (v : tvalue) : bool :=
  match v with VPunct PSlash | VPunct PSlashEqual => true | _ => false end.

Section Stream.
Context {PF : Platform}.
Variable D : str.
Variable st : lexer_state.
Hypothesis Hin : inside_template st = false.
Hypothesis Hre : regex_allowed st = false.
Hypothesis Hasc : ascii_str D = true.

Definition eos : result (nat * token) lfail := Err (LFail end_of_stream).
Definition shown (ts : list token) : result (nat * token) lfail :=
  match ts with t :: _ => Ok (tend t, t) | [] => eos end.

(** The state [s] shows the tokens [ts], the last of the source.  (Of the token
    after the [/] of a regular expression nothing is said.) *)
Definition at_ (ts : list token) (s : pst) : Prop :=
  exists p r g q n,
    ps_rd s = mk_pr (LX D st p r g) (shown ts) n q 0 /\ D = p ++ r /\ okr D n /\
    (ord_hd (tl ts) -> n = shown (tl ts) /\ (ord_hd (tl (tl ts)) -> source_tokens D st p g (tl (tl ts)))).

(** The tokens [ts] can be read from the start of the first of them. *)
Definition from_start (ts : list token) : Prop :=
  match ts with
  | [] => True
  | t :: _ => ordinary t -> exists q w, D = q ++ w /\ tstart t = rpos q /\ source_tokens D st q (t_fol t) ts
  end.

Lemma lexed_again_same pre f t pre' f' :
  lexed D st pre f t pre' f' ->
  exists q w, D = q ++ w /\ tstart t = rpos q /\ lexed D st q (t_fol t) t pre' f'.
Proof.
  intros [gap s after v f1 _ E Hg Hc Hs Hm].
  exists (pre ++ gap), (s ++ after). split; [rewrite E; now rewrite <- !app_assoc|]. split; [reflexivity|].
  cbn [t_fol].
  assert (X : lexed D st (pre ++ gap) f1
                (mk_token v f1 (mk_span (rpos ((pre ++ gap) ++ [])) (rpos ((pre ++ gap) ++ [] ++ s))))
                ((pre ++ gap) ++ [] ++ s) false).
  { eapply lexed_intro with (after := after); eauto.
    - rewrite E. now rewrite <- !app_assoc.
    - constructor. }
  rewrite app_nil_r in X. simpl app in X. rewrite <- app_assoc in X. exact X.
Qed.

Lemma template_special s v : template_continue s v -> special v = true.
Proof. intros []; reflexivity. Qed.

Lemma from_start_suffix pre f ts : source_tokens D st pre f ts -> forall a b, ts = a ++ b -> from_start b.
Proof.
  induction 1 as [|pre f t pre' f' ts Hl Hts IH|pre f gap s after f1 ts E Hg Hc Hs Hts IH|pre f gap s after v f1 ts E Hg Hs Hts IH];
    intros a b Eb.
  - symmetry in Eb. apply app_eq_nil in Eb. destruct Eb as [_ ->]. exact Logic.I.
  - destruct a as [|x a]; [|injection Eb as _ Eb; eapply IH; exact Eb]. cbn [app] in Eb. subst b. intros _.
    destruct (lexed_again_same _ _ _ _ _ Hl) as (q & w & E & Et & Hl').
    exists q, w. split; auto. split; auto. econstructor; eauto.
  - destruct a as [|x [|y a]]; [| |injection Eb as _ _ Eb; eapply IH; exact Eb]; cbn [app] in Eb.
    + subst b. intros _.
      exists (pre ++ gap), (s ++ after). split; [rewrite E, <- app_assoc; reflexivity|]. split; [reflexivity|]. cbn [t_fol].
      assert (X : source_tokens D st (pre ++ gap) f1
        (mk_token (VPunct (slash_of s)) f1
           (mk_span (rpos ((pre ++ gap) ++ [])) (rpos ((pre ++ gap) ++ []) + length (punct_str (slash_of s)))) ::
         mk_token (VLiteral (TLRegexp s)) f1 (mk_span (rpos ((pre ++ gap) ++ [])) (rpos ((pre ++ gap) ++ [] ++ s))) :: ts)).
      { eapply so_regexp with (after := after); eauto.
        - rewrite E; now rewrite <- !app_assoc.
        - constructor.
        - simpl app. rewrite <- app_assoc. exact Hts. }
      rewrite app_nil_r in X. simpl app in X. rewrite <- !app_assoc in X. exact X.
    + injection Eb as _ <-. intros X. discriminate X.
  - destruct a as [|x [|y a]]; [| |injection Eb as _ _ Eb; eapply IH; exact Eb]; cbn [app] in Eb.
    + subst b. intros _.
      exists (pre ++ gap), (s ++ after). split; [rewrite E, <- app_assoc; reflexivity|]. split; [reflexivity|]. cbn [t_fol].
      assert (X : source_tokens D st (pre ++ gap) f1
        (mk_token (VPunct PBracketClose) f1 (mk_span (rpos ((pre ++ gap) ++ [])) (rpos ((pre ++ gap) ++ []) + 1)) ::
         mk_token v false (mk_span (rpos ((pre ++ gap) ++ [])) (rpos ((pre ++ gap) ++ [] ++ s))) :: ts)).
      { eapply so_template with (after := after); eauto.
        - rewrite E; now rewrite <- !app_assoc.
        - constructor.
        - simpl app. rewrite <- app_assoc. exact Hts. }
      rewrite app_nil_r in X. simpl app in X. rewrite <- !app_assoc in X. exact X.
    + injection Eb as _ <-. intros X. unfold ordinary in X. cbn [t_value] in X. rewrite (template_special _ _ Hs) in X. discriminate X.
Qed.

Lemma lexed_ordinary pre f t pre' f' : lexed D st pre f t pre' f' -> ordinary t.
Proof.
  intros [gap s after v f1 _ E Hg Hc Hs Hm]. unfold ordinary. cbn [t_value]. destruct Hs as [| ? ? ? ? ? Hv| | | | |]; auto.
  - destruct Hv as [(k & _ & ->)|[_ ->]]; reflexivity.
  - congruence.
Qed.
Lemma source_ord pre f ts : source_tokens D st pre f ts -> ord_hd ts.
Proof. intros []; cbn; auto; try reflexivity. eapply lexed_ordinary; eauto. Qed.

(** What a special token can follow. *)
Lemma opener_before pre f ts : source_tokens D st pre f ts ->
  forall a t u b, ts = a ++ t :: u :: b -> special (t_value u) = true -> opener (t_value t) = true.
Proof.
  induction 1 as [|pre f t0 pre' f' ts Hl Hts IH|pre f gap s after f1 ts E Hg Hc Hs Hts IH|pre f gap s after v f1 ts E Hg Hs Hts IH];
    intros a t u b Eb Hu.
  - destruct a; discriminate Eb.
  - destruct a as [|x a]; cbn [app] in Eb; [|injection Eb as _ Eb; eapply IH; eauto]. injection Eb as <- ->.
    apply source_ord in Hts. cbn [ord_hd] in Hts. unfold ordinary in Hts. congruence.
  - destruct a as [|x [|y a]]; cbn [app] in Eb.
    + injection Eb as <- _ _. cbn [t_value]. unfold slash_of. destruct s as [|? [|d ?]]; try reflexivity. destruct (N.eqb d (ch "=")); reflexivity.
    + injection Eb as _ _ ->. apply source_ord in Hts. cbn [ord_hd] in Hts. unfold ordinary in Hts. congruence.
    + injection Eb as _ _ Eb. eapply IH; eauto.
  - destruct a as [|x [|y a]]; cbn [app] in Eb.
    + injection Eb as <- _ _. reflexivity.
    + injection Eb as _ _ ->. apply source_ord in Hts. cbn [ord_hd] in Hts. unfold ordinary in Hts. congruence.
    + injection Eb as _ _ Eb. eapply IH; eauto.
Qed.

Lemma slash_longest s after r : s ++ after = ch "/" :: r -> ~ starts_comment (s ++ after) -> 2 <= length s ->
  longest_punct (slash_of s) (s ++ after) /\ exists rest, s ++ after = punct_str (slash_of s) ++ rest.
Proof.
  intros E Hc Hl. destruct s as [|a [|b s]]; cbn [length] in Hl; try lia. cbn [app] in *. injection E as -> <-.
  cbn [slash_of]. destruct (N.eqb_spec b (ch "=")) as [->|Hb].
  - split; [|exists (s ++ after); reflexivity]. split.
    + exists (s ++ after). split; [reflexivity|]. intros [? _]; discriminate.
    + intros q (x & Eq & _). destruct q; try discriminate Eq; cbn; lia.
  - split; [|exists (b :: s ++ after); reflexivity]. split.
    + exists (b :: s ++ after). split; [reflexivity|]. intros [? _]; discriminate.
    + intros q (x & Eq & _). destruct q; try discriminate Eq; cbn; try lia.
      exfalso. apply Hb. cbn in Eq. now injection Eq.
Qed.

(** The first of the tokens, as the lexer reads it. *)
Lemma head_lexed p g t ts : source_tokens D st p g (t :: ts) ->
  exists p' g', lexed D st p g t p' g' /\ (ord_hd ts -> source_tokens D st p' g' ts).
Proof.
  intros H. inversion H as [|pre0 f0 t0 pre' f' ts0 Hl Hts|pre0 f0 gap s after f1 ts0 E Hg Hc Hs Hts E1 E2 E3|pre0 f0 gap s after v f1 ts0 E Hg Hs Hts E1 E2 E3].
  - exists pre', f'. auto.
  - clear H. subst t ts pre0 f0.
    assert (Hsl : exists body r2, s = ch "/" :: body ++ ch "/" :: r2).
    { remember (VLiteral (TLRegexp s)) as v eqn:Ev.
      destruct Hs as [p0 a Hp _ _|s v tv a Hw Hv _ _|s a Hn _|q s v a Hq _|s v a _|s v a _|s fl a _ _ _ _]; try discriminate.
      - destruct Hv as [(k & _ & ->)|[_ ->]]; discriminate.
      - exists s, fl. reflexivity. }
    destruct Hsl as (bd & r2 & Es).
    assert (Hlen : 2 <= length s). { rewrite Es. cbn [length]. rewrite app_length. cbn. lia. }
    destruct (slash_longest s after ((bd ++ ch "/" :: r2) ++ after)) as [Hlp (rest & Er)]; auto.
    { rewrite Es. reflexivity. }
    exists (p ++ gap ++ punct_str (slash_of s)), false.
    split; [|intros X; discriminate X].
    assert (Ha : ascii_str (p ++ gap ++ punct_str (slash_of s)) = true).
    { pose proof Hasc as A0. rewrite E, Er in A0. rewrite !ascii_str_app in A0 |- *.
      apply andb_true_iff in A0. destruct A0 as [A1 A2]. apply andb_true_iff in A2. destruct A2 as [A2 A3].
      rewrite ascii_str_app in A3. apply andb_true_iff in A3. destruct A3 as [A3 _]. now rewrite A1, A2, A3. }
    replace (rpos (p ++ gap) + length (punct_str (slash_of s))) with (rpos (p ++ gap ++ punct_str (slash_of s))).
    + eapply lexed_intro with (after := rest); eauto.
      * rewrite E, Er. reflexivity.
      * rewrite <- Er. exact Hg.
      * rewrite <- Er. exact Hc.
      * apply lexeme_punct.
        -- rewrite <- Er. exact Hlp.
        -- intros X. exfalso. clear - X. unfold slash_of in X. destruct s as [|? [|? ?]]; try discriminate.
           destruct (N.eqb n0 (ch "=")); discriminate.
        -- congruence.
      * intros _ X. exfalso. clear - X. unfold slash_of in X. destruct s as [|? [|? ?]]; try discriminate.
        destruct (N.eqb n0 (ch "=")); discriminate.
    + rewrite app_assoc in Ha |- *. rewrite rpos_ascii by exact Ha. rewrite ascii_str_app in Ha. apply andb_true_iff in Ha.
      destruct Ha as [Ha _]. rewrite (rpos_ascii _ Ha), app_length. reflexivity.
  - clear H. subst t ts pre0 f0. pose proof (template_special _ _ Hs) as Hsp.
    assert (Es : exists w, s = ch "}" :: w) by (destruct Hs; eexists; reflexivity). destruct Es as (w & Es).
    exists (p ++ gap ++ punct_str PBracketClose), false. split; [|intros X; cbn [ord_hd] in X; unfold ordinary in X; cbn [t_value] in X; congruence].
    assert (Ha : ascii_str (p ++ gap ++ punct_str PBracketClose) = true).
    { pose proof Hasc as A0. rewrite E, Es in A0. cbn [app] in A0. rewrite !ascii_str_app in A0 |- *.
      apply andb_true_iff in A0. destruct A0 as [A1 A2]. apply andb_true_iff in A2. destruct A2 as [A2 A3].
      rewrite A1, A2. reflexivity. }
    replace (rpos (p ++ gap) + 1) with (rpos (p ++ gap ++ punct_str PBracketClose)).
    + eapply lexed_intro with (after := w ++ after); eauto.
      * rewrite E, Es. reflexivity.
      * rewrite Es in Hg. exact Hg.
      * intros [X|[X|X]]; destruct X as (x & X); discriminate X.
      * apply lexeme_punct.
        -- split.
           ++ exists (w ++ after). split; [reflexivity|]. intros [? _]; discriminate.
           ++ intros q (x & Eq & _). destruct q; try discriminate Eq; cbn; lia.
        -- discriminate.
        -- congruence.
      * discriminate.
    + rewrite app_assoc in Ha |- *. rewrite rpos_ascii by exact Ha. rewrite ascii_str_app in Ha. apply andb_true_iff in Ha.
      destruct Ha as [Ha _]. rewrite (rpos_ascii _ Ha), app_length. reflexivity.
Qed.

(** Reading the next token. *)
Lemma next_from p r g ts :
  D = p ++ r -> source_tokens D st p g ts ->
  exists p' r' g', lexer_next (LX D st p r g) = (shown ts, LX D st p' r' g') /\ D = p' ++ r' /\
    (ord_hd (tl ts) -> source_tokens D st p' g' (tl ts)).
Proof.
  intros E H. unfold lexer_next. destruct ts as [|t ts].
  - inversion H as [pre0 f0 gap f' Eg Hg| | |]. subst pre0 f0.
    assert (r = gap) by (rewrite E in Eg; now apply app_inv_head in Eg). subst gap.
    rewrite (read_end_complete D st _ _ _ _ Hin Hg).
    exists (p ++ r), [], f'. split; [reflexivity|]. split; [now rewrite app_nil_r|].
    intros _. eapply so_end; [rewrite app_nil_r; exact E|constructor].
  - destruct (head_lexed _ _ _ _ H) as (p' & g' & Hl & Hts).
    destruct (read_complete D st _ _ _ _ _ _ E Hl) as (r' & E' & Hr). rewrite Hr.
    exists p', r', g'. auto.
Qed.

Lemma shown_okr ts : okr D (shown ts).
Proof. destruct ts; simpl; auto. left; reflexivity. Qed.

(** Reading something. *)
Lemma next_some p r g : D = p ++ r ->
  exists n p' r' g', lexer_next (LX D st p r g) = (n, LX D st p' r' g') /\ D = p' ++ r' /\ okr D n.
Proof.
  intros E. destruct (next_at D st p r g E) as (n & p' & w' & g' & En & ED & Hl).
  exists n, p', w', g'. split; auto. split; auto. now apply look_okr in Hl.
Qed.

Definition stok (ts : list token) : rtoken := match ts with t :: _ => Ok t | [] => Err end_of_stream end.

Lemma strip_shown ts : strip (shown ts) = stok ts.
Proof. destruct ts; reflexivity. Qed.

Lemma at_cur ts s : at_ ts s -> cur s = stok ts.
Proof. intros (p & r & g & q & n & E & _). unfold cur. rewrite E. apply strip_shown. Qed.

Lemma at_nxt ts s : ord_hd (tl ts) -> at_ ts s -> nxt s = stok (tl ts).
Proof. intros Ho (p & r & g & q & n & E & _ & _ & H). unfold nxt. rewrite E. destruct (H Ho) as [-> _]. apply strip_shown. Qed.

(** One token after another: the reader after the first two reads. *)
Lemma at_two p r g ts c n q lg : ord_hd (tl ts) -> D = p ++ r -> c = shown ts -> n = shown (tl ts) ->
  (ord_hd (tl (tl ts)) -> source_tokens D st p g (tl (tl ts))) ->
  at_ ts (mk_pst (mk_pr (LX D st p r g) c n q 0) lg).
Proof.
  intros Ho E -> -> H. exists p, r, g, q, (shown (tl ts)). cbn [ps_rd]. split; [reflexivity|]. split; [exact E|].
  split; [apply shown_okr|]. auto.
Qed.

(** Both reads, from the start of [ts]. *)
Lemma two_reads p r g ts : D = p ++ r -> source_tokens D st p g ts ->
  exists p1 r1 g1 n p2 r2 g2, lexer_next (LX D st p r g) = (shown ts, LX D st p1 r1 g1) /\
    lexer_next (LX D st p1 r1 g1) = (n, LX D st p2 r2 g2) /\ D = p2 ++ r2 /\ okr D n /\
    (ord_hd (tl ts) -> n = shown (tl ts) /\ (ord_hd (tl (tl ts)) -> source_tokens D st p2 g2 (tl (tl ts)))).
Proof.
  intros E H. destruct (next_from _ _ _ _ E H) as (p1 & r1 & g1 & E1 & ED1 & H1).
  destruct (next_some _ _ g1 ED1) as (n & p2 & r2 & g2 & E2 & ED2 & Hn).
  exists p1, r1, g1, n, p2, r2, g2. split; auto. split; auto. split; auto. split; auto.
  intros Ho. specialize (H1 Ho). destruct (next_from _ _ _ _ ED1 H1) as (p3 & r3 & g3 & E3 & ED3 & H3).
  rewrite E2 in E3. apply pair_equal_spec in E3. destruct E3 as [-> EL]. split; [reflexivity|].
  unfold LX in EL. injection EL as E1' E2' E3' E4'. intros Ho2. specialize (H3 Ho2).
  assert (EP : p2 = p3). { rewrite ED2 in ED3. subst r3. now apply app_inv_tail in ED3. }
  subst p3 g3. exact H3.
Qed.

Lemma at_consume t ts s : ord_hd ts -> at_ (t :: ts) s ->
  exists s', step OConsume s = SDone (Ok t) s' /\ at_ ts s' /\ pos s' = tend t.
Proof.
  intros Ho (p & r & g & q & n & E & ED & Hn & H). cbn [step]. unfold cur. rewrite E.
  unfold pr_consume. cbn [pr_inner pr_current pr_next pr_offset pr_position tl shown].
  destruct (H Ho) as [-> H']. cbn [tl] in *.
  destruct (next_some p r g ED) as (n' & p' & r' & g' & En & ED' & Hn'). rewrite En.
  rewrite (guard_ok D) by (first [apply shown_okr|exact Hn']). cbn [strip]. eexists. split; [reflexivity|]. split.
  - exists p', r', g', (tend t + 0), n'. cbn [ps_rd]. split; [reflexivity|]. split; [exact ED'|]. split; [exact Hn'|].
    intros Ho2. specialize (H' Ho2). destruct (next_from _ _ _ _ ED H') as (p3 & r3 & g3 & E3 & ED3 & H3).
    rewrite En in E3. apply pair_equal_spec in E3. destruct E3 as [-> EL]. split; [reflexivity|].
    unfold LX in EL. injection EL as E1' E2' E3' E4'. intros Ho3. specialize (H3 Ho3).
    assert (EP : p' = p3). { rewrite ED' in ED3. subst r3. now apply app_inv_tail in ED3. }
    subst p3 g3. exact H3.
  - unfold pos. cbn. lia.
Qed.

Lemma at_consume_end s : at_ [] s ->
  exists s', step OConsume s = SDone (Err end_of_stream) s' /\ at_ [] s' /\ pos s' = pos s.
Proof.
  intros (p & r & g & q & n & E & ED & Hn & H). cbn [step]. unfold cur, pos. rewrite E.
  destruct (H Logic.I) as [-> H']. specialize (H' Logic.I). cbn [tl] in *.
  unfold pr_consume. cbn [pr_inner pr_current pr_next pr_offset pr_position tl shown eos].
  destruct (next_from _ _ _ _ ED H') as (p' & r' & g' & -> & ED' & H2).
  rewrite (guard_ok D) by (apply (shown_okr [])). cbn [strip]. eexists. split; [reflexivity|]. split.
  - apply at_two; auto. exact Logic.I.
  - reflexivity.
Qed.

Lemma at_rewind ts s t b : at_ ts s -> ordinary t -> from_start (t :: b) ->
  exists s', step (ORewind t) s = SDone tt s' /\ at_ (t :: b) s' /\ pos s' = pos s.
Proof.
  intros (p & r & g & q & n & E & ED & Hn & H) Ho Hf. destruct (Hf Ho) as (q0 & w0 & E0 & Et & H0).
  cbn [step]. unfold pr_rewind_to, pos. rewrite E. cbn [pr_inner pr_position pr_offset].
  destruct (rewind_LX D q0 w0 t (LX D st p r g) E0 Et eq_refl) as [->|[-> Ha]]; [|congruence].
  change (lx_state (LX D st p r g)) with st.
  destruct (two_reads _ _ _ _ E0 H0) as (p1 & r1 & g1 & n1 & p2 & r2 & g2 & -> & -> & E2 & Hn1 & H2).
  rewrite (guard_ok D) by (first [apply shown_okr|exact Hn1]). eexists. split; [reflexivity|]. split.
  - exists p2, r2, g2, q, n1. cbn [ps_rd]. split; [reflexivity|]. auto.
  - reflexivity.
Qed.

Lemma at_reread t ts s st0 : at_ (t :: ts) s -> from_start (t :: ts) -> inside_template st0 = false ->
  ordinary t -> ord_hd ts -> slashy (t_value t) = false ->
  exists s', step (OReread st0) s = SDone tt s' /\ at_ (t :: ts) s' /\ pos s' = pos s.
Proof.
  intros (p & r & g & q & n & E & ED & Hn & H) H0 Hi Ho Ho1 Hv.
  cbn [step]. unfold pr_reread_with_state, pos. rewrite E. cbn [pr_inner pr_position pr_offset pr_current shown].
  destruct (H0 Ho) as (q0 & w0 & E0 & Et & H1).
  destruct (rewind_LX D q0 w0 t (LX D st p r g) E0 Et eq_refl) as [->|[-> Ha]]; [|congruence].
  change (lx_state (LX D st p r g)) with st.
  destruct (head_lexed _ _ _ _ H1) as (p1 & f1 & Hl & Hts). specialize (Hts Ho1).
  (* the same token in the other state *)
  assert (X : exists r1, D = p1 ++ r1 /\
            lexer_read_with_state st0 (LX D st q0 w0 (t_fol t)) = (Ok (tend t, t), LX D st p1 r1 f1)).
  { clear H H0 H1. inversion Hl as [gap s0 after v f2 Hin' EE Hg Hc Hs Hm Ett Ep Ef]. subst t. cbn [t_value t_fol] in *.
    subst p1 f1.
    assert (X : lexed D st0 q0 f2 (mk_token v f2 (mk_span (rpos (q0 ++ gap)) (rpos (q0 ++ gap ++ s0))))
                  (q0 ++ gap ++ s0) false).
    { assert (gap = []) as ->.
      { unfold tstart in Et. cbn in Et. pose proof (rpos_app_ge q0 gap). destruct gap; auto.
        cbn [length] in *. lia. }
      cbn [app] in *.
      apply (lexed_intro D st0 q0 f2 [] s0 after v f2); auto.
      - constructor.
      - destruct Hs; try solve [econstructor; eauto].
        + apply lexeme_punct; auto. intros _. split; intros ->; discriminate.
        + congruence. }
    destruct (read_complete D st0 _ _ _ _ _ _ E0 X) as (r1 & E1 & R1). exists r1. split; auto.
    unfold lexer_read_with_state.
    change (lexer_set_state st0 (LX D st q0 w0 f2)) with (LX D st0 q0 w0 f2).
    unfold lexer_next. rewrite R1. reflexivity. }
  destruct X as (r1 & E1 & ->).
  destruct (next_from _ _ _ _ E1 Hts) as (p2 & r2 & g2 & -> & E2 & H2).
  rewrite (guard_ok D); [|exact Logic.I|apply shown_okr]. eexists. split; [reflexivity|]. split; [|reflexivity].
  apply at_two; auto.
Qed.

(** Asking for a regular expression, or for the rest of a template. *)
Definition opens (st0 : lexer_state) (v : tvalue) : Prop :=
  match v with
  | VLiteral (TLRegexp _) => st0 = ls_regex_allowed
  | VTemplateMiddle _ | VTemplateTail _ => st0 = ls_inside_template
  | _ => False
  end.

Lemma at_open t u ts s st0 : at_ (t :: u :: ts) s -> from_start (t :: u :: ts) -> ordinary t -> opens st0 (t_value u) ->
  exists s', step (OReread st0) s = SDone tt s' /\ at_ (u :: ts) s'.
Proof.
  intros (p & r & g & q & n & E & ED & Hn & _) Hf Ho Hv.
  cbn [step]. unfold pr_reread_with_state. rewrite E. cbn [pr_inner pr_position pr_offset pr_current shown].
  destruct (Hf Ho) as (q0 & w0 & E0 & Et & H0).
  destruct (rewind_LX D q0 w0 t (LX D st p r g) E0 Et eq_refl) as [->|[-> Ha]]; [|congruence].
  change (lx_state (LX D st p r g)) with st.
  assert (X : exists p1 r1 g1, D = p1 ++ r1 /\
            lexer_read_with_state st0 (LX D st q0 w0 (t_fol t)) = (Ok (tend u, u), LX D st p1 r1 g1) /\
            source_tokens D st p1 g1 ts).
  { clear E ED Hn Hf.
    inversion H0 as [|pre0 f0 t0 pre' f' ts0 Hl Hts|pre0 f0 gap s0 after f1 ts0 EE Hg Hc Hs Hts E1 E2 E3|pre0 f0 gap s0 after v f1 ts0 EE Hg Hs Hts E1 E2 E3].
    - exfalso. apply source_ord in Hts. cbn [ord_hd] in Hts. unfold ordinary, special, opens in *.
      destruct (t_value u) as [| | |[]| | |]; congruence || contradiction.
    - subst t u ts0 pre0 f0. cbn [t_value opens t_fol] in *. subst st0.
      assert (gap = []) as ->.
      { unfold tstart in Et. cbn in Et. pose proof (rpos_app_ge q0 gap). destruct gap; auto. cbn [length] in *. lia. }
      cbn [app] in *.
      assert (X : lexed D ls_regex_allowed q0 f1 (mk_token (VLiteral (TLRegexp s0)) f1 (mk_span (rpos (q0 ++ [])) (rpos (q0 ++ [] ++ s0))))
                  (q0 ++ [] ++ s0) false).
      { apply (lexed_intro D ls_regex_allowed q0 f1 [] s0 after); auto; try constructor. discriminate. }
      destruct (read_complete D ls_regex_allowed _ _ _ _ _ _ E0 X) as (r1 & E1 & R1).
      eexists _, r1, _. split; [exact E1|]. split.
      + unfold lexer_read_with_state.
        change (lexer_set_state ls_regex_allowed (LX D st q0 w0 f1)) with (LX D ls_regex_allowed q0 w0 f1).
        unfold lexer_next. rewrite R1. reflexivity.
      + exact Hts.
    - subst t u ts0 pre0 f0. cbn [t_value t_fol] in *.
      assert (st0 = ls_inside_template) as -> by (destruct Hs; exact Hv).
      assert (gap = []) as ->.
      { unfold tstart in Et. cbn in Et. pose proof (rpos_app_ge q0 gap). destruct gap; auto. cbn [length] in *. lia. }
      cbn [app] in *. rewrite app_nil_r.
      assert (X : lexed_template D q0 f1 (mk_token v false (mk_span (rpos q0) (rpos (q0 ++ s0)))) (q0 ++ s0) f1).
      { now apply (lexed_template_intro D q0 f1 s0 after). }
      destruct (read_template_complete D ls_inside_template _ _ _ _ _ _ eq_refl E0 X) as (r1 & E1 & R1).
      eexists _, r1, _. split; [exact E1|]. split.
      + unfold lexer_read_with_state.
        change (lexer_set_state ls_inside_template (LX D st q0 w0 f1)) with (LX D ls_inside_template q0 w0 f1).
        unfold lexer_next. rewrite R1. reflexivity.
      + exact Hts. }
  destruct X as (p1 & r1 & g1 & E1 & -> & Hts).
  destruct (next_from _ _ _ _ E1 Hts) as (p2 & r2 & g2 & -> & E2 & H2).
  rewrite (guard_ok D); [|exact Logic.I|apply shown_okr]. eexists. split; [reflexivity|].
  apply at_two; auto. cbn [tl]. eapply source_ord; eauto.
Qed.

(** The first state. *)
Lemma at_new ts : source_tokens D st [] true ts ->
  forall m : bool, st = (if m then ls_with_html_comments_allowed ls_default false else ls_default) ->
  exists s, pst_new D m = SDone tt s /\ at_ ts s /\ pos s = 0.
Proof.
  intros H m Em. unfold pst_new.
  assert (EL : (if m then lexer_set_state (ls_with_html_comments_allowed ls_default false) (lexer_new D)
                else lexer_new D) = LX D st [] D true).
  { rewrite Em. destruct m; reflexivity. }
  rewrite EL. unfold pr_new, pr_with_offset.
  destruct (two_reads [] D true _ eq_refl H) as (p1 & r1 & g1 & n1 & p2 & r2 & g2 & -> & -> & E2 & Hn1 & H2).
  rewrite (guard_ok D) by (first [apply shown_okr|exact Hn1]). eexists. split; [reflexivity|]. split; [|reflexivity].
  exists p2, r2, g2, 0, n1. cbn [ps_rd]. split; [reflexivity|]. auto.
Qed.

End Stream.
