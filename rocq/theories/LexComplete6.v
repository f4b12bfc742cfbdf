(** * LexComplete6: [read] and [read_all] read exactly the tokens of the
    lexical grammar. *)

From Verif Require Import Base Tokens PeekReader CharReader Lexer LexSpec LexChars LexerFacts
  LexSound LexSound2 LexSound3 LexComplete LexComplete2 LexComplete3 LexComplete4 LexComplete5.
Local Open Scope string_scope.
Local Open Scope list_scope.

Section Forward.
Context {PF : Platform}.
Variable D : str.
Variable st : lexer_state.
Notation LX := (LX D st).
Notation html := (html_comment_allowed st).

(** Trivia up to its first html close comment. *)
Lemma trivia_split_close f s after f' :
  trivia html f s after f' -> ~ starts gap_char after ->
  trivia_nc html f s after f' \/
  exists s1 s2 s3 f2, s = s1 ++ (chars "-->" ++ s2) ++ s3 /\
    trivia_nc html f s1 ((chars "-->" ++ s2) ++ s3 ++ after) true /\
    piece html true (chars "-->" ++ s2) (s3 ++ after) f2 /\
    trivia html f2 s3 after f'.
Proof.
  remember (length s) as n eqn:En. revert f s En. induction n as [n IH] using lt_wf_ind.
  intros f s -> Ht Ha.
  destruct (trivia_blank_split _ _ _ _ _ Ht Ha) as
    [(g & Hg & ->)|(s1 & s2 & s3 & f1 & f2 & -> & H1 & H2 & H3 & H4)].
  - left. now apply tn_blank.
  - assert (Hcl : (exists x, s2 = chars "-->" ++ x) \/ (forall x, s2 <> chars "-->" ++ x)).
    { destruct (list_eq_dec N.eq_dec (firstn 3 s2) (chars "-->")) as [E|E].
      - left. exists (skipn 3 s2). rewrite <- E. symmetry. apply firstn_skipn.
      - right. intros x ->. apply E. reflexivity. }
    destruct Hcl as [(x & ->)|Hcl].
    + assert (f1 = true).
      { remember (chars "-->" ++ x) as w eqn:Ew in H2. destruct H2 as [f1 c a Hc|f1 c a Hc
          |f1 opener body c a Ho Hb Hc|f1 opener body Ho Hb|f1 body a f2 Hb Hf]; try discriminate Ew.
        - destruct Ho; try discriminate Ew. reflexivity.
        - destruct Ho; try discriminate Ew. reflexivity. }
      subst f1. right. exists s1, x, s3, f2. repeat split; auto. now apply tn_blank.
    + assert (Hlt : length s3 < length (s1 ++ s2 ++ s3)).
      { apply piece_nonempty in H2. destruct s2; [congruence|]. rewrite !app_length. simpl. lia. }
      destruct (IH _ Hlt f2 s3 eq_refl H4 Ha) as [H5|(t1 & t2 & t3 & g2 & -> & H5 & H6 & H7)].
      * left. eapply tn_comment; eauto.
      * right. exists (s1 ++ s2 ++ t1), t2, t3, g2. repeat split; auto.
        -- norm. reflexivity.
        -- rewrite <- !app_assoc in *. eapply tn_comment; eauto.
Qed.

(** A token, read from the start of its gap. *)
Lemma read_fuel_fwd n : forall gap s after v pre f f1,
  inside_template st = false ->
  trivia html f gap (s ++ after) f1 -> ~ starts_comment (s ++ after) ->
  lexeme st s after v ->
  (f1 = true -> v = VPunct PDoubleMinus -> ~ prefix (chars ">") after) ->
  length (gap ++ s ++ after) < n ->
  read_fuel n (LX pre (gap ++ s ++ after) f) =
    (Ok (mk_token v f1 (mk_span (rpos (pre ++ gap)) (rpos (pre ++ gap ++ s)))),
     LX (pre ++ gap ++ s) after false).
Proof.
  induction n as [|n IH]; intros gap s after v pre f f1 Ht Hg Hc Hs Hm Hn; [lia|].
  cbn [read_fuel]. rewrite bind_get_state, Ht.
  assert (Hng := lexeme_not_gap st s after v Hs).
  destruct (trivia_split_close _ _ _ _ Hg Hng) as [H|(s1 & s2 & s3 & f2 & -> & H1 & H2 & H3)].
  - erewrite bind_ok by (eapply skip_trivia_nc; eauto).
    destruct (read_value_fwd D st s after v (pre ++ gap) f1 Hs) as (c & r & -> & Hv).
    unfold is_end. simpl app in *. rewrite bind_bind, bind_current_ok, bind_ret.
    rewrite bind_current, bind_position.
    erewrite bind_ok by exact Hv.
    rewrite bind_position, bind_get_fol, bind_current_ok.
    replace (_ && _)%bool with false.
    + rewrite bind_set_fol. rewrite <- !app_assoc. reflexivity.
    + symmetry. destruct (is_minus_minus v) eqn:Em; [|rewrite andb_false_r; reflexivity].
      destruct f1; [|reflexivity]. cbn [andb].
      apply not_prefix_opt. destruct v; try discriminate. destruct p; try discriminate.
      now apply Hm.
  - (* an html close comment *)
    assert (Hh : html = true /\ f2 = true).
    { remember (chars "-->" ++ s2) as w eqn:Ew in H2. remember true as tr eqn:Etr in H2.
      destruct H2 as [? c a Hc0|? c a Hc0
          |? opener body c a Ho Hb Hc0|? opener body Ho Hb|? body a ff Hb Hf]; try discriminate Ew;
      destruct Ho; try discriminate Ew; auto. }
    destruct Hh as [Hh ->].
    assert (Hline : exists r1, (s2 ++ s3 ++ s ++ after = r1 ++ s3 ++ s ++ after /\ r1 = s2) /\
       skip_rest_of_line (LX ((pre ++ s1) ++ chars "--") (ch ">" :: s2 ++ s3 ++ s ++ after) true) =
         (Ok tt, LX (pre ++ s1 ++ chars "-->" ++ s2) (s3 ++ s ++ after) true)).
    { exists s2. split; auto.
      remember (chars "-->" ++ s2) as w eqn:Ew in H2. remember true as tr eqn:Etr in H2.
      remember (s3 ++ s ++ after) as a eqn:Ea in H2.
      destruct H2 as [? c a Hc0|? c a Hc0
          |? opener body c a Ho Hb Hc0|? opener body Ho Hb|? body a ff Hb Hf]; try discriminate Ew;
      destruct Ho; try discriminate Ew.
      - injection Ew as <-. replace (ch ">" :: (body ++ [c]) ++ s3 ++ s ++ after)
          with ((ch ">" :: body) ++ [c] ++ s3 ++ s ++ after) by (norm; reflexivity).
        rewrite skip_rest_of_line_fwd.
        + simpl chars. norm. reflexivity.
        + intros x [<-|Hx]; [|now apply Hb]. unfold line_term. simpl. intuition discriminate.
        + exact Hc0.
      - injection Ew as <-. rewrite <- Ea, app_nil_r. rewrite skip_rest_of_line_fwd_end.
        + simpl chars. norm. reflexivity.
        + intros x [<-|Hx]; [|now apply Hb]. unfold line_term. simpl. intuition discriminate. }
    destruct Hline as (r1 & (_ & ->) & Hline).
    replace ((s1 ++ (chars "-->" ++ s2) ++ s3) ++ s ++ after)
      with (s1 ++ (chars "-->" ++ s2) ++ s3 ++ s ++ after) by (norm; reflexivity).
    rewrite <- !app_assoc in H1.
    erewrite bind_ok.
    2:{ rewrite <- !app_assoc. apply (skip_trivia_nc D st s1); [exact H1| |].
        - simpl. apply not_gap_char. simpl. auto.
        - intros [(x & E)|[(x & E)|(x & E)]]; discriminate E. }
    assert (Hl : lexeme st (chars "--") (ch ">" :: s2 ++ s3 ++ s ++ after) (VPunct PDoubleMinus)).
    { apply (lexeme_punct st PDoubleMinus); try discriminate.
      - split.
        + eexists. split; [reflexivity|]. intros [? _]; discriminate.
        + intros q (x & E & _). destruct q; cbn in E |- *; try lia; discriminate E.
      - intros _. split; discriminate. }
    destruct (read_value_fwd D st _ _ _ (pre ++ s1) true Hl) as (c & r & E & Hv).
    cbn in E. injection E as <- <-.
    unfold is_end. simpl chars. simpl app. rewrite bind_bind, bind_current_ok, bind_ret.
    rewrite bind_current, bind_position.
    erewrite bind_ok by exact Hv.
    rewrite bind_position, bind_get_fol, bind_current_ok.
    cbn [opt_is is_minus_minus]. rewrite N.eqb_refl, Hh. cbn [andb negb].
    erewrite bind_ok by exact Hline. rewrite bind_set_fol.
    rewrite (IH s3 s after v _ true f1); auto.
    + repeat (progress (simpl app; rewrite <- ?app_assoc)). reflexivity.
    + rewrite !app_length in *. simpl in *. lia.
Qed.

(** [read] finds every token of the lexical grammar. *)
Theorem read_complete pre rest f t pre' f' :
  D = pre ++ rest -> lexed D st pre f t pre' f' ->
  exists rest', D = pre' ++ rest' /\ read (LX pre rest f) = (Ok t, LX pre' rest' f').
Proof.
  intros HD Hl. destruct Hl as [gap s after v f1 Ht E Hg Hc Hs Hm].
  exists after. split; [rewrite E; norm; reflexivity|].
  assert (rest = gap ++ s ++ after).
  { rewrite HD in E. now apply app_inv_head in E. }
  subst rest. unfold read. change (lx_rest (LX pre (gap ++ s ++ after) f)) with (gap ++ s ++ after).
  apply read_fuel_fwd; auto.
Qed.

Theorem read_template_complete pre rest f t pre' f' :
  inside_template st = true ->
  D = pre ++ rest -> lexed_template D pre f t pre' f' ->
  exists rest', D = pre' ++ rest' /\ read (LX pre rest f) = (Ok t, LX pre' rest' f').
Proof.
  intros Ht HD Hl. destruct Hl as [s after v E Hs].
  exists after. split; [rewrite E; norm; reflexivity|].
  assert (rest = s ++ after).
  { rewrite HD in E. now apply app_inv_head in E. }
  subst rest. unfold read. cbn [read_fuel]. rewrite bind_get_state, Ht.
  now apply read_template_cont_fwd.
Qed.

(** Trivia to the end of the source: [read] reports the end. *)
Lemma read_fuel_end n : forall gap pre f f1,
  inside_template st = false -> trivia html f gap [] f1 -> length gap < n ->
  read_fuel n (LX pre gap f) = (Err (LFail end_of_stream), LX (pre ++ gap) [] f1).
Proof.
  induction n as [|n IH]; intros gap pre f f1 Ht Hg Hn; [lia|].
  cbn [read_fuel]. rewrite bind_get_state, Ht.
  assert (Hng : ~ starts gap_char []) by (intros (? & ? & ? & _); discriminate).
  destruct (trivia_split_close _ _ _ _ Hg Hng) as [H|(s1 & s2 & s3 & f2 & -> & H1 & H2 & H3)].
  - erewrite bind_ok.
    2:{ rewrite <- (app_nil_r gap) at 1. eapply skip_trivia_nc; eauto.
        intros [(x & E)|[(x & E)|(x & E)]]; discriminate E. }
    reflexivity.
  - assert (Hh : html = true /\ f2 = true).
    { remember (chars "-->" ++ s2) as w eqn:Ew in H2. remember true as tr eqn:Etr in H2.
      destruct H2 as [? c a Hc0|? c a Hc0
          |? opener body c a Ho Hb Hc0|? opener body Ho Hb|? body a ff Hb Hf]; try discriminate Ew;
      destruct Ho; try discriminate Ew; auto. }
    destruct Hh as [Hh ->]. rewrite !app_nil_r in *.
    assert (Hline : skip_rest_of_line (LX ((pre ++ s1) ++ chars "--") (ch ">" :: s2 ++ s3) true) =
         (Ok tt, LX (pre ++ s1 ++ chars "-->" ++ s2) s3 true)).
    { remember (chars "-->" ++ s2) as w eqn:Ew in H2. remember true as tr eqn:Etr in H2.
      remember s3 as a eqn:Ea in H2.
      destruct H2 as [? c a Hc0|? c a Hc0
          |? opener body c a Ho Hb Hc0|? opener body Ho Hb|? body a ff Hb Hf]; try discriminate Ew;
      destruct Ho; try discriminate Ew.
      - injection Ew as <-. replace (ch ">" :: (body ++ [c]) ++ s3)
          with ((ch ">" :: body) ++ [c] ++ s3) by (norm; reflexivity).
        rewrite skip_rest_of_line_fwd.
        + simpl chars. norm. reflexivity.
        + intros x [<-|Hx]; [|now apply Hb]. unfold line_term. simpl. intuition discriminate.
        + exact Hc0.
      - injection Ew as <-. rewrite <- Ea, app_nil_r. rewrite skip_rest_of_line_fwd_end.
        + simpl chars. norm. reflexivity.
        + intros x [<-|Hx]; [|now apply Hb]. unfold line_term. simpl. intuition discriminate. }
    erewrite bind_ok.
    2:{ apply (skip_trivia_nc D st s1); [exact H1| |].
        - simpl. apply not_gap_char. simpl. auto.
        - intros [(x & E)|[(x & E)|(x & E)]]; discriminate E. }
    assert (Hl : lexeme st (chars "--") (ch ">" :: s2 ++ s3) (VPunct PDoubleMinus)).
    { apply (lexeme_punct st PDoubleMinus); try discriminate.
      - split.
        + eexists. split; [reflexivity|]. intros [? _]; discriminate.
        + intros q (x & E & _). destruct q; cbn in E |- *; try lia; discriminate E.
      - intros _. split; discriminate. }
    destruct (read_value_fwd D st _ _ _ (pre ++ s1) true Hl) as (c & r & E & Hv).
    cbn in E. injection E as <- <-.
    unfold is_end. simpl chars. simpl app. rewrite bind_bind, bind_current_ok, bind_ret.
    rewrite bind_current, bind_position.
    erewrite bind_ok by exact Hv.
    rewrite bind_position, bind_get_fol, bind_current_ok.
    cbn [opt_is is_minus_minus]. rewrite N.eqb_refl, Hh. cbn [andb negb].
    erewrite bind_ok by exact Hline. rewrite bind_set_fol.
    rewrite (IH s3 _ true f1); auto.
    + repeat (progress (simpl app; rewrite <- ?app_assoc)). reflexivity.
    + rewrite !app_length in *. simpl in *. lia.
Qed.

Theorem read_end_complete pre rest f f' :
  inside_template st = false -> trivia html f rest [] f' ->
  read (LX pre rest f) = (Err (LFail end_of_stream), LX (pre ++ rest) [] f').
Proof.
  intros Ht Hr. unfold read. change (lx_rest (LX pre rest f)) with rest. apply read_fuel_end; auto.
Qed.

(** ** The tokens are determined by the text *)

Lemma lexed_fun pre f t1 p1 f1 t2 p2 f2 :
  lexed D st pre f t1 p1 f1 -> lexed D st pre f t2 p2 f2 -> t1 = t2 /\ p1 = p2 /\ f1 = f2.
Proof.
  intros H1 H2. assert (HD : exists rest, D = pre ++ rest) by (destruct H1; eauto).
  destruct HD as (rest & HD).
  destruct (read_complete _ _ _ _ _ _ HD H1) as (r1 & D1 & E1).
  destruct (read_complete _ _ _ _ _ _ HD H2) as (r2 & D2 & E2).
  rewrite E1 in E2.
  apply (f_equal (fun x => (fst x, lx_rest (snd x), lx_fol (snd x)))) in E2. cbn in E2.
  injection E2 as -> -> ->. split; auto. split; auto.
  rewrite D1 in D2. now apply app_inv_tail in D2.
Qed.

Lemma lexed_not_end pre f t p f1 rest f' :
  lexed D st pre f t p f1 -> D = pre ++ rest -> trivia html f rest [] f' -> False.
Proof.
  intros H HD Hr. destruct (read_complete _ _ _ _ _ _ HD H) as (r1 & _ & E1).
  assert (Ht : inside_template st = false) by (destruct H; auto).
  rewrite (read_end_complete _ _ _ _ Ht Hr) in E1. discriminate.
Qed.

End Forward.

(** ** [read_all] *)

Section ReadAll.
Context {PF : Platform}.

Lemma lexed_app D st pre f t pre' f' :
  lexed D st pre f t pre' f' -> exists x, pre' = pre ++ x /\ x <> [] /\ exists after, D = pre' ++ after.
Proof.
  intros [gap s after v f1 Ht E Hg Hc Hs Hm]. exists (gap ++ s). repeat split; auto.
  - apply lexeme_head in Hs. destruct Hs as (c & r & -> & _). destruct gap; discriminate.
  - exists after. rewrite E. norm. reflexivity.
Qed.

Lemma read_all_sound D st n : forall pre rest f ts L',
  inside_template st = false -> D = pre ++ rest ->
  read_all_fuel n (LX D st pre rest f) = (Ok ts, L') -> tokens_from D st pre f ts.
Proof.
  induction n as [|n IH]; intros pre rest f ts L' Ht HD H; [discriminate|].
  cbn [read_all_fuel] in H. pose proof (read_spec D st pre rest f) as R.
  destruct (read (LX D st pre rest f)) as [[t|[e| |]] L1]; try discriminate.
  - destruct R as (p & r & g & -> & E & R). rewrite Ht in R. rewrite <- HD in *.
    destruct (read_all_fuel n (LX D st p r g)) as [[ts'|e] L2] eqn:E2; try discriminate.
    injection H as <- <-. eapply tf_token; [exact R|]. eapply IH; eauto.
  - destruct R as (p & r & g & -> & E & R). destruct (le_kind e) eqn:Ek; try discriminate.
    injection H as <- <-. destruct R as [R|(-> & _ & -> & Hr)].
    + exfalso. destruct R as (_ & _ & R). rewrite Ek in R. exact R.
    + econstructor; eauto.
Qed.

Lemma read_all_complete D st n : forall pre rest f ts,
  inside_template st = false -> D = pre ++ rest -> length rest < n ->
  tokens_from D st pre f ts -> exists L', read_all_fuel n (LX D st pre rest f) = (Ok ts, L').
Proof.
  induction n as [|n IH]; intros pre rest f ts Ht HD Hn H; [lia|].
  destruct H as [pre f gap f' E Hg|pre f t pre' f' ts Hl Hts].
  - cbn [read_all_fuel].
    assert (rest = gap) by (rewrite HD in E; now apply app_inv_head in E). subst rest.
    rewrite (read_end_complete D st _ _ _ _ Ht Hg). cbn. eauto.
  - cbn [read_all_fuel]. destruct (read_complete D st _ _ _ _ _ _ HD Hl) as (rest' & HD' & E).
    rewrite E. destruct (IH pre' rest' f' ts Ht HD') as (L' & E2); auto.
    + destruct (lexed_app _ _ _ _ _ _ _ Hl) as (x & -> & Hx & _).
      rewrite HD in HD'. rewrite <- app_assoc in HD'. apply app_inv_head in HD'. subst rest.
      rewrite app_length in Hn. destruct x; [congruence|]. simpl in Hn. lia.
    + rewrite E2. eauto.
Qed.

Theorem read_all_spec D st pre rest f ts :
  inside_template st = false -> D = pre ++ rest ->
  ((exists L', read_all (LX D st pre rest f) = (Ok ts, L')) <-> tokens_from D st pre f ts).
Proof.
  intros Ht HD. unfold read_all. change (lx_rest (LX D st pre rest f)) with rest. split.
  - intros (L' & H). eapply read_all_sound; eauto.
  - intros H. eapply read_all_complete; eauto.
Qed.

End ReadAll.
