(** * LexSound2: lexemes. *)

From Verif Require Import Base Tokens PeekReader CharReader Lexer LexSpec LexChars LexerFacts LexSound.
Local Open Scope string_scope.
Local Open Scope list_scope.

Lemma rpos_mono pre w : rpos pre <= rpos (pre ++ w).
Proof. pose proof (rpos_app_ge pre w). lia. Qed.

(** Position facts about every prefix in the goal. *)
Ltac pos_facts2 :=
  repeat rewrite <- ?app_assoc;
  repeat match goal with
  | |- context [rpos (?a ++ ?b)] =>
      lazymatch goal with H : rpos a + length b <= rpos (a ++ b) |- _ => fail
      | _ => pose proof (rpos_app_ge a b); pose proof (rpos_le (a ++ b)) end
  | |- context [rpos ?p] =>
      lazymatch goal with H : rpos p <= blen p |- _ => fail | _ => pose proof (rpos_le p) end
  | |- context [len8 ?c] =>
      lazymatch goal with H : 1 <= len8 c |- _ => fail
      | _ => pose proof (len8_pos c) end
  end;
  repeat match goal with
  | |- _ => progress rewrite ?blen_app, ?app_length
  | H : _ <= _ |- _ => progress rewrite ?blen_app, ?app_length in H
  end; eval_ch; simpl blen in *; simpl length in *;
  repeat match goal with
  | |- context [len8 ?c] =>
      lazymatch goal with H : 1 <= len8 c |- _ => fail
      | _ => pose proof (len8_pos c) end
  end; try lia.

Ltac eok2 := split; [|split]; [simpl; pos_facts2|simpl; pos_facts2|try lex_kind].

Section Sound.
Context {PF : Platform}.
Variable D : str.
Variable st : lexer_state.
Notation WP m := (wpl D st m).

(** ** Unicode escapes and words *)

Lemma wp_read_hex_char ss pre rest f :
  ss <= rpos pre ->
  WP (read_hex_char ss) pre rest f (fun c pre' rest' f' =>
    rest = c :: rest' /\ pre' = pre ++ [c] /\ f' = f /\ hex_digit c).
Proof.
  intros Hss. unfold read_hex_char. wp. subst. destruct (is_hex_digit c) eqn:E; wp.
  - apply hex_digit_iff in E. auto.
  - eok2.
Qed.

Lemma wp_read_code_point ss pre rest f :
  ss <= rpos pre ->
  WP (read_code_point ss) pre (ch "{" :: rest) f (fun v pre' rest' f' =>
    exists h, rest = h ++ [ch "}"] ++ rest' /\ pre' = pre ++ [ch "{"] ++ h ++ [ch "}"] /\ f' = f /\
      h <> [] /\ (forall c, In c h -> hex_digit c) /\ v = hex_num 0 h).
Proof.
  intros Hss. unfold read_code_point. wp. apply wpl_debug_assert; [reflexivity|]. wp.
  apply wpl_loop with (Inv := fun h p r g => p = pre ++ [ch "{"] ++ h /\ rest = h ++ r /\ g = f /\
    (forall c, In c h -> hex_digit c)).
  2:{ norm. repeat split; auto. contradiction. }
  intros h p r g (-> & -> & -> & Hh). wp.
  eapply wpl_mono; [apply wp_read_hex_char; pos_facts2|].
  intros c p r1 g _ (-> & -> & -> & Hc). wp. subst.
  assert (Hh' : forall x, In x (h ++ [c]) -> hex_digit x).
  { intros x Hx. apply in_app_iff in Hx. destruct Hx as [|[<-|[]]]; auto. }
  destruct (N.eqb_spec c0 (ch "}")).
  - subst. wp. destruct (N.leb _ _) eqn:E; wp.
    + exists (h ++ [c]). norm. repeat split; auto.
      * destruct h; discriminate.
      * now apply hex_number_eq.
    + eok2.
  - wp. split; [|simpl; lia]. norm. repeat split; auto.
Qed.

Lemma wp_read_4digit_hex ss pre rest f :
  ss <= rpos pre ->
  WP (read_4digit_hex ss) pre rest f (fun v pre' rest' f' =>
    exists h, rest = h ++ rest' /\ pre' = pre ++ h /\ f' = f /\
      length h = 4 /\ (forall c, In c h -> hex_digit c) /\ v = hex_num 0 h).
Proof.
  intros Hss. unfold read_4digit_hex. wp.
  eapply wpl_mono; [apply wp_read_hex_char; pos_facts2|]. intros a ? ? ? _ (-> & -> & -> & Ha). wp.
  eapply wpl_mono; [apply wp_read_hex_char; pos_facts2|]. intros b ? ? ? _ (-> & -> & -> & Hb). wp.
  eapply wpl_mono; [apply wp_read_hex_char; pos_facts2|]. intros c ? ? ? _ (-> & -> & -> & Hc). wp.
  eapply wpl_mono; [apply wp_read_hex_char; pos_facts2|]. intros d ? ? ? _ (-> & -> & -> & Hd). wp.
  assert (Hh : forall x, In x [a; b; c; d] -> hex_digit x).
  { simpl. intros x [<-|[<-|[<-|[<-|[]]]]]; auto. }
  exists [a; b; c; d]. norm. repeat split; auto. now apply hex_number_eq.
Qed.

Lemma wp_read_unicode_escape_sequence pre rest f :
  WP read_unicode_escape_sequence pre (ch "\" :: rest) f (fun v pre' rest' f' =>
    exists e, ch "\" :: rest = e ++ rest' /\ pre' = pre ++ e /\ f' = f /\ unicode_escape e v).
Proof.
  unfold read_unicode_escape_sequence. wp. apply wpl_debug_assert; [reflexivity|]. wp. subst rest.
  destruct (N.eqb_spec c (ch "u")); simpl negb.
  2:{ wp. eok2. }
  subst c. wp. subst r.
  destruct (N.eqb_spec c (ch "{")).
  - subst c. eapply wpl_mono; [apply wp_read_code_point; pos_facts2|].
    intros v p r g _ (h & -> & -> & -> & Hn & Hh & ->).
    destruct (is_scalar_value _) eqn:E; wp.
    + apply scalar_value_iff in E. exists (chars "\u{" ++ h ++ chars "}"). simpl chars. norm.
      repeat split; auto. apply (ue_braces h); auto.
    + eok2.
  - eapply wpl_mono; [apply wp_read_4digit_hex; pos_facts2|].
    intros v p r g _ (h & Eh & -> & -> & Hn & Hh & ->).
    destruct (is_scalar_value _) eqn:E; wp.
    + apply scalar_value_iff in E. exists (chars "\u" ++ h). simpl chars. norm. rewrite Eh. norm.
      repeat split; auto. apply (ue_4 h); auto.
    + eok2.
Qed.

Lemma wp_read_and_expand (b : bool) pre rest f :
  WP (read_and_expand_unicode_escape_sequence b) pre (ch "\" :: rest) f (fun v pre' rest' f' =>
    exists e, ch "\" :: rest = e ++ rest' /\ pre' = pre ++ e /\ f' = f /\ unicode_escape e v /\
      (if b then id_start_char v else id_part_char v)).
Proof.
  unfold read_and_expand_unicode_escape_sequence. wp.
  eapply wpl_mono; [apply wp_read_unicode_escape_sequence|].
  intros v p r g _ (e & Ee & -> & -> & He).
  destruct (if b then _ else _) eqn:E; wp.
  - exists e. repeat split; auto. destruct b; [now apply id_start_iff|now apply id_part_iff].
  - eok2.
Qed.

Lemma unicode_escape_nonempty e c : unicode_escape e c -> e <> [].
Proof. intros []; discriminate. Qed.

(** The loop of [read_identifier_or_keyword_expand_unicode] after [k] rounds. *)
Inductive word_part : str -> str -> Prop :=
| wp_nil : word_part [] []
| wp_word s v : word s v -> word_part s v.

Lemma word_tail_app s v s2 v2 : word_tail s v -> word_tail s2 v2 -> word_tail (s ++ s2) (v ++ v2).
Proof.
  induction 1; intros H2.
  - exact H2.
  - simpl. apply wt_char; auto.
  - rewrite <- app_assoc. simpl. apply wt_escape; auto.
Qed.

Lemma word_app s v s2 v2 : word s v -> word_tail s2 v2 -> word (s ++ s2) (v ++ v2).
Proof.
  intros [] H2.
  - simpl. apply word_char; auto using word_tail_app.
  - rewrite <- app_assoc. simpl. apply word_escape; auto using word_tail_app.
Qed.

Lemma word_snoc_char s v c : word s v -> id_part_char c -> word (s ++ [c]) (v ++ [c]).
Proof. intros. apply word_app; auto. apply wt_char; auto. constructor. Qed.

Lemma word_snoc_escape s v e c :
  word s v -> unicode_escape e c -> id_part_char c -> word (s ++ e) (v ++ [c]).
Proof.
  intros. apply word_app; auto. rewrite <- (app_nil_r e). apply wt_escape; auto. constructor.
Qed.

Lemma word_value_nonempty s v : word s v -> v <> [] /\ s <> [].
Proof. intros [? ? ? ? ?|? ? ? ? H]; split; try discriminate.
  apply unicode_escape_nonempty in H. destruct e; [congruence|discriminate]. Qed.

Lemma wp_read_word pre c rest f :
  id_start_char c \/ c = ch "\" ->
  WP read_identifier_or_keyword_expand_unicode pre (c :: rest) f (fun v pre' rest' f' =>
    exists s, c :: rest = s ++ rest' /\ pre' = pre ++ s /\ f' = f /\ word s v /\
      ~ starts id_part_char rest' /\ ~ prefix (chars "\") rest').
Proof.
  intros Hc. unfold read_identifier_or_keyword_expand_unicode.
  apply wpl_loop with (Inv := fun v p r g => exists s, p = pre ++ s /\ c :: rest = s ++ r /\ g = f /\
    ((s = [] /\ v = []) \/ word s v)).
  2:{ exists []. rewrite app_nil_r. repeat split; auto. }
  intros v p r g (s & -> & Er & -> & Hs). wp. destruct r as [|x r].
  - wp. exists s. repeat split; auto.
    + destruct Hs as [(-> & ->)|Hs]; auto. discriminate.
    + intros (? & ? & ? & _). discriminate.
    + intros (? & ?). discriminate.
  - destruct (is_part_of_identifier x) eqn:Ep.
    + apply id_part_iff in Ep. wp. split; [|simpl; lia]. exists (s ++ [x]). norm.
      repeat split; auto. right. destruct Hs as [(-> & ->)|Hs].
      * simpl in *. inv Er. destruct Hc as [Hc| ->].
        -- simpl. constructor; auto. constructor.
        -- exfalso. revert Ep. unfold id_part_char, letter, digit. eval_ch. simpl.
           intros [H|[H|[H|[H|[H|[H|H]]]]]]; try (intuition discriminate).
           apply id_continue_ascii in H; [discriminate|reflexivity].
      * now apply word_snoc_char.
    + destruct (N.eqb_spec x (ch "\")).
      * subst x. wp. eapply wpl_mono; [apply wp_read_and_expand|].
        intros v' p r' g _ (e & Ee & -> & -> & He & Hv). wp.
        split.
        2:{ apply (f_equal (@length _)) in Ee. rewrite app_length in Ee.
            apply unicode_escape_nonempty in He. destruct e; [congruence|]. simpl in *. lia. }
        exists (s ++ e). rewrite Er, Ee; norm. repeat split; auto.
        right. destruct Hs as [(-> & ->)|Hs].
        -- simpl in *. rewrite <- (app_nil_r e). econstructor; eauto. constructor.
        -- apply word_value_nonempty in Hs as Hn. destruct Hn as [Hn _].
           destruct v as [|y v]; [congruence|]. simpl in Hv. now apply word_snoc_escape.
      * wp. exists s. repeat split; auto.
        -- destruct Hs as [(-> & ->)|Hs]; auto. simpl in Er. inv Er.
           destruct Hc as [Hc|Hc]; [|congruence].
           apply id_start_part, id_part_iff in Hc. congruence.
        -- intros (? & ? & E & H). inv E. apply id_part_iff in H. congruence.
        -- intros (? & E). injection E; intros; auto.
Qed.

Lemma keyword_from_str_spec s :
  word_value s (match keyword_from_str s with Some k => VKeyword k | None => VIdentifier s end).
Proof.
  unfold keyword_from_str. destruct (find _ _) eqn:E.
  - apply find_some in E. destruct E as [_ E]. apply str_eqb_eq in E. left. eauto.
  - right. split; auto. intros k Hk.
    assert (In k all_keywords) by (destruct k; simpl; tauto).
    apply (find_none _ _ E) in H. rewrite Hk in H.
    assert (str_eqb (keyword_str k) (keyword_str k) = true) by now apply str_eqb_eq. congruence.
Qed.

(** The value-producing functions all have this shape. *)
Definition produces (pre rest : str) (f : bool) : tvalue -> str -> str -> bool -> Prop :=
  fun v pre' rest' f' => exists s, s <> [] /\ rest = s ++ rest' /\ pre' = pre ++ s /\ f' = f /\
    lexeme st s rest' v.

Lemma wp_read_identifier_or_keyword pre c rest f :
  id_start_char c \/ c = ch "\" ->
  WP read_identifier_or_keyword pre (c :: rest) f (produces pre (c :: rest) f).
Proof.
  intros Hc. unfold read_identifier_or_keyword. wp.
  eapply wpl_mono; [now apply wp_read_word|].
  intros v p r g _ (s & Es & -> & -> & Hs & H1 & H2). wp. exists s.
  apply word_value_nonempty in Hs as Hn. repeat split; auto; try tauto.
  eapply lexeme_word; eauto. apply keyword_from_str_spec.
Qed.

(** ** Numbers *)

Lemma contains_double_underscore_spec s :
  contains_double_underscore s = true <-> occurs (chars "__") s.
Proof.
  induction s as [|a s IH]; simpl.
  - split; [discriminate|]. intros (x & y & E). destruct x; discriminate.
  - destruct s as [|b s].
    + split; [discriminate|]. intros (x & y & E). destruct x as [|? [|? ?]]; discriminate.
    + rewrite orb_true_iff, andb_true_iff, !N.eqb_eq, IH. split.
      * intros [[-> ->]|(x & y & ->)].
        -- exists [], s. reflexivity.
        -- exists (a :: x), y. reflexivity.
      * intros (x & y & E). destruct x as [|z x].
        -- simpl in E. inv E. left. auto.
        -- simpl in E. inv E. right. exists x, y. auto.
Qed.

Lemma ends_with_underscore_spec s :
  ends_with_underscore s = true <-> exists s', s = s' ++ chars "_".
Proof.
  unfold ends_with_underscore. destruct (list_snoc_cases s) as [->|(s' & x & ->)].
  - split; [discriminate|]. intros (s' & E). destruct s'; discriminate.
  - destruct (s' ++ [x]) eqn:E; [destruct s'; discriminate|]. rewrite <- E, last_snoc, N.eqb_eq.
    split.
    + intros ->. exists s'. reflexivity.
    + intros (t & Et). simpl chars in Et. apply app_inj_tail in Et. tauto.
Qed.

Lemma wp_read_number_string ss check P pre rest f :
  (forall c, check c = true <-> P c) ->
  ss <= rpos pre ->
  WP (read_number_string ss check) pre rest f (fun s pre' rest' f' =>
    rest = s ++ rest' /\ pre' = pre ++ s /\ f' = f /\ digits_sep P s /\
    ~ starts P rest' /\ ~ prefix (chars "_") rest').
Proof.
  intros HP Hss. unfold read_number_string. wp. eapply wpl_mono; [apply wp_read_while|].
  intros s p r g _ (-> & -> & -> & Hs & Hn).
  destruct (contains_double_underscore s) eqn:E1; [wp; eok2|].
  destruct (ends_with_underscore s) eqn:E2; [wp; eok2|].
  wp. repeat split; auto.
  - intros c Hc. apply Hs in Hc. rewrite orb_true_iff, HP, N.eqb_eq in Hc. auto.
  - intros H. apply contains_double_underscore_spec in H. congruence.
  - intros s' ->. assert (ends_with_underscore (s' ++ chars "_") = true)
      by (apply ends_with_underscore_spec; eauto). congruence.
  - intros (c & r' & -> & Hc). apply Hn. exists c, r'. apply HP in Hc. rewrite Hc. auto.
  - intros (r' & ->). apply Hn. exists (ch "_"), r'. split; auto. apply orb_true_r.
Qed.

Lemma wp_expect_read_number_string ss check P pre rest f :
  (forall c, check c = true <-> P c) ->
  ss <= rpos pre ->
  WP (expect_read_number_string ss check) pre rest f (fun s pre' rest' f' =>
    rest = s ++ rest' /\ pre' = pre ++ s /\ f' = f /\ digits_sep P s /\ s <> [] /\
    ~ starts P rest' /\ ~ prefix (chars "_") rest').
Proof.
  intros HP Hss. unfold expect_read_number_string. wp.
  eapply wpl_mono; [now apply wp_read_number_string|].
  intros s p r g _ (-> & -> & -> & Hs & H1 & H2). destruct s as [|c s]; simpl is_empty; wp.
  - eok2.
  - repeat split; auto; try apply Hs. discriminate.
Qed.

Lemma wp_read_prefixed_string check P pre x rest f :
  (forall c, check c = true <-> P c) -> radix_prefix [ch "0"; x] P ->
  WP (read_prefixed_string check) pre (ch "0" :: x :: rest) f (fun s pre' rest' f' =>
    ch "0" :: x :: rest = s ++ rest' /\ pre' = pre ++ s /\ f' = f /\ s <> [] /\ number s rest').
Proof.
  intros HP Hx. unfold read_prefixed_string. wp.
  eapply wpl_mono; [apply wp_expect_read_number_string; [exact HP|pos_facts2]|].
  intros s p r g _ (-> & -> & -> & Hs & Hn & H1 & H2). wp. norm. repeat split; auto.
  - discriminate.
  - apply (number_radix [ch "0"; x] P); auto.
Qed.

Lemma digit_iff' : forall c, is_digit c = true <-> digit c.
Proof. apply digit_iff. Qed.

Lemma not_digit_dot : ~ digit (ch ".").
Proof. unfold digit. simpl. intuition discriminate. Qed.
Lemma not_digit_e c : In c (chars "eE") -> ~ digit c.
Proof. unfold digit. simpl. intros [<-|[<-|[]]]; intuition discriminate. Qed.

(** [c :: rest] starts a decimal number. *)
Definition decimal_start (s : str) : Prop :=
  starts digit s \/ exists s', s = chars "." ++ s' /\ starts digit s'.

Lemma wp_read_decimal_string pre rest f :
  decimal_start rest -> (forall s, rest = ch "0" :: s -> ~ starts digit s) ->
  WP read_decimal_string pre rest f (fun s pre' rest' f' =>
    rest = s ++ rest' /\ pre' = pre ++ s /\ f' = f /\ s <> [] /\ number s rest').
Proof.
  intros Hd Hz. unfold read_decimal_string. wp.
  eapply wpl_mono; [apply wp_read_number_string; [apply digit_iff'|pos_facts2]|].
  intros i p r g _ (-> & -> & -> & Hi & H1 & _). wp.
  (* the fraction *)
  assert (Hfr : WP (if opt_is (ch ".") match r with c :: _ => Some c | [] => None end
      then let! dot := consume in
           let! fractional_part := read_number_string (rpos pre) is_digit in
           ret (i ++ [dot] ++ fractional_part)
      else ret i)%lm (pre ++ i) r f (fun s pre' rest' f' =>
         exists fr, s = i ++ fr /\ r = fr ++ rest' /\ pre' = pre ++ i ++ fr /\ f' = f /\
           fraction fr /\ ~ starts digit rest' /\ (fr = [] -> ~ prefix (chars ".") rest') /\
           (i = [] -> exists s', fr = chars "." ++ s' /\ starts digit s'))).
  { destruct (opt_is _ _) eqn:Edot.
    - apply opt_is_cons in Edot. destruct r as [|x r]; [discriminate|]. inv Edot. wp.
      eapply wpl_mono; [apply wp_read_number_string; [apply digit_iff'|pos_facts2]|].
      intros s p r' g _ (-> & -> & -> & Hs & Hs1 & _). wp.
      exists (chars "." ++ s). simpl chars. norm. repeat split; auto.
      + constructor. auto.
      + discriminate.
      + intros ->. exists s. split; auto. destruct Hd as [(c & s' & E & Hc)|(s' & E & Hs')].
        * simpl in E. inv E. destruct (not_digit_dot Hc).
        * simpl in E. inv E. destruct s as [|y s]; [|exists y, s; split; auto].
          -- simpl in Hs'. contradiction.
          -- destruct Hs' as (? & ? & E & ?). simpl in E. inv E. auto.
    - apply opt_is_false in Edot. wp. exists []. rewrite app_nil_r. repeat split; auto.
      + constructor.
      + intros _ (r' & ->). apply Edot. reflexivity.
      + intros ->. exfalso. simpl in Hd. destruct Hd as [Hd|(s' & -> & _)]; [now apply H1|].
        apply Edot. reflexivity. }
  eapply wpl_mono; [exact Hfr|]. clear Hfr.
  intros s p r1 g _ (fr & -> & -> & -> & -> & Hf & H2 & H3 & H4). wp.
  assert (Hst : starts digit i \/ (i = [] /\ exists s, fr = chars "." ++ s /\ starts digit s)).
  { destruct i as [|c i]; [right; auto|]. left. exists c, i. split; auto.
    destruct Hd as [(c' & s' & E & Hc)|(s' & E & Hs')].
    - simpl in E. inv E. auto.
    - simpl in E. inv E. destruct Hi as [Hi _]. destruct (Hi (ch ".")); [left; auto|auto|discriminate]. }
  assert (Hz' : forall s, i = ch "0" :: s -> ~ starts digit s).
  { intros s -> (c & s' & -> & Hc). eapply Hz; [simpl; reflexivity|]. simpl. exists c. eauto. }
  assert (Hne : i ++ fr <> []).
  { destruct Hst as [(c & i' & -> & _)|(-> & s' & -> & _)]; discriminate. }
  destruct (_ || _)%bool eqn:Ee.
  - destruct r1 as [|e r1]; [discriminate|].
    assert (He : In e (chars "eE")).
    { unfold opt_is in Ee. apply orb_true_iff in Ee. rewrite !N.eqb_eq in Ee. simpl. tauto. }
    clear Ee. wp.
    assert (Hsign : WP (if (opt_is (ch "-") match r1 with c :: _ => Some c | [] => None end
        || opt_is (ch "+") match r1 with c :: _ => Some c | [] => None end)%bool
      then let! s := consume in ret [s] else ret [])%lm
        ((pre ++ i ++ fr) ++ [e]) r1 f (fun s pre' rest' f' =>
          r1 = s ++ rest' /\ pre' = ((pre ++ i ++ fr) ++ [e]) ++ s /\ f' = f /\
          In s [[]; chars "+"; chars "-"])).
    { destruct (_ || _)%bool eqn:Es.
      - destruct r1 as [|c r1]; [discriminate|]. wp. repeat split; auto.
        unfold opt_is in Es. apply orb_true_iff in Es. rewrite !N.eqb_eq in Es. simpl.
        destruct Es as [<-|<-]; auto.
      - wp. rewrite app_nil_r. simpl. auto. }
    eapply wpl_mono; [exact Hsign|]. clear Hsign.
    intros sg p r2 g _ (-> & -> & -> & Hsg). wp.
    eapply wpl_mono; [apply wp_expect_read_number_string; [apply digit_iff'|pos_facts2]|].
    intros x p r3 g _ (-> & -> & -> & Hx & Hn & H5 & _). wp. norm.
    repeat split; auto.
    + intros E. apply Hne. apply app_eq_nil in E. destruct E as [-> E]. simpl in *.
      apply app_eq_nil in E. tauto.
    + change (e :: sg ++ x) with ([e] ++ sg ++ x). rewrite app_assoc with (l := i).
      rewrite <- app_assoc. apply number_decimal; auto.
      * constructor; auto.
      * intros _ E. discriminate.
  - wp. norm. repeat split; auto.
    rewrite <- (app_nil_r fr). apply number_decimal; auto. constructor.
Qed.

Lemma wp_read_number_literal pre rest f :
  decimal_start rest ->
  WP read_number_literal pre rest f (produces pre rest f).
Proof.
  intros Hd. unfold read_number_literal. destruct rest as [|c rest].
  { destruct Hd as [(? & ? & ? & _)|(? & ? & _)]; discriminate. }
  wp.
  set (p := match c :: rest with _ :: c0 :: _ => Some c0 | _ => None end).
  assert (Hnum : WP (if (opt_is (ch "x") p || opt_is (ch "X") p) && N.eqb c (ch "0") then
       read_prefixed_string is_hex_digit
     else if (opt_is (ch "o") p || opt_is (ch "O") p) && N.eqb c (ch "0") then
       read_prefixed_string is_octal_digit
     else if (opt_is (ch "b") p || opt_is (ch "B") p) && N.eqb c (ch "0") then
       read_prefixed_string is_binary_digit
     else if opt_digit p && N.eqb c (ch "0") then
       let! pos := position in
       lfail_ (lex_syntax_error "Zero prefixed numbers are deprecated and not supported" pos (pos + 1))
     else read_decimal_string)%bool%lm pre (c :: rest) f (fun s pre' rest' f' =>
    c :: rest = s ++ rest' /\ pre' = pre ++ s /\ f' = f /\ s <> [] /\ number s rest')).
  { assert (Hpx : forall a b, ((opt_is a p || opt_is b p) && N.eqb c (ch "0"))%bool = true ->
       c = ch "0" /\ exists x r, rest = x :: r /\ In x [a; b]).
    { intros a b H. apply andb_true_iff in H. destruct H as [H Hc]. apply N.eqb_eq in Hc.
      split; auto. unfold p in H. destruct rest as [|x r]; [discriminate|].
      exists x, r. split; auto. apply orb_true_iff in H. unfold opt_is in H. rewrite !N.eqb_eq in H. simpl. tauto. }
    destruct (_ && _)%bool eqn:E1.
    { apply Hpx in E1. destruct E1 as (-> & x & r & -> & Hx).
      apply wp_read_prefixed_string with (P := hex_digit); [apply hex_digit_iff|now constructor]. }
    destruct (_ && _)%bool eqn:E2 in |- *.
    { apply Hpx in E2. destruct E2 as (-> & x & r & -> & Hx).
      apply wp_read_prefixed_string with (P := octal_digit); [apply octal_digit_iff|now constructor]. }
    destruct (_ && _)%bool eqn:E3 in |- *.
    { apply Hpx in E3. destruct E3 as (-> & x & r & -> & Hx).
      apply wp_read_prefixed_string with (P := binary_digit); [apply binary_digit_iff|now constructor]. }
    destruct (_ && _)%bool eqn:E4 in |- *.
    { wp. eok2. }
    apply wp_read_decimal_string; auto.
    intros s E (x & r & -> & Hx). inv E. unfold p in E4. simpl in E4.
    apply digit_iff in Hx. rewrite Hx in E4. discriminate. }
  eapply wpl_mono; [exact Hnum|]. clear Hnum. intros s p' r g _ (E & -> & -> & Hne & Hnum). wp.
  destruct r as [|x r].
  - wp. exists s. repeat split; auto. constructor; auto. intros (? & ? & H & _). discriminate.
  - destruct (is_start_of_identifier x) eqn:Ex; wp.
    + eok2.
    + exists s. repeat split; auto. constructor; auto. intros (? & ? & H & Hx). inv H.
      apply id_start_iff in Hx. congruence.
Qed.

(** ** Strings *)

Lemma string_body_snoc q s v s2 v2 :
  string_body q s v -> string_body q s2 v2 -> string_body q (s ++ s2) (v ++ v2).
Proof.
  induction 1; intros; simpl; auto.
  - apply sb_char; auto.
  - apply sb_escape; auto.
  - apply sb_escape_crlf; auto.
Qed.

Lemma wp_read_string_literal pre q rest f :
  q = 34%N \/ q = 39%N ->
  WP read_string_literal pre (q :: rest) f (produces pre (q :: rest) f).
Proof.
  intros Hq. unfold read_string_literal. wp.
  apply wpl_debug_assert; [destruct Hq as [->| ->]; reflexivity|]. wp.
  unfold read_until_unescaped_delimiter.
  apply wpl_loop with (Inv := fun v p r g => exists s, p = pre ++ [q] ++ s /\ rest = s ++ r /\ g = f /\
    string_body q s v).
  2:{ exists []. norm. repeat split; auto. constructor. }
  intros v p r g (s & -> & -> & -> & Hs). wp. subst r.
  destruct (N.eqb_spec c (ch "\")).
  - subst c. unfold read_escape_sequence. wp. subst r0.
    destruct (_ && _)%bool eqn:E.
    + apply andb_true_iff in E. destruct E as [E1 E2]. apply N.eqb_eq in E1. subst c.
      apply opt_is_cons in E2. destruct r as [|x r]; [discriminate|]. inv E2. wp.
      split; [|simpl; lia]. exists (s ++ [ch "\"; 0xD; 0xA]%N). norm. repeat split; auto.
      apply string_body_snoc; auto. apply sb_escape_crlf. constructor.
    + wp. split; [|simpl; lia]. exists (s ++ [ch "\"; c]). norm. repeat split; auto.
      apply string_body_snoc; auto. constructor. constructor.
  - destruct (N.eqb_spec c q).
    + subst c. wp. exists ([q] ++ s ++ [q]). norm. repeat split; auto; try discriminate.
      apply (lexeme_string st q s v); auto.
    + unfold validate_character. destruct (_ || _)%bool eqn:E; wp.
      * eok2.
      * apply orb_false_iff in E. rewrite !N.eqb_neq in E. split; [|simpl; lia].
        exists (s ++ [c]). norm. repeat split; auto.
        apply string_body_snoc; auto. constructor; auto; try tauto. constructor.
Qed.

(** ** Regular expressions *)

Lemma wp_read_regexp_group_body pre rest f :
  WP read_regexp_group_body pre rest f (fun s pre' rest' f' =>
    exists k, s = k ++ chars "]" /\ rest = s ++ rest' /\ pre' = pre ++ s /\ f' = f /\ class_body k).
Proof.
  unfold read_regexp_group_body.
  assert (Hsnoc : forall a b, class_body a -> class_body b -> class_body (a ++ b)).
  { induction 1; intros; simpl; auto; [apply cb_char|apply cb_escape]; auto. }
  apply wpl_loop with (Inv := fun k p r g => p = pre ++ k /\ rest = k ++ r /\ g = f /\ class_body k).
  2:{ norm. rewrite app_nil_r. repeat split; auto. constructor. }
  intros k p r g (-> & -> & -> & Hk). wp. subst r.
  destruct (N.eqb_spec c (ch "]")).
  - subst. wp. exists k. simpl chars. norm. repeat split; auto.
  - destruct (N.eqb_spec c (ch "\")).
    + subst. wp. subst. split; [|simpl; lia]. norm. repeat split; auto.
      apply Hsnoc; auto. apply cb_escape. constructor.
    + wp. split; [|simpl; lia]. norm. repeat split; auto.
      apply Hsnoc; auto. apply cb_char; auto. constructor.
Qed.

(** The text of a regexp body while a [\] directly before a line terminator
    may be pending. *)
Lemma wp_read_regexp_literal pre rest f :
  regex_allowed st = true ->
  WP read_regexp_literal pre (ch "/" :: rest) f (produces pre (ch "/" :: rest) f).
Proof.
  intros Hst. unfold read_regexp_literal. wp. apply wpl_debug_assert; [reflexivity|]. wp.
  assert (Hsnoc : forall a b, regexp_body a -> regexp_body b -> regexp_body (a ++ b)).
  { induction 1; intros; simpl; auto; [apply rb_char|apply rb_escape|]; auto.
    rewrite <- app_assoc. simpl. apply (rb_class k (s ++ b)); auto. }
  eapply wpl_mono with (Q := fun s pre' rest' f' => exists b, s = chars "/" ++ b ++ chars "/" /\
     rest = b ++ chars "/" ++ rest' /\ pre' = pre ++ s /\ f' = f /\ regexp_body b).
  - apply wpl_loop with (Inv := fun s p r g => exists b, s = [ch "/"] ++ b /\ p = pre ++ s /\
      rest = b ++ r /\ g = f /\
      (regexp_body b \/ (exists b' x r', b = b' ++ [ch "\"] /\ regexp_body b' /\ r = x :: r' /\
          line_term x))).
    2:{ exists []. norm. repeat split; auto. left. constructor. }
    intros s p r g (b & -> & -> & -> & -> & Hb). wp. subst r.
    destruct (N.eqb_spec c 0xA).
    { wp. eok2. }
    destruct Hb as [Hb|(b' & x & r' & -> & Hb & E & Hx)].
    + destruct (N.eqb_spec c (ch "/")).
      { subst. wp. exists b. simpl chars. norm. repeat split; auto. }
      destruct (N.eqb_spec c (ch "\")).
      { subst. wp. subst. destruct (is_ecma_line_terminator c) eqn:El.
        - wp. split; [|simpl; lia]. exists (b ++ [ch "\"]). norm. repeat split; auto. right.
          apply line_term_iff in El. exists b, c, r. auto.
        - wp. split; [|simpl; lia]. exists (b ++ [ch "\"; c]). norm. repeat split; auto. left.
          apply Hsnoc; auto. apply rb_escape; [|constructor]. intros ->. discriminate. }
      destruct (N.eqb_spec c (ch "[")).
      { subst. wp. eapply wpl_mono; [apply wp_read_regexp_group_body|].
        intros k' p r1 g _ (k & -> & -> & -> & -> & Hk). wp.
        split; [|simpl; rewrite ?app_length; lia].
        exists (b ++ chars "[" ++ k ++ chars "]"). simpl chars. norm. repeat split; auto. left.
        apply Hsnoc; auto. apply (rb_class k []); auto. constructor. }
      wp. split; [|simpl; lia]. exists (b ++ [c]). norm. repeat split; auto. left.
      apply Hsnoc; auto. apply rb_char; auto. constructor.
    + inv E. unfold line_term in Hx. simpl in Hx.
      assert (Hc : x <> ch "/" /\ x <> ch "\" /\ x <> ch "[").
      { eval_ch. repeat split; intros ->; intuition discriminate. }
      destruct Hc as (Hc1 & Hc2 & Hc3). apply N.eqb_neq in Hc1, Hc2, Hc3.
      rewrite Hc1, Hc2, Hc3. wp. split; [|simpl; lia].
      exists (b' ++ [ch "\"; x]). norm. repeat split; auto. left.
      apply Hsnoc; auto. apply rb_escape; auto. constructor.
  - intros s p r g _ (b & -> & -> & -> & -> & Hb). wp.
    eapply wpl_mono; [apply wp_read_while|].
    intros fl p r' g _ (-> & -> & -> & Hfl & Hn). wp.
    exists (chars "/" ++ b ++ chars "/" ++ fl). simpl chars. norm.
    repeat split; auto; try discriminate.
    apply (lexeme_regexp st b fl r'); auto.
    + intros c Hc. apply id_part_iff. auto.
    + intros (c & r & -> & Hc). apply Hn. exists c, r. split; auto. now apply id_part_iff.
Qed.

(** ** Templates *)

Definition ending_bool (e : template_ending) : bool :=
  match e with TEBacktick => false | TEDollarBrace => true end.

(** The text read so far of a template chunk; [true]: a [\] is pending. *)
Inductive tpart : str -> str -> str -> bool -> Prop :=
| tp_nil r : tpart [] [] r false
| tp_char s v c r : tpart s v (c :: r) false -> c <> ch "`" -> c <> ch "\" ->
    (c = ch "$" -> ~ prefix (chars "{") r) -> tpart (s ++ [c]) (v ++ [c]) r false
| tp_bs s v r : tpart s v (ch "\" :: r) false -> tpart (s ++ [ch "\"]) v r true
| tp_esc s v c r : tpart s v (c :: r) true -> tpart (s ++ [c]) (v ++ [c]) r false.

Lemma template_body_app after s v s2 v2 :
  template_body (s2 ++ after) s v -> template_body after s2 v2 ->
  template_body after (s ++ s2) (v ++ v2).
Proof.
  induction 1; intros; simpl; auto.
  - constructor; auto. rewrite <- app_assoc. auto.
  - constructor; auto.
Qed.

Lemma prefix_nonnil_app p (a b : str) c : prefix [p] ((c :: a) ++ b) -> prefix [p] ((c :: a) ++ nil).
Proof. intros (s & E). simpl in *. inv E. exists (a ++ []). reflexivity. Qed.

(** Only the first character after a chunk matters. *)
Lemma template_body_after s v a1 a2 :
  (prefix (chars "{") a2 -> prefix (chars "{") a1) ->
  template_body a1 s v -> template_body a2 s v.
Proof.
  intros Ha. induction 1; constructor; auto.
  intros Hc Hp. apply H1; auto. destruct s as [|y s]; simpl in *; auto.
  destruct Hp as (r & E). inv E. eexists. reflexivity.
Qed.

Lemma tpart_body s v r b :
  tpart s v r b ->
  if b then exists s', s = s' ++ [ch "\"] /\ template_body (ch "\" :: r) s' v
  else template_body r s v.
Proof.
  induction 1; simpl.
  - constructor.
  - apply template_body_app.
    + simpl. exact IHtpart.
    + constructor; auto. constructor.
  - eauto.
  - destruct IHtpart as (s' & -> & Hb). rewrite <- app_assoc. simpl.
    apply (template_body_app r s' v [ch "\"; c] [c]); [exact Hb|]. constructor. constructor.
Qed.

Lemma template_body_cut s v t r : template_body (t ++ r) s v -> t <> [] -> template_body t s v.
Proof.
  intros H Ht. eapply template_body_after; [|exact H]. destruct t as [|y t]; [congruence|].
  intros (x & E). inv E. eexists. reflexivity.
Qed.

Lemma wp_read_template_part pre rest f :
  WP read_until_end_of_template_literal_part pre rest f (fun r pre' rest' f' =>
    exists s, s <> [] /\ rest = s ++ rest' /\ pre' = pre ++ s /\ f' = f /\
      template_chunk s (fst r) (ending_bool (snd r))).
Proof.
  unfold read_until_end_of_template_literal_part.
  apply wpl_loop with (Inv := fun a p r g => exists s, p = pre ++ s /\ rest = s ++ r /\ g = f /\
    tpart s (fst a) r (snd a)).
  2:{ exists []. rewrite app_nil_r. repeat split; auto. constructor. }
  intros [v esc] p r g (s & -> & -> & -> & Hs). simpl in Hs. wp. subst r.
  destruct (negb esc && N.eqb c (ch "`"))%bool eqn:E1.
  - apply andb_true_iff in E1. destruct E1 as [E1 E2]. apply N.eqb_eq in E2. subst c.
    destruct esc; [discriminate|]. wp. exists (s ++ chars "`"). simpl chars. norm.
    repeat split; auto.
    + destruct s; discriminate.
    + apply tpart_body in Hs. apply (tc_end s v).
      eapply (template_body_cut s v (chars "`")); [exact Hs|discriminate].
  - wp.
    assert (Hd : WP (if (negb esc && N.eqb c (ch "$"))%bool
       then let! n := current in ret (N.eqb n (ch "{")) else ret false)%lm (pre ++ s ++ [c]) r0 f
       (fun d p' r' f' => p' = pre ++ s ++ [c] /\ r' = r0 /\ f' = f /\
          if d : bool then esc = false /\ c = ch "$" /\ exists r1, r0 = ch "{" :: r1
          else esc = false -> c = ch "$" -> ~ prefix (chars "{") r0)).
    { destruct (negb esc && N.eqb c (ch "$"))%bool eqn:E2.
      - apply andb_true_iff in E2. destruct E2 as [E2 E3]. apply N.eqb_eq in E3. wp. subst.
        repeat split; auto. destruct esc; [discriminate|].
        destruct (N.eqb_spec c0 (ch "{")).
        + subst. eauto.
        + intros _ _ (x & E). injection E; intros; auto.
      - wp. repeat split; auto. intros -> ->. discriminate. }
    rewrite <- app_assoc. eapply wpl_mono; [exact Hd|]. clear Hd.
    intros d p' r' f' _ (-> & -> & -> & Hd). destruct d.
    + destruct Hd as (-> & -> & r1 & ->). wp. exists (s ++ chars "${"). simpl chars. norm.
      repeat split; auto.
      * destruct s; discriminate.
      * apply tpart_body in Hs. apply (tc_subst s v).
        eapply (template_body_cut s v (chars "${")); [exact Hs|discriminate].
    + wp. split; [|simpl; lia]. exists (s ++ [c]). norm. repeat split; auto. simpl.
      destruct esc.
      * rewrite andb_false_r. now apply tp_esc.
      * rewrite andb_true_r. simpl in E1. apply N.eqb_neq in E1.
        change 92%N with (ch "\"). destruct (N.eqb_spec c (ch "\")).
        -- subst. now apply tp_bs.
        -- apply tp_char; auto.
Qed.

Lemma wp_read_template_literal_head pre rest f :
  WP read_template_literal_head pre (ch "`" :: rest) f (produces pre (ch "`" :: rest) f).
Proof.
  unfold read_template_literal_head. wp. apply wpl_debug_assert; [reflexivity|]. wp.
  eapply wpl_mono; [apply wp_read_template_part|].
  intros [v e] p r g _ (s & Hn & -> & -> & -> & Hs). simpl in Hs. destruct e; simpl in Hs; wp.
  - exists (chars "`" ++ s). simpl chars. norm. repeat split; auto; try discriminate.
    now apply (lexeme_template_plain st s v).
  - exists (chars "`" ++ s). simpl chars. norm. repeat split; auto; try discriminate.
    now apply (lexeme_template_head st s v).
Qed.

Lemma wp_read_template_middle_or_tail pre rest f :
  WP read_template_literal_middle_or_tail pre rest f (fun t pre' rest' f' =>
    exists s, rest = s ++ rest' /\ pre' = pre ++ s /\ f' = f /\ s <> [] /\
      template_continue s (t_value t) /\ t_fol t = false /\
      t_span t = mk_span (rpos pre) (rpos (pre ++ s))).
Proof.
  unfold read_template_literal_middle_or_tail. wp. subst rest.
  destruct (N.eqb_spec c (ch "}")); simpl negb.
  2:{ wp. eok2. }
  subst c. wp. eapply wpl_mono; [apply wp_read_template_part|].
  intros [v e] p r' g _ (s & Hn & -> & -> & -> & Hs). simpl in Hs. wp.
  exists (chars "}" ++ s). simpl chars. norm. repeat split; auto; try discriminate.
  destruct e; simpl in *; constructor; auto.
Qed.

End Sound.
