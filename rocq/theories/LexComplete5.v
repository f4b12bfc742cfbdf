(** * LexComplete5: every lexeme, token and token sequence of the lexical
    grammar is read, and read as that. *)

From Verif Require Import Base Tokens PeekReader CharReader Lexer LexSpec LexChars LexerFacts
  LexSound LexSound2 LexSound3 LexComplete LexComplete2 LexComplete3 LexComplete4.
Local Open Scope string_scope.
Local Open Scope list_scope.

Section Forward.
Context {PF : Platform}.
Variable D : str.
Variable st : lexer_state.
Notation LX := (LX D st).

(** ** The dispatch on other characters *)

Definition punct_chars : str := chars "/*%+-|^&<>=!;{},[]()~:?.".

Lemma read_value_other start c (L : lexer) :
  ~ In c punct_chars ->
  read_value start c L =
    (if is_digit c then read_number_literal
     else if (N.eqb c 34 || N.eqb c 39)%bool then read_string_literal
     else if N.eqb c (ch "`") then read_template_literal_head
     else if is_start_of_identifier c then read_identifier_or_keyword
     else if N.eqb c (ch "\") then read_identifier_or_keyword
     else (let! c' := consume in
       lfail_ (unrecognized_code_point c' start (start + len8 c')))%lm) L.
Proof.
  intros H. unfold read_value.
  assert (E : forall x, In x punct_chars -> N.eqb c x = false).
  { intros x Hx. apply N.eqb_neq. intros ->. contradiction. }
  unfold bind at 1. unfold get_state. unfold bind at 1.
  destruct (peek_ok L) as [[p|e] L'] eqn:Ep.
  2:{ unfold peek_ok in Ep. discriminate. }
  unfold peek_ok in Ep. injection Ep as _ <-.
  rewrite !E by (simpl; tauto). reflexivity.
Qed.

Lemma digit_not_punct c : digit c -> ~ In c punct_chars.
Proof.
  intros H. unfold digit in H. simpl in H. simpl.
  repeat (destruct H as [<-|H]; [intuition discriminate|]). destruct H.
Qed.

Lemma id_start_class c : id_start_char c ->
  (c < 128)%N -> (is_letter c || N.eqb c (ch "_") || N.eqb c (ch "$"))%bool = true.
Proof.
  intros [H|[->|[->|H]]] Hc; try reflexivity.
  - apply letter_iff in H. rewrite H. reflexivity.
  - apply id_start_ascii in H; auto. unfold is_letter. eval_ch.
    destruct (in_range 65 90 c), (in_range 97 122 c); simpl in *; auto; discriminate.
Qed.

(** No character of an ASCII class without letters, [_] and [$] starts a word. *)
Lemma id_start_not (l : str) c :
  forallb (fun x => N.ltb x 128 && negb (is_letter x || N.eqb x (ch "_") || N.eqb x (ch "$")))%bool l = true ->
  id_start_char c -> ~ In c l.
Proof.
  intros Hl Hc Hi. rewrite forallb_forall in Hl. specialize (Hl c Hi).
  apply andb_true_iff in Hl. destruct Hl as [H1 H2]. apply N.ltb_lt in H1.
  rewrite (id_start_class c Hc H1) in H2. discriminate.
Qed.

Lemma id_start_not_digit c : id_start_char c -> is_digit c = false.
Proof.
  intros H. destruct (is_digit c) eqn:E; auto. apply digit_iff in E.
  destruct (id_start_not (chars "0123456789") c eq_refl H E).
Qed.

Lemma id_start_not_gap c : id_start_char c -> ~ gap_char c.
Proof.
  intros H G. destruct (N.ltb_spec c 128) as [Hc|Hc].
  - pose proof (id_start_class c H Hc) as E. unfold gap_char, white_space, line_term in G. simpl in G.
    intuition (subst; try discriminate; lia).
  - destruct H as [H|[->|[->|H]]].
    + unfold letter in H. simpl in H. revert Hc.
      repeat (destruct H as [<-|H]; [intros Hc; exfalso; revert Hc; clear; lia|]). destruct H.
    + revert Hc. clear. eval_ch. lia.
    + revert Hc. clear. eval_ch. lia.
    + apply id_start_continue in H. rewrite id_continue_blank in H; [discriminate|]. unfold gap_char, white_space, line_term in G.
      simpl in G |- *. intuition (subst; tauto || lia).
Qed.

Lemma word_head s v : word s v -> exists c r, s = c :: r /\ (id_start_char c \/ c = ch "\").
Proof.
  intros [c w v' H _|e c w v' H _ _]; [eauto|].
  destruct H; eexists; eexists; (split; [reflexivity|right; reflexivity]).
Qed.

Lemma number_head s after : number s after ->
  exists c r, s = c :: r /\ (digit c \/ (c = ch "." /\ starts digit r)).
Proof.
  intros H. destruct H as [p P s after Hp Hne Hs HnP|i fr e after Hi Hf He Hst Hz Hd Hdot].
  - destruct Hp; simpl; eexists; eexists; (split; [reflexivity|left]); unfold digit; simpl; auto.
  - destruct Hst as [(c & r & -> & Hc)|(-> & s & -> & (c & r & -> & Hc))].
    + simpl. eauto.
    + simpl. eexists; eexists. split; [reflexivity|]. right. split; auto. exists c, (r ++ e). auto.
Qed.

(** What may start a lexeme. *)
Lemma lexeme_head s after v : lexeme st s after v ->
  exists c r, s = c :: r /\ (id_start_char c \/ In c (chars "\0123456789`" ++ [34; 39]%N ++ punct_chars)).
Proof.
  intros H. destruct H.
  - destruct p; cbn; eexists; eexists; (split; [reflexivity|]); right; simpl; tauto.
  - apply word_head in H. destruct H as (c & r & -> & [Hc| ->]); exists c, r || eexists; eauto.
    eexists. split; [reflexivity|]. right. simpl. auto.
  - apply number_head in H. destruct H as (c & r & -> & [Hc|(-> & _)]).
    + exists c, r. split; auto. right. unfold digit in Hc. simpl in Hc |- *. tauto.
    + eexists; eexists; split; [reflexivity|]. right. simpl. tauto.
  - eexists; eexists; split; [reflexivity|]. right. destruct H as [->| ->]; simpl; tauto.
  - eexists; eexists; split; [reflexivity|]. right. simpl. tauto.
  - eexists; eexists; split; [reflexivity|]. right. simpl. tauto.
  - eexists; eexists; split; [reflexivity|]. right. simpl. tauto.
Qed.

Lemma lexeme_not_gap s after v : lexeme st s after v -> ~ starts gap_char (s ++ after).
Proof.
  intros H. apply lexeme_head in H. destruct H as (c & r & -> & Hc). intros (x & y & E & Hx).
  simpl in E. injection E as <- _. destruct Hc as [Hc|Hc]; [now apply (id_start_not_gap c Hc)|].
  revert Hx. unfold gap_char, white_space, line_term. clear -Hc. simpl in Hc.
  repeat (destruct Hc as [<-|Hc]; [simpl; clear; intuition discriminate|]). destruct Hc.
Qed.

Lemma read_value_fwd s after v pre f :
  lexeme st s after v ->
  exists c r, s = c :: r /\
    read_value (rpos pre) c (LX pre (s ++ after) f) = (Ok v, LX (pre ++ s) after f).
Proof.
  intros H. destruct H as [p after Hl Hd Hr|s v tv after Hw Hv Ha Hb|s after Hn Ha|q s v after Hq Hs
    |s v after Hs|s v after Hs|s flags after Hr Hs Hf Ha].
  - assert (E : exists c r, punct_str p = c :: r) by (destruct p; cbn; eauto).
    destruct E as (c & r & E). exists c, r. split; auto. eapply punct_fwd; eauto.
  - destruct (word_head _ _ Hw) as (c & r & -> & Hc). exists c, r. split; auto.
    rewrite read_value_other.
    + destruct Hc as [Hc| ->].
      * rewrite id_start_not_digit by auto.
        assert (Hn := id_start_not [34; 39; 96]%N c eq_refl Hc).
        replace ((c =? 34) || (c =? 39))%N%bool with false.
        2:{ symmetry. apply orb_false_iff. split; apply N.eqb_neq; intros ->; apply Hn; simpl; auto. }
        replace (c =? ch "`")%N with false.
        2:{ symmetry. apply N.eqb_neq; intros ->; apply Hn; simpl; auto. }
        apply id_start_iff in Hc. rewrite Hc. now apply read_identifier_fwd with (v := v).
      * eval_ch. change (is_digit 92) with false. eval_eqb. cbv iota.
        destruct (is_start_of_identifier 92); now apply read_identifier_fwd with (v := v).
    + destruct Hc as [Hc| ->].
      * now apply id_start_not.
      * simpl. intuition discriminate.
  - destruct (number_head _ _ Hn) as (c & r & -> & [Hc|(-> & Hc)]).
    + exists c, r. split; auto. rewrite read_value_other by (now apply digit_not_punct).
      apply digit_iff in Hc. rewrite Hc. now apply read_number_fwd.
    + exists (ch "."), r. split; auto. unfold read_value. simpl app. ex. cbn [opt_is]. eval_ch. eval_eqb.
      destruct Hc as (x & y & -> & Hx). change ((x :: y) ++ after) with (x :: y ++ after).
      cbn [opt_is opt_digit].
      replace (61 =? x)%N with false by (unfold digit in Hx; simpl in Hx;
        repeat (destruct Hx as [<-|Hx]; [reflexivity|]); destruct Hx).
      replace (46 =? x)%N with false by (unfold digit in Hx; simpl in Hx;
        repeat (destruct Hx as [<-|Hx]; [reflexivity|]); destruct Hx).
      apply digit_iff in Hx. rewrite Hx. cbn [andb].
      now apply (read_number_fwd D st (46%N :: x :: y) after).
  - exists q, (s ++ [q]). split; auto. rewrite read_value_other.
    2:{ destruct Hq as [->| ->]; simpl; intuition discriminate. }
    replace (is_digit q) with false by (destruct Hq as [->| ->]; reflexivity).
    replace ((q =? 34) || (q =? 39))%N%bool with true by (destruct Hq as [->| ->]; reflexivity).
    rewrite <- !app_assoc. now apply read_string_fwd.
  - exists (ch "`"), s. split; auto. rewrite read_value_other by (simpl; intuition discriminate).
    eval_ch. change (is_digit 96) with false. eval_eqb. rewrite <- app_assoc.
    apply (read_template_head_fwd D st s v false after pre f Hs).
  - exists (ch "`"), s. split; auto. rewrite read_value_other by (simpl; intuition discriminate).
    eval_ch. change (is_digit 96) with false. eval_eqb. rewrite <- app_assoc.
    apply (read_template_head_fwd D st s v true after pre f Hs).
  - exists (ch "/"), (s ++ chars "/" ++ flags). split; auto.
    unfold read_value. ex. rewrite Hr, N.eqb_refl. cbn [andb].
    replace ((chars "/" ++ s ++ chars "/" ++ flags) ++ after) with
      (chars "/" ++ s ++ chars "/" ++ flags ++ after) by (norm; reflexivity).
    now apply read_regexp_fwd.
Qed.

End Forward.
