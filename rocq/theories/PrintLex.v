(** * PrintLex: a plain token, written as it is spelt, is read back. *)

From Verif Require Import Base Tokens Lexer LexSpec LexChars LexComplete2 LexerFacts LexComplete5 LexProps Ast Layout Bare Starts Source Unparse.
Local Open Scope string_scope.
Local Open Scope list_scope.

Section PL.
Context {PF : Platform}.

Definition ok_after (v : tvalue) (after : str) : Prop :=
  after = [] \/ exists c r, after = c :: r /\ (c < 128)%N /\ before v c = true.

Lemma word_part c : (c < 128)%N -> id_part_char c -> word_char c = true.
Proof.
  intros Hc H. apply id_part_ascii in H; auto. revert H.
  unfold is_digit, is_letter, word_char, ascii_alnum, in_range. cbn.
  intros H. repeat rewrite orb_true_iff in *. tauto.
Qed.

Lemma word_char_part c : word_char c = true -> id_part_char c.
Proof.
  unfold word_char, ascii_alnum. intros H. repeat rewrite orb_true_iff in H.
  destruct H as [[[[H|H]|H]|H]|H].
  - right; left. apply digit_iff. exact H.
  - left. apply letter_iff. unfold is_letter. cbn. unfold in_range in *. rewrite H. reflexivity.
  - left. apply letter_iff. unfold is_letter. cbn. unfold in_range in *. rewrite H. apply orb_true_r.
  - apply N.eqb_eq in H. subst. right; right; left. reflexivity.
  - apply N.eqb_eq in H. subst. right; right; right; left. reflexivity.
Qed.

Lemma word_char_start c : word_char c = true -> digit_char c = false -> id_start_char c.
Proof.
  unfold word_char, ascii_alnum. intros H Hd. unfold digit_char in Hd. repeat rewrite orb_true_iff in H.
  destruct H as [[[[H|H]|H]|H]|H].
  - congruence.
  - left. apply letter_iff. unfold is_letter. cbn. unfold in_range in *. rewrite H. reflexivity.
  - left. apply letter_iff. unfold is_letter. cbn. unfold in_range in *. rewrite H. apply orb_true_r.
  - apply N.eqb_eq in H. subst. right; left. reflexivity.
  - apply N.eqb_eq in H. subst. right; right; left. reflexivity.
Qed.

Lemma word_tail_raw x : forallb word_char x = true -> word_tail x x.
Proof.
  induction x as [|c x IH]; cbn [forallb]; intros H; [constructor|].
  apply andb_true_iff in H. destruct H. constructor; auto. now apply word_char_part.
Qed.

Lemma word_raw c x : forallb word_char (c :: x) = true -> digit_char c = false -> word (c :: x) (c :: x).
Proof.
  cbn [forallb]. intros H Hd. apply andb_true_iff in H. destruct H as [H1 H2].
  constructor; auto using word_tail_raw, word_char_start.
Qed.

Lemma starts_with_app p s : starts_with p (p ++ s) = true.
Proof.
  unfold starts_with. apply str_eqb_eq. rewrite firstn_app, Nat.sub_diag, firstn_all. now rewrite app_nil_r.
Qed.

Lemma keyword_from_none x : keyword_from_str x = None -> forall k, x <> keyword_str k.
Proof.
  intros H k ->. unfold keyword_from_str in H.
  pose proof (find_none _ _ H k) as X. cbv beta in X.
  assert (str_eqb (keyword_str k) (keyword_str k) = true) by (now apply str_eqb_eq).
  rewrite X in H0; [discriminate|]. destruct k; cbv; tauto.
Qed.

Lemma keyword_word k : forallb word_char (keyword_str k) = true /\
  exists c x, keyword_str k = c :: x /\ digit_char c = false.
Proof. destruct k; (split; [reflexivity|eexists; eexists; split; reflexivity]). Qed.

Lemma not_part v c (r : str) : (c < 128)%N -> (negb (word_char c) && v)%bool = true -> ~ LexSpec.starts id_part_char (c :: r).
Proof.
  intros Hc H (x & y & E & Hx). injection E as <- _. apply word_part in Hx; auto. rewrite Hx in H. discriminate.
Qed.

Lemma lexeme_after st v after : regex_allowed st = false -> plain v -> special v = false -> ok_after v after ->
  lexeme st (spell v) after v.
Proof.
  intros Hst Hp Hsp Ha. destruct v as [k|x|p|l|s|s|s]; cbn [spell plain special] in *; try discriminate Hsp.
  - (* keyword *)
    destruct (keyword_word k) as (Hw & c & x & E & Hd). eapply lexeme_word with (v := keyword_str k).
    + rewrite E. apply word_raw; auto. now rewrite <- E.
    + left. eauto.
    + destruct Ha as [->|(d & r & -> & Hc & H)]; [intros (a & b & E1 & _); discriminate|].
      cbn [before] in H. eapply not_part; eauto.
    + destruct Ha as [->|(d & r & -> & Hc & H)]; [intros (a & E1); discriminate|].
      cbn [before] in H. apply andb_true_iff in H. destruct H as [_ H]. intros (a & E1). injection E1 as -> _.
      discriminate.
  - destruct Hp as (Hk & Hw & c & x' & -> & Hd). eapply lexeme_word with (v := c :: x').
    + now apply word_raw.
    + right. split; auto. now apply keyword_from_none.
    + destruct Ha as [->|(d & r & -> & Hc & H)]; [intros (a & b & E1 & _); discriminate|].
      cbn [before] in H. eapply not_part; eauto.
    + destruct Ha as [->|(d & r & -> & Hc & H)]; [intros (a & E1); discriminate|].
      cbn [before] in H. apply andb_true_iff in H. destruct H as [_ H]. intros (a & E1). injection E1 as -> _.
      discriminate.
  - (* punctuator *)
    apply lexeme_punct.
    + split.
      * exists after. split; auto. intros (-> & c & r & -> & Hd).
        destruct Ha as [E|(d & r' & E & Hc & H)]; [discriminate|]. injection E as <- _.
        apply digit_iff in Hd. change (is_digit c) with (digit_char c) in Hd.
        cbn [before] in H. rewrite Hd, !andb_false_r in H. discriminate.
      * intros q (s' & E & Hq). apply app_prefix_cases in E.
        destruct E as [(e & E & _)|(e & E & E')]; [rewrite E, app_length; lia|].
        destruct e as [|y e]; [rewrite app_nil_r in E; rewrite E; lia|].
        simpl in E'. exfalso.
        destruct Ha as [->|(d & r' & -> & Hc & H)]; [discriminate|]. injection E' as -> _.
        cbn [before] in H. apply andb_true_iff in H. destruct H as [H _]. rewrite forallb_forall in H.
        specialize (H q). rewrite E in H. change (y :: e) with ([y] ++ e) in H. rewrite app_assoc, starts_with_app in H.
        cut (false = true); [discriminate|]. apply H. destruct q; cbv; tauto.
    + intros ->. destruct Ha as [->|(d & r' & -> & Hc & H)].
      * split; [intros (a & b & E & _); discriminate|intros (a & E); discriminate].
      * cbn [before] in H. apply andb_true_iff in H. destruct H as [_ H]. apply andb_true_iff in H. destruct H as [H1 H2]. split.
        -- intros (a & b & E & Hd). injection E as <- _. apply digit_iff in Hd.
           change (is_digit d) with (digit_char d) in Hd. rewrite Hd in H1. discriminate.
        -- intros (a & E). injection E as -> _. discriminate.
    + congruence.
  - destruct l as [s q|r|s|s]; cbn [spell plain special] in *; try discriminate Hsp.
    + destruct Hp as (Hq & _ & Hb). now apply lexeme_string.
    + destruct Hp as (_ & a & Hn). apply lexeme_number.
      * assert (Hnp : forall c, (c < 128)%N -> word_char c = false -> ~ hex_digit c).
        { intros c Hc Hw Hh. unfold hex_digit in Hh. simpl in Hh. revert Hw.
          repeat (destruct Hh as [<-|Hh]; [discriminate|]). destruct Hh. }
        inversion Hn as [p P s1 a1 Hp Hne Hs HnP E1 E2|i fr e a1 Hi Hf He Hst' Hz Hd Hdot E1 E2]; subst.
        -- apply (number_radix p P); auto. intros (c & t & -> & HP).
           destruct Ha as [E|(d & r' & E & Hc & H)]; [discriminate|]. injection E as <- _.
           cbn [before] in H. apply andb_true_iff in H. destruct H as [H _]. apply negb_true_iff in H.
           apply (Hnp c Hc H). destruct Hp; unfold hex_digit, octal_digit, binary_digit in *; simpl in *; tauto.
        -- apply number_decimal; auto.
           ++ intros (c & t & -> & HP).
              destruct Ha as [E|(d & r' & E & Hc & H)]; [discriminate|]. injection E as <- _.
              cbn [before] in H. apply andb_true_iff in H. destruct H as [H _]. apply negb_true_iff in H.
              apply (Hnp c Hc H). unfold digit in HP. unfold hex_digit. simpl in *. tauto.
           ++ intros -> -> (t & ->).
              destruct Ha as [E|(d & r' & E & Hc & H)]; [discriminate|]. injection E as <- _.
              cbn [before] in H. apply andb_true_iff in H. destruct H as [_ H]. rewrite !app_nil_r in H.
              rewrite N.eqb_refl in H. cbn [negb orb] in H. apply existsb_exists in H. destruct H as (x & Hx & H).
              destruct Hi as (Hi & _). apply Hi in Hx. apply negb_true_iff, orb_false_iff in H. destruct H as [H1 H2].
              destruct Hx as [Hx| ->]; [|discriminate]. apply digit_iff in Hx.
              change (is_digit x) with (digit_char x) in Hx. congruence.
      * intros (c & t & -> & HP).
        destruct Ha as [E|(d & r' & E & Hc & H)]; [discriminate|]. injection E as <- _.
        cbn [before] in H. apply (not_part _ c t Hc H). exists c, t. split; auto. now apply id_start_part.
    + destruct Hp as (_ & Hb). apply lexeme_template_plain. now constructor.
  - destruct Hp as (_ & Hb). apply lexeme_template_head. now constructor.
Qed.

(** A regular expression, where one is allowed; the rest of a template. *)
Lemma lexeme_regexp_after st s after : regex_allowed st = true -> plain (VLiteral (TLRegexp s)) ->
  ok_after (VLiteral (TLRegexp s)) after -> lexeme st s after (VLiteral (TLRegexp s)).
Proof.
  intros Hst (_ & b & fl & -> & Hb & _ & _ & Hf) Ha. apply lexeme_regexp; auto.
  - intros c Hc. rewrite forallb_forall in Hf. apply word_char_part. now apply Hf.
  - destruct Ha as [->|(d & r & -> & Hc & H)]; [intros (a & x & E1 & _); discriminate|].
    cbn [before] in H. eapply not_part; eauto.
Qed.
Lemma continue_after v : plain v -> resumes v = true -> template_continue (spell v) v.
Proof.
  intros Hp H. destruct v; try discriminate H; cbn [plain spell] in *; destruct Hp as (_ & Hb).
  - apply tcont_middle. now constructor.
  - apply tcont_tail. now constructor.
Qed.

(** ** Comments *)

Lemma number_nonempty r after : number r after -> r <> [].
Proof.
  intros [p P s a Hp Hne Hs HnP|i f e a Hi Hf He Hst Hz Hd Hdot].
  - destruct Hp; discriminate.
  - destruct Hst as [(c & t & -> & _)|(-> & s & -> & _)]; discriminate.
Qed.

Lemma plain_cons v : plain v -> exists c s, spell v = c :: s /\ (c < 128)%N.
Proof.
  destruct v as [k|x|p|l|s|s|s]; cbn [spell plain]; intros H;
    try solve [eexists; eexists; (split; [reflexivity|reflexivity])].
  - destruct k; eexists; eexists; (split; [reflexivity|reflexivity]).
  - destruct H as (_ & Hw & c & x' & -> & _). exists c, x'. split; auto. cbn [forallb] in Hw.
    apply andb_true_iff in Hw. destruct Hw as [Hw _]. unfold word_char, ascii_alnum, in_range in Hw.
    repeat rewrite orb_true_iff in Hw. repeat rewrite andb_true_iff in Hw.
    repeat rewrite N.leb_le in Hw. repeat rewrite N.eqb_eq in Hw. lia.
  - destruct p; eexists; eexists; (split; [reflexivity|reflexivity]).
  - destruct l as [s q|r|s|s]; cbn [spell plain] in *; try contradiction.
    + destruct H as ([->| ->] & _); eexists; eexists; (split; [reflexivity|reflexivity]).
    + destruct H as (Ha & after & Hn). destruct r as [|c r].
      * now destruct (number_nonempty _ _ Hn).
      * exists c, r. split; auto. cbn [ascii_str forallb] in Ha. apply andb_true_iff in Ha.
        destruct Ha as [Ha _]. unfold is_ascii in Ha. now apply N.ltb_lt in Ha.
    + destruct H as (_ & b & fl & -> & _). eexists; eexists; (split; [reflexivity|reflexivity]).
    + eexists; eexists; (split; [reflexivity|reflexivity]).
Qed.

(** The first character of a token that is not a punctuator. *)
Lemma first_char v : plain v -> (forall p, v <> VPunct p) ->
  (exists s, v = VLiteral (TLRegexp s)) \/
  exists c s, spell v = c :: s /\ (word_char c = true \/ In c [34; 39; 96; 46; 125]%N).
Proof.
  destruct v as [k|x|p|l|s|s|s]; cbn [spell plain]; intros H Hp;
    try solve [right; eexists; eexists; (split; [reflexivity|right; cbv; tauto])].
  - right. destruct k; eexists; eexists; (split; [reflexivity|left; reflexivity]).
  - right. destruct H as (_ & Hw & c & x' & -> & _). exists c, x'. split; auto. cbn [forallb] in Hw.
    apply andb_true_iff in Hw. tauto.
  - now destruct (Hp p).
  - destruct l as [s q|r|s|s]; cbn [spell plain] in *; [right|right|left; eauto|right].
    + destruct H as ([->| ->] & _); eexists; eexists; (split; [reflexivity|right; cbv; tauto]).
    + destruct H as (Ha & after & Hn).
      inversion Hn as [p P s1 a1 Hp' Hne Hs HnP E1 E2|i fr e a1 Hi Hf He Hst' Hz Hd Hdot E1 E2]; subst.
      * destruct Hp'; eexists; eexists; (split; [reflexivity|left; reflexivity]).
      * destruct Hst' as [(c & t & -> & Hc)|(-> & s & -> & _)].
        -- eexists; eexists. split; [reflexivity|]. left. apply digit_iff in Hc.
           change (is_digit c) with (in_range 48 57 c) in Hc. unfold word_char, ascii_alnum. now rewrite Hc.
        -- eexists; eexists. split; [reflexivity|]. right. cbv. tauto.
    + eexists; eexists; (split; [reflexivity|right; cbv; tauto]).
Qed.

Lemma no_comment v after : plain v -> ok_after v after -> ~ starts_comment (spell v ++ after).
Proof.
  intros Hp Ha Hc.
  assert (X : exists a b w, spell v ++ after = a :: b :: w /\ (a = 47%N /\ (b = 47%N \/ b = 42%N) \/ a = 60%N /\ b = 33%N)).
  { destruct Hc as [(w & E)|[(w & E)|(w & E)]]; rewrite E; cbn; eexists; eexists; eexists; (split; [reflexivity|tauto]). }
  destruct X as (a & b & w & E & X).
  assert (Hv : (exists p, v = VPunct p) \/ forall p, v <> VPunct p).
  { destruct v as [k|x|p|l|s|s|s]; eauto; right; intros q; discriminate. }
  destruct Hv as [(p & ->)|Hv].
  - cbn [spell] in E.
    destruct Ha as [->|(d & r & -> & Hd & H)].
    + rewrite app_nil_r in E. destruct p; vm_compute in E; try discriminate E; injection E as <- <- <-;
        vm_compute in X; intuition discriminate.
    + destruct p; vm_compute in E; try discriminate E; injection E as <- <- <-; try (vm_compute in X; intuition discriminate);
        destruct X as [[X [Y|Y]]|[X Y]]; try discriminate X; subst d; vm_compute in H; discriminate H.
  - destruct (first_char v Hp Hv) as [(s & ->)|(c & s & Es & Hcc)].
    { destruct Hp as (_ & r & fl & -> & Hr & Hne & Hst & _). cbn [spell] in E.
      destruct Hr as [|y r _ Hy _ _ _|y r _ _|k r _ _]; [congruence|..]; vm_compute in E; injection E as <- <- _;
        destruct X as [[_ [X|X]]|[X _]]; try discriminate X; [now apply Hy|now apply Hst]. }
    rewrite Es in E. injection E as <- _.
    destruct X as [[-> _]|[-> _]]; destruct Hcc as [Hcc|Hcc]; vm_compute in Hcc; intuition discriminate.
Qed.

Lemma no_close after : ok_after (VPunct PDoubleMinus) after -> ~ prefix (chars ">") after.
Proof.
  intros [->|(c & r & -> & _ & H)] (w & E); [discriminate|]. injection E as -> _. vm_compute in H. discriminate.
Qed.

(** ** Characters that may follow any token *)

Lemma before_blank v c : c = 32%N \/ c = 10%N -> before v c = true.
Proof.
  intros Hc. destruct v as [k|x|p|l|s|s|s]; cbn [before]; auto.
  - destruct Hc as [->| ->]; reflexivity.
  - destruct Hc as [->| ->]; reflexivity.
  - destruct p; destruct Hc as [->| ->]; vm_compute; reflexivity.
  - destruct l; auto; destruct Hc as [->| ->]; reflexivity.
Qed.

Lemma before_close v c : c = ch "}" \/ c = ch ";" -> before v c = true.
Proof.
  intros Hc. destruct v as [k|x|p|l|s|s|s]; cbn [before]; auto.
  - destruct Hc as [->| ->]; reflexivity.
  - destruct Hc as [->| ->]; reflexivity.
  - destruct p; destruct Hc as [->| ->]; vm_compute; reflexivity.
  - destruct l; auto; destruct Hc as [->| ->]; reflexivity.
Qed.

(** ** The last character of a token *)

Lemma last_app {A} (l : list A) x d : last (l ++ [x]) d = x.
Proof. apply last_last. Qed.

Definition last_ok (c : N) : Prop := c <> 10%N /\ c <> 59%N /\ c <> 32%N.

Lemma word_char_last_ok c : word_char c = true -> last_ok c.
Proof. intros H. repeat split; intros ->; discriminate. Qed.

Lemma digits_last (Q : N -> Prop) (s : str) : (forall c, Q c -> word_char c = true) -> digits_sep Q s -> forall c, In c s -> word_char c = true.
Proof. intros HP (H & _) c Hc. apply H in Hc. destruct Hc as [Hc| ->]; auto. Qed.

Lemma digit_word c : digit c -> word_char c = true.
Proof. intros H. apply digit_iff in H. change (is_digit c) with (in_range 48 57 c) in H. unfold word_char, ascii_alnum. now rewrite H. Qed.

Lemma number_chars r after : number r after -> forall c, In c r -> word_char c = true \/ c = 46%N \/ c = 43%N \/ c = 45%N.
Proof.
  intros Hn. inversion Hn as [p P s1 a1 Hp Hne Hs HnP E1 E2|i fr e a1 Hi Hf He Hst' Hz Hd Hdot E1 E2]; subst.
  - intros c Hc. left. apply in_app_or in Hc. destruct Hc as [Hc|Hc].
    + destruct Hp as [x Hx|x Hx|x Hx]; simpl in Hx; destruct Hc as [<-|[<-|[]]];
        repeat (destruct Hx as [<-|Hx]; [reflexivity|]); try destruct Hx; reflexivity.
    + revert c Hc. apply (digits_last P); auto.
      destruct Hp; intros c Hc; unfold hex_digit, octal_digit, binary_digit in Hc; simpl in Hc;
        repeat (destruct Hc as [<-|Hc]; [reflexivity|]); destruct Hc.
  - intros c Hc. apply in_app_or in Hc. destruct Hc as [Hc|Hc].
    + left. revert c Hc. apply (digits_last digit); auto using digit_word.
    + apply in_app_or in Hc. destruct Hc as [Hc|Hc].
      * destruct Hf as [|s Hs]; [destruct Hc|]. cbn in Hc. destruct Hc as [<-|Hc]; [tauto|].
        left. revert c Hc. apply (digits_last digit); auto using digit_word.
      * destruct He as [|x sg s Hx Hsg _ Hs]; [destruct Hc|]. cbn [app] in Hc. destruct Hc as [<-|Hc].
        -- left. simpl in Hx. repeat (destruct Hx as [<-|Hx]; [reflexivity|]). destruct Hx.
        -- apply in_app_or in Hc. destruct Hc as [Hc|Hc].
           ++ simpl in Hsg. destruct Hsg as [<-|[<-|[<-|[]]]]; cbn in Hc; intuition auto.
           ++ left. revert c Hc. apply (digits_last digit); auto using digit_word.
Qed.

Lemma last_In {A} (l : list A) d : l <> [] -> In (last l d) l.
Proof.
  intros H. destruct l as [|x l _] using rev_ind; [congruence|]. rewrite last_last. apply in_or_app. simpl; auto.
Qed.

Lemma plain_last v : plain v -> v <> VPunct PSemiColon -> last_ok (last (spell v) 0%N).
Proof.
  intros H Hs. pose proof (plain_cons v H) as (c0 & s0 & E0 & _).
  destruct v as [k|x|p|l|s|s|s]; cbn [spell plain] in *;
    try solve [rewrite app_assoc; change (chars "${") with ([36%N] ++ [123%N]); rewrite app_assoc, last_last;
               cbv; repeat split; discriminate];
    try solve [rewrite app_assoc; change (chars "`") with [96%N]; rewrite last_last; cbv; repeat split; discriminate].
  - destruct k; cbv; repeat split; discriminate.
  - destruct H as (_ & Hw & c & x' & -> & _). apply word_char_last_ok. rewrite forallb_forall in Hw. apply Hw.
    apply last_In. discriminate.
  - destruct p; try (cbv; repeat split; discriminate). congruence.
  - destruct l as [s q|r|s|s]; cbn [spell plain] in *; try contradiction.
    + destruct H as (Hq & _). rewrite app_assoc, last_last. destruct Hq as [->| ->]; cbv; repeat split; discriminate.
    + destruct H as (Ha & after & Hn). assert (Hl : In (last r 0%N) r) by (apply last_In; congruence).
      apply (number_chars _ _ Hn) in Hl. destruct Hl as [Hl|[->|[->| ->]]]; [now apply word_char_last_ok|..];
        cbv; repeat split; discriminate.
    + destruct H as (_ & b & fl & -> & _ & _ & _ & Hf). rewrite !app_assoc. destruct fl as [|c fl _] using rev_ind.
      * rewrite app_nil_r. change (chars "/") with [47%N]. rewrite last_last. cbv; repeat split; discriminate.
      * rewrite app_assoc, last_last. apply word_char_last_ok. rewrite forallb_forall in Hf. apply Hf.
        apply in_or_app. right. now left.
    + rewrite app_assoc. change (chars "`") with [96%N]. rewrite last_last. cbv; repeat split; discriminate.
Qed.

Lemma plain_ascii v : plain v -> ascii_str (spell v) = true.
Proof.
  destruct v as [k|x|p|l|s|s|s]; cbn [spell plain]; intros H;
    try (destruct H as (Ha & _); rewrite !ascii_str_app, Ha; reflexivity).
  - destruct k; reflexivity.
  - destruct H as (_ & Hw & _). unfold ascii_str. rewrite forallb_forall in Hw |- *. intros c Hc. apply Hw in Hc.
    unfold is_ascii. apply N.ltb_lt. unfold word_char, ascii_alnum, in_range in Hc.
    repeat rewrite orb_true_iff in Hc. repeat rewrite andb_true_iff in Hc.
    repeat rewrite N.leb_le in Hc. repeat rewrite N.eqb_eq in Hc. lia.
  - destruct p; reflexivity.
  - destruct l as [s q|r|s|s]; cbn [spell plain] in *; try contradiction.
    + destruct H as (Hq & Ha & _). rewrite !ascii_str_app, Ha. destruct Hq as [->| ->]; reflexivity.
    + tauto.
    + tauto.
    + destruct H as (Ha & _). rewrite !ascii_str_app, Ha. reflexivity.
Qed.

End PL.
