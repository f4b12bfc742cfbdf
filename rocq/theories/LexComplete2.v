(** * LexComplete2: words and numbers are read as the lexical grammar says. *)

From Verif Require Import Base Tokens PeekReader CharReader Lexer LexSpec LexChars LexerFacts
  LexSound LexSound2 LexSound3 LexComplete.
Local Open Scope string_scope.
Local Open Scope list_scope.

Ltac ex1 :=
  first
  [ rewrite bind_bind | rewrite bind_ret | rewrite bind_consume | rewrite bind_consume_unwrap
  | rewrite bind_current | rewrite bind_current_ok | rewrite bind_peek_ok | rewrite bind_position
  | rewrite bind_set_fol | rewrite bind_get_fol | rewrite bind_get_state ];
  cbv beta.
Ltac ex := repeat ex1.
Ltac lxl := unfold lx_rest, LexerFacts.LX; simpl; rewrite ?app_length; simpl; lia.

Section Forward.
Context {PF : Platform}.
Variable D : str.
Variable st : lexer_state.
Notation LX := (LX D st).

(** ** Words *)

Lemma id_part_ascii c : id_part_char c -> (c < 128)%N ->
  (is_digit c || is_letter c || N.eqb c (ch "_") || N.eqb c (ch "$"))%bool = true.
Proof.
  intros [H|[H|[H|[H|[H|[H|H]]]]]] Hc.
  - apply letter_iff in H. rewrite H. rewrite orb_true_r. reflexivity.
  - apply digit_iff in H. rewrite H. reflexivity.
  - subst. reflexivity.
  - subst. reflexivity.
  - lia.
  - lia.
  - apply id_continue_ascii in H; auto. unfold is_digit, is_letter. eval_ch.
    destruct (in_range 48 57 c), (in_range 65 90 c), (N.eqb c 95), (in_range 97 122 c); simpl in *;
      auto; discriminate.
Qed.

Lemma backslash_not_part : is_part_of_identifier (ch "\") = false.
Proof.
  destruct (is_part_of_identifier (ch "\")) eqn:E; auto. apply id_part_iff in E.
  apply id_part_ascii in E; [discriminate|reflexivity].
Qed.

Lemma read_hex_char_fwd ss c r pre f :
  hex_digit c -> read_hex_char ss (LX pre (c :: r) f) = (Ok c, LX (pre ++ [c]) r f).
Proof. intros H. unfold read_hex_char. ex. apply hex_digit_iff in H. rewrite H. reflexivity. Qed.

Lemma hex_not_close c : hex_digit c -> N.eqb c (ch "}") = false.
Proof. intros H. apply N.eqb_neq. intros ->. revert H. unfold hex_digit. simpl. intuition discriminate. Qed.

Lemma read_code_point_fwd ss h after pre f :
  h <> [] -> (forall c, In c h -> hex_digit c) -> scalar_value (hex_num 0 h) ->
  read_code_point ss (LX pre (ch "{" :: h ++ [ch "}"] ++ after) f) =
    (Ok (hex_num 0 h), LX (pre ++ [ch "{"] ++ h ++ [ch "}"]) after f).
Proof.
  intros Hne Hh Hs. unfold read_code_point. ex. rewrite N.eqb_refl, bind_debug_assert.
  erewrite bind_ok.
  2:{ apply loop_runs_eq.
      assert (G : forall acc p, loop_runs (fun acc : str =>
    let! h := read_hex_char ss in
    let! c := current in
    if N.eqb c (ch "}") then consume;; ret (inr (acc ++ [h])) else ret (inl (acc ++ [h])))%lm acc
      (LX p (h ++ [ch "}"] ++ after) f) (acc ++ h) (LX (p ++ h ++ [ch "}"]) after f)).
      { clear Hs. induction h as [|c h IH]; intros acc p; [congruence|].
        destruct h as [|c2 h].
        - apply lr_done. simpl app. erewrite bind_ok by (apply read_hex_char_fwd; apply Hh; left; auto).
          ex. eval_ch. eval_eqb. ex. norm. reflexivity.
        - eapply lr_next with (s1 := acc ++ [c]) (L1 := LX (p ++ [c]) ((c2 :: h) ++ [ch "}"] ++ after) f).
          + simpl app. erewrite bind_ok by (apply read_hex_char_fwd; apply Hh; left; auto).
            ex. rewrite hex_not_close by (apply Hh; right; left; auto). reflexivity.
          + lxl.
          + replace (acc ++ c :: c2 :: h) with ((acc ++ [c]) ++ c2 :: h) by (norm; reflexivity).
            replace (p ++ (c :: c2 :: h) ++ [ch "}"]) with ((p ++ [c]) ++ (c2 :: h) ++ [ch "}"])
              by (norm; reflexivity).
            apply IH; [discriminate|]. intros; apply Hh; right; auto. }
      apply (G [] (pre ++ [ch "{"])). }
  change ([] ++ h) with h. rewrite hex_number_eq by auto.
  replace (N.leb (hex_num 0 h) 1114111) with true.
  - norm. reflexivity.
  - symmetry. apply N.leb_le. destruct Hs; lia.
Qed.

Lemma read_unicode_escape_fwd e c after pre f :
  unicode_escape e c ->
  read_unicode_escape_sequence (LX pre (e ++ after) f) = (Ok c, LX (pre ++ e) after f).
Proof.
  intros He. unfold read_unicode_escape_sequence.
  destruct He as [h Hl Hh Hs|h Hne Hh Hs].
  - simpl chars. simpl app. ex. change (92 =? ch "\")%N with true. rewrite bind_debug_assert. ex.
    change (117 =? ch "u")%N with true. cbn [negb].
    destruct h as [|a [|b [|c [|d [|? ?]]]]]; try discriminate Hl. simpl app. ex.
    replace (N.eqb a (ch "{")) with false.
    2:{ symmetry. apply N.eqb_neq. intros ->. specialize (Hh _ (or_introl eq_refl)).
        revert Hh. unfold hex_digit. simpl. intuition discriminate. }
    unfold read_4digit_hex.
    rewrite ?bind_bind. erewrite bind_ok by (apply read_hex_char_fwd; apply Hh; simpl; auto).
    rewrite ?bind_bind. erewrite bind_ok by (apply read_hex_char_fwd; apply Hh; simpl; auto).
    rewrite ?bind_bind. erewrite bind_ok by (apply read_hex_char_fwd; apply Hh; simpl; auto).
    rewrite ?bind_bind. erewrite bind_ok by (apply read_hex_char_fwd; apply Hh; simpl; auto).
    ex. rewrite hex_number_eq by auto. apply scalar_value_iff in Hs. rewrite Hs. norm. reflexivity.
  - replace ((chars "\u{" ++ h ++ chars "}") ++ after)
      with (92%N :: 117%N :: ch "{" :: h ++ [ch "}"] ++ after) by (simpl chars; norm; reflexivity).
    ex. change (92 =? ch "\")%N with true. rewrite bind_debug_assert. ex.
    change (117 =? ch "u")%N with true. cbn [negb]. ex. rewrite N.eqb_refl.
    erewrite bind_ok by (apply read_code_point_fwd; auto).
    apply scalar_value_iff in Hs. rewrite Hs. simpl chars. norm. reflexivity.
Qed.

Lemma read_and_expand_fwd (b : bool) e c after pre f :
  unicode_escape e c -> (if b then id_start_char c else id_part_char c) ->
  read_and_expand_unicode_escape_sequence b (LX pre (e ++ after) f) = (Ok c, LX (pre ++ e) after f).
Proof.
  intros He Hc. unfold read_and_expand_unicode_escape_sequence. ex.
  erewrite bind_ok by (apply read_unicode_escape_fwd; eauto).
  replace (if b then is_start_of_identifier c else is_part_of_identifier c) with true; [reflexivity|].
  symmetry. destruct b; [now apply id_start_iff|now apply id_part_iff].
Qed.

Definition word_step : str -> lm (str + str) := fun word =>
  (let! o := current_ok in
    match o with
    | Some c =>
      if is_part_of_identifier c then let! c' := consume in ret (inl (word ++ [c']))
      else if N.eqb c (ch "\") then
        let! c' := read_and_expand_unicode_escape_sequence (is_empty word) in
        ret (inl (word ++ [c']))
      else ret (inr word)
    | None => ret (inr word)
    end)%lm.

Lemma word_step_char w c r p f :
  id_part_char c -> word_step w (LX p (c :: r) f) = (Ok (inl (w ++ [c])), LX (p ++ [c]) r f).
Proof. intros H. unfold word_step. ex. apply id_part_iff in H. rewrite H. ex. reflexivity. Qed.

Lemma word_step_escape w e c r p f :
  unicode_escape e c -> (if is_empty w then id_start_char c else id_part_char c) ->
  word_step w (LX p (e ++ r) f) = (Ok (inl (w ++ [c])), LX (p ++ e) r f).
Proof.
  intros He Hc. unfold word_step. ex.
  assert (E : exists e', e = ch "\" :: e') by (destruct He; eexists; reflexivity).
  destruct E as (e' & Ee). replace (match e ++ r with [] => None | c0 :: _ => Some c0 end)
    with (Some (ch "\")) by (rewrite Ee; reflexivity).
  rewrite backslash_not_part, N.eqb_refl.
  erewrite bind_ok by (apply read_and_expand_fwd; eauto). reflexivity.
Qed.

Lemma word_tail_fwd s v after f :
  word_tail s v -> ~ starts id_part_char after -> ~ prefix (chars "\") after ->
  forall acc p, acc <> [] ->
  loop_runs word_step acc (LX p (s ++ after) f) (acc ++ v) (LX (p ++ s) after f).
Proof.
  intros Hs Ha Hb. induction Hs as [|c w v Hc Hw IH|e c w v He Hc Hw IH]; intros acc p Hacc.
  - rewrite !app_nil_r. apply lr_done. simpl app. unfold word_step. ex.
    destruct after as [|x after]; [reflexivity|].
    destruct (is_part_of_identifier x) eqn:E1.
    { exfalso. apply Ha. exists x, after. split; auto. now apply id_part_iff. }
    destruct (N.eqb_spec x (ch "\")); [|reflexivity].
    exfalso. apply Hb. exists after. subst. reflexivity.
  - eapply lr_next; [simpl app; now apply word_step_char|lxl|].
    specialize (IH (acc ++ [c]) (p ++ [c])). rewrite <- !app_assoc in IH. apply IH.
    destruct acc; discriminate.
  - eapply lr_next; [rewrite <- app_assoc; apply word_step_escape; eauto| |].
    + destruct acc; [congruence|exact Hc].
    + apply unicode_escape_nonempty in He. destruct e; [congruence|]. lxl.
    + specialize (IH (acc ++ [c]) (p ++ e)). rewrite <- !app_assoc in IH.
      apply IH. destruct acc; discriminate.
Qed.

Lemma read_word_fwd s v after pre f :
  word s v -> ~ starts id_part_char after -> ~ prefix (chars "\") after ->
  read_identifier_or_keyword_expand_unicode (LX pre (s ++ after) f) = (Ok v, LX (pre ++ s) after f).
Proof.
  intros Hs Ha Hb. unfold read_identifier_or_keyword_expand_unicode. fold word_step.
  apply loop_runs_eq. destruct Hs as [c w v Hc Hw|e c w v He Hc Hw].
  - eapply lr_next; [simpl app; apply word_step_char; now apply id_start_part|lxl|].
    pose proof (word_tail_fwd w v after f Hw Ha Hb [c] (pre ++ [c])) as H.
    rewrite <- !app_assoc in H. apply H. discriminate.
  - eapply lr_next; [rewrite <- app_assoc; apply word_step_escape; eauto| |].
    + apply unicode_escape_nonempty in He. destruct e; [congruence|]. lxl.
    + pose proof (word_tail_fwd w v after f Hw Ha Hb [c] (pre ++ e)) as H.
      rewrite <- !app_assoc in H. apply H. discriminate.
Qed.

Lemma keyword_str_inj k k' : keyword_str k = keyword_str k' -> k = k'.
Proof.
  intros H. assert (E : find (fun x => str_eqb (keyword_str x) (keyword_str k)) all_keywords
                      = find (fun x => str_eqb (keyword_str x) (keyword_str k')) all_keywords)
    by (rewrite H; reflexivity).
  assert (F : forall k, find (fun x => str_eqb (keyword_str x) (keyword_str k)) all_keywords = Some k)
    by (intros []; reflexivity).
  rewrite !F in E. congruence.
Qed.

Lemma word_value_fun v tv1 tv2 : word_value v tv1 -> word_value v tv2 -> tv1 = tv2.
Proof.
  intros [(k & -> & ->)|(H & ->)] [(k' & E & ->)|(H' & ->)]; auto.
  - apply keyword_str_inj in E. congruence.
  - destruct (H' k). reflexivity.
  - destruct (H k'). assumption.
Qed.

Lemma read_identifier_fwd s v tv after pre f :
  word s v -> word_value v tv -> ~ starts id_part_char after -> ~ prefix (chars "\") after ->
  read_identifier_or_keyword (LX pre (s ++ after) f) = (Ok tv, LX (pre ++ s) after f).
Proof.
  intros Hs Hv Ha Hb. unfold read_identifier_or_keyword.
  erewrite bind_ok by (apply read_word_fwd; eauto). unfold ret.
  rewrite (word_value_fun _ _ _ Hv (keyword_from_str_spec v)). reflexivity.
Qed.

(** ** Numbers *)

Lemma digits_checks P s : digits_sep P s ->
  contains_double_underscore s = false /\ ends_with_underscore s = false.
Proof.
  intros (_ & H1 & H2). split.
  - destruct (contains_double_underscore s) eqn:E; auto.
    apply contains_double_underscore_spec in E. contradiction.
  - destruct (ends_with_underscore s) eqn:E; auto.
    apply ends_with_underscore_spec in E. destruct E as (s' & E). destruct (H2 _ E).
Qed.

Lemma read_number_string_fwd ss check P s after pre f :
  (forall c, check c = true <-> P c) -> digits_sep P s ->
  ~ starts P after -> ~ prefix (chars "_") after ->
  read_number_string ss check (LX pre (s ++ after) f) = (Ok s, LX (pre ++ s) after f).
Proof.
  intros HP Hs Ha Hb. unfold read_number_string.
  erewrite bind_ok.
  2:{ apply read_while_fwd.
      - intros c Hc. destruct Hs as [Hs _]. apply Hs in Hc. rewrite orb_true_iff, HP, N.eqb_eq. exact Hc.
      - intros (c & r & -> & Hc). apply orb_true_iff in Hc. destruct Hc as [Hc|Hc].
        + apply Ha. exists c, r. split; auto. now apply HP.
        + apply N.eqb_eq in Hc. subst. apply Hb. exists r. reflexivity. }
  apply digits_checks in Hs. destruct Hs as [-> ->]. reflexivity.
Qed.

Lemma expect_read_number_string_fwd ss check P s after pre f :
  (forall c, check c = true <-> P c) -> digits_sep P s -> s <> [] ->
  ~ starts P after -> ~ prefix (chars "_") after ->
  expect_read_number_string ss check (LX pre (s ++ after) f) = (Ok s, LX (pre ++ s) after f).
Proof.
  intros. unfold expect_read_number_string.
  erewrite bind_ok by (eapply read_number_string_fwd; eauto).
  destruct s; [congruence|]. reflexivity.
Qed.

Lemma id_start_underscore after : ~ starts id_start_char after -> ~ prefix (chars "_") after.
Proof. intros H (x & ->). apply H. exists 95%N, x. split; auto. right. left. reflexivity. Qed.

Lemma id_start_letter c after : ~ starts id_start_char after -> letter c -> ~ prefix [c] after.
Proof. intros H Hc (x & ->). apply H. exists c, x. split; auto. left. exact Hc. Qed.

Lemma not_prefix_opt c (r : str) : ~ prefix [c] r ->
  opt_is c match r with x :: _ => Some x | [] => None end = false.
Proof.
  intros H. destruct r as [|x r]; auto. simpl. apply N.eqb_neq. intros <-. apply H. exists r. reflexivity.
Qed.

Lemma digits_head_digit i c r : digits_sep digit i -> i = c :: r -> c <> ch "_" -> digit c.
Proof. intros [H _] -> Hc. destruct (H c (or_introl eq_refl)); [auto|contradiction]. Qed.

Lemma read_decimal_fwd i fr e after pre f :
  digits_sep digit i -> fraction fr -> exponent e -> ~ starts digit after ->
  ~ starts id_start_char after -> (fr = [] -> e = [] -> ~ prefix (chars ".") after) ->
  read_decimal_string (LX pre (i ++ fr ++ e ++ after) f) =
    (Ok (i ++ fr ++ e), LX (pre ++ i ++ fr ++ e) after f).
Proof.
  intros Hi Hf He Hd Ha Hdot. unfold read_decimal_string. ex.
  assert (Hend : forall x r, e ++ after = x :: r -> x <> ch "_" /\ ~ digit x).
  { intros x r E. destruct He as [|e0 sg es He0 Hsg Hes Hds].
    - simpl in E. subst after. split.
      + intros ->. apply (id_start_underscore _ Ha). exists r. reflexivity.
      + intros Hx. apply Hd. exists x, r. auto.
    - simpl in E. injection E as -> _. split; [|now apply not_digit_e].
      intros ->. simpl in He0. intuition discriminate. }
  erewrite bind_ok.
  2:{ apply (read_number_string_fwd _ is_digit digit i); [apply digit_iff|exact Hi| |].
      - intros (x & y & E & Hx). destruct Hf as [|fs Hfs].
        + apply (Hend x y E). exact Hx.
        + simpl in E. injection E as <- _. exact (not_digit_dot Hx).
      - intros (x & E). destruct Hf as [|fs Hfs].
        + destruct (Hend 95%N x E) as [H _]. now apply H.
        + simpl in E. discriminate. }
  ex.
  assert (HF : (if opt_is (ch ".") match fr ++ e ++ after with [] => None | c :: _ => Some c end
     then (let! dot := consume in
       let! fractional_part := read_number_string (rpos pre) is_digit in
       ret (i ++ [dot] ++ fractional_part))%lm
     else ret i) (LX (pre ++ i) (fr ++ e ++ after) f) = (Ok (i ++ fr), LX (pre ++ i ++ fr) (e ++ after) f)).
  { destruct Hf as [|fs Hfs].
    - simpl app. rewrite not_prefix_opt; [rewrite !app_nil_r; reflexivity|].
      intros (x & E). destruct He as [|e0 sg es He0 Hsg Hes Hds].
      + apply (Hdot eq_refl eq_refl). exists x. exact E.
      + simpl in E. injection E as -> _. simpl in He0. intuition discriminate.
    - change ((chars "." ++ fs) ++ e ++ after) with (ch "." :: fs ++ e ++ after).
      cbn [opt_is]. rewrite N.eqb_refl. ex. simpl chars.
      erewrite bind_ok.
      2:{ apply (read_number_string_fwd _ is_digit digit fs); [apply digit_iff|exact Hfs| |].
          - intros (x & y & E & Hx). now apply (Hend x y E).
          - intros (x & E). destruct (Hend 95%N x E) as [H _]. now apply H. }
      norm. reflexivity. }
  erewrite bind_ok by exact HF. ex.
  destruct He as [|e0 sg es He0 Hsg Hes Hds].
  - simpl app. rewrite (not_prefix_opt (ch "e")), (not_prefix_opt (ch "E")).
    + rewrite !app_nil_r. reflexivity.
    + apply id_start_letter; auto. unfold letter; simpl; tauto.
    + apply id_start_letter; auto. unfold letter; simpl; tauto.
  - simpl app.
    replace (_ || _)%bool with true by (simpl in He0; destruct He0 as [<-|[<-|[]]]; reflexivity).
    ex. rewrite <- !app_assoc.
    assert (HS : (if (opt_is (ch "-") match sg ++ es ++ after with [] => None | c :: _ => Some c end
        || opt_is (ch "+") match sg ++ es ++ after with [] => None | c :: _ => Some c end)%bool
        then (let! s := consume in ret [s])%lm else ret [])
        (LX (pre ++ i ++ fr ++ [e0]) (sg ++ es ++ after) f) =
        (Ok sg, LX (pre ++ i ++ fr ++ [e0] ++ sg) (es ++ after) f)).
    { simpl in Hsg. destruct Hsg as [<-|[<-|[<-|[]]]].
      - simpl app. destruct es as [|x es]; [congruence|]. simpl app. cbn [opt_is].
        replace (_ || _)%bool with false; [norm; reflexivity|]. symmetry. apply orb_false_iff.
        destruct Hds as [Hds _]. specialize (Hds x (or_introl eq_refl)).
        unfold digit in Hds. simpl in Hds.
        split; apply N.eqb_neq; intros Hx; subst x; intuition discriminate.
      - simpl app. cbn [opt_is]. simpl. ex. norm. reflexivity.
      - simpl app. cbn [opt_is]. simpl. ex. norm. reflexivity. }
    erewrite bind_ok by exact HS.
    erewrite bind_ok.
    2:{ apply (expect_read_number_string_fwd _ is_digit digit es); auto; [apply digit_iff|].
        now apply id_start_underscore. }
    norm. reflexivity.
Qed.

Lemma read_number_fwd s after pre f :
  number s after -> ~ starts id_start_char after ->
  read_number_literal (LX pre (s ++ after) f) = (Ok (VLiteral (TLNumber s)), LX (pre ++ s) after f).
Proof.
  intros Hs Ha. unfold read_number_literal.
  assert (Hfin : forall L, (L = LX (pre ++ s) after f) ->
    (bind current_ok (fun o => if (match o with Some c => is_start_of_identifier c | None => false end) then
    let! pos := position in
    lfail_ (lex_syntax_error "Number cannot be followed by identifier without separation" pos pos)
     else ret (VLiteral (TLNumber s))))%lm L = (Ok (VLiteral (TLNumber s)), LX (pre ++ s) after f)).
  { intros L ->. ex. destruct after as [|x after]; [reflexivity|].
    destruct (is_start_of_identifier x) eqn:E; [|reflexivity].
    exfalso. apply Ha. exists x, after. split; auto. now apply id_start_iff. }
  destruct Hs as [p P s after Hp Hne Hs HnP|i fr e after Hi Hf He Hst Hz Hd Hdot].
  - assert (Hgo : forall check, (forall c, check c = true <-> P c) ->
      read_prefixed_string check (LX pre ((p ++ s) ++ after) f) = (Ok (p ++ s), LX (pre ++ p ++ s) after f)).
    { intros check HP. unfold read_prefixed_string.
      assert (Hp2 : exists a b, p = [a; b]) by (destruct Hp; eauto).
      destruct Hp2 as (a & b & ->). simpl app. ex.
      erewrite bind_ok by (eapply expect_read_number_string_fwd; eauto using id_start_underscore).
      norm. reflexivity. }
    destruct Hp as [x Hx|x Hx|x Hx].
    + simpl app. ex.
      replace ((opt_is (ch "x") (Some x) || opt_is (ch "X") (Some x)) && (48 =? ch "0")%N)%bool
        with true by (simpl in Hx; destruct Hx as [<-|[<-|[]]]; reflexivity).
      erewrite bind_ok by (apply (Hgo is_hex_digit), hex_digit_iff). apply Hfin. reflexivity.
    + simpl app. ex.
      replace ((opt_is (ch "x") (Some x) || opt_is (ch "X") (Some x)) && (48 =? ch "0")%N)%bool
        with false by (simpl in Hx; destruct Hx as [<-|[<-|[]]]; reflexivity).
      replace ((opt_is (ch "o") (Some x) || opt_is (ch "O") (Some x)) && (48 =? ch "0")%N)%bool
        with true by (simpl in Hx; destruct Hx as [<-|[<-|[]]]; reflexivity).
      erewrite bind_ok by (apply (Hgo is_octal_digit), octal_digit_iff). apply Hfin. reflexivity.
    + simpl app. ex.
      replace ((opt_is (ch "x") (Some x) || opt_is (ch "X") (Some x)) && (48 =? ch "0")%N)%bool
        with false by (simpl in Hx; destruct Hx as [<-|[<-|[]]]; reflexivity).
      replace ((opt_is (ch "o") (Some x) || opt_is (ch "O") (Some x)) && (48 =? ch "0")%N)%bool
        with false by (simpl in Hx; destruct Hx as [<-|[<-|[]]]; reflexivity).
      replace ((opt_is (ch "b") (Some x) || opt_is (ch "B") (Some x)) && (48 =? ch "0")%N)%bool
        with true by (simpl in Hx; destruct Hx as [<-|[<-|[]]]; reflexivity).
      erewrite bind_ok by (apply (Hgo is_binary_digit), binary_digit_iff). apply Hfin. reflexivity.
  - set (r := (i ++ fr ++ e) ++ after) in *.
    assert (Hr : exists c r', r = c :: r').
    { unfold r. destruct Hst as [(c & i' & -> & _)|(-> & s' & -> & _)]; simpl; eauto. }
    destruct Hr as (c & r' & Er). rewrite Er. ex. rewrite <- Er.
    (* the first digit is not a lone 0 before x, o, b or a digit *)
    assert (Hp0 : c = ch "0" -> forall x, match c :: r' with _ :: y :: _ => Some y | _ => None end = Some x ->
       x = ch "_" \/ x = ch "." \/ x = ch "e" \/ x = ch "E" \/
       (~ id_start_char x /\ ~ digit x)).
    { intros -> x Ex. destruct r' as [|y r']; [discriminate|]. injection Ex as ->.
      unfold r in Er. destruct i as [|i0 i].
      { destruct Hst as [(? & ? & ? & _)|(_ & s' & -> & _)]; [discriminate|]. simpl in Er. discriminate. }
      simpl in Er. injection Er as -> Er. destruct i as [|i1 i].
      - simpl in Er. destruct Hf as [|fs Hfs].
        + destruct He as [|e0 sg es He0 Hsg Hes Hds].
          * simpl in Er. subst after. right. right. right. right. split; intros Hx.
            -- apply Ha. exists x, r'. auto.
            -- apply Hd. exists x, r'. auto.
          * simpl in Er. injection Er as -> _. simpl in He0. destruct He0 as [<-|[<-|[]]]; auto.
        + simpl in Er. inversion Er; subst. auto.
      - simpl in Er. injection Er as -> _. left. destruct Hi as [Hi _].
        destruct (Hi x) as [Hx|Hx]; [simpl; auto| |exact Hx].
        exfalso. apply (Hz (x :: i) eq_refl). exists x, i. auto. }
    assert (Hno : forall x, (letter x \/ digit x) -> x <> ch "e" -> x <> ch "E" ->
       (opt_is x match c :: r' with _ :: y :: _ => Some y | _ => None end && N.eqb c (ch "0"))%bool = false).
    { intros x Hx Hxe HxE. destruct (N.eqb_spec c (ch "0")) as [Hc|]; [|apply andb_false_r].
      rewrite andb_true_r. specialize (Hp0 Hc).
      destruct r' as [|y r']; auto. cbn [opt_is]. apply N.eqb_neq. intros <-.
      specialize (Hp0 x eq_refl).
      assert (Hu : x <> ch "_" /\ x <> ch ".").
      { unfold letter, digit in Hx. simpl in Hx. eval_ch. split; intros ->; intuition discriminate. }
      unfold id_start_char in Hp0. intuition. }
    assert (Hx1 : forall a b, letter a -> letter b -> a <> ch "e" -> a <> ch "E" -> b <> ch "e" -> b <> ch "E" ->
       ((opt_is a match c :: r' with _ :: y :: _ => Some y | _ => None end ||
         opt_is b match c :: r' with _ :: y :: _ => Some y | _ => None end) && N.eqb c (ch "0"))%bool = false).
    { intros. rewrite andb_orb_distrib_l, !Hno by auto. reflexivity. }
    rewrite (Hx1 (ch "x") (ch "X")) by (try (unfold letter; simpl; tauto); discriminate).
    rewrite (Hx1 (ch "o") (ch "O")) by (try (unfold letter; simpl; tauto); discriminate).
    rewrite (Hx1 (ch "b") (ch "B")) by (try (unfold letter; simpl; tauto); discriminate).
    replace (opt_digit match c :: r' with _ :: y :: _ => Some y | _ => None end && N.eqb c (ch "0"))%bool
      with false.
    2:{ symmetry. destruct (N.eqb_spec c (ch "0")) as [Hc|]; [|apply andb_false_r].
        rewrite andb_true_r. specialize (Hp0 Hc). destruct r' as [|y r']; auto. cbn [opt_digit].
        destruct (is_digit y) eqn:Ey; auto. specialize (Hp0 y eq_refl). apply digit_iff in Ey.
        exfalso. unfold digit in Ey, Hp0. simpl in Ey, Hp0. revert Hp0. eval_ch.
        intuition (subst; discriminate). }
    erewrite bind_ok.
    2:{ unfold r. rewrite <- !app_assoc. apply read_decimal_fwd; auto. }
    apply Hfin. norm. reflexivity.
Qed.

End Forward.
