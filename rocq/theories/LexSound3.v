(** * LexSound3: punctuators, the dispatch, [read] and [read_all]. *)

From Verif Require Import Base Tokens PeekReader CharReader Lexer LexSpec LexChars LexerFacts
  LexSound LexSound2.
Local Open Scope string_scope.
Local Open Scope list_scope.

Ltac eval_eqb :=
  repeat match goal with
  | |- context [N.eqb ?a ?b] =>
    let v := eval compute in (N.eqb a b) in
    match v with true => idtac | false => idtac end; change (N.eqb a b) with v
  end; cbn [andb orb negb].

(** Case on a test of the next character. *)
Ltac peek_case :=
  cbn [andb orb negb];
  match goal with
  | |- wpl _ _ (if (opt_is ?a ?o && negb (opt_digit ?p))%bool then _ else _) _ _ _ _ =>
      let H := fresh "P" in destruct (opt_is a o) eqn:H;
      [apply opt_is_cons in H; match type of H with context [match ?r with _ => _ end] =>
         destruct r; [discriminate H|]; injection H as H; subst end|]
  | |- wpl _ _ (if opt_is ?a ?o then _ else _) _ _ _ _ =>
      let H := fresh "P" in destruct (opt_is a o) eqn:H;
      [apply opt_is_cons in H; match type of H with context [match ?r with _ => _ end] =>
         destruct r; [discriminate H|]; injection H as H; subst end|]
  | |- wpl _ _ (if opt_digit ?p then _ else _) _ _ _ _ =>
      let H := fresh "P" in destruct (opt_digit p) eqn:H
  end.

Section Sound.
Context {PF : Platform}.
Variable D : str.
Variable st : lexer_state.
Notation WP m := (wpl D st m).

Ltac punct_leaf p :=
  exists (punct_str p); split; [discriminate|]; split; [reflexivity|];
  split; [norm; reflexivity|]; split; [reflexivity|];
  apply lexeme_punct;
  [ split;
    [ eexists; split; [reflexivity|]; intros [Hq1 (? & ? & ? & Hq2)]; try discriminate Hq1; subst
    | let q := fresh "q" in let E := fresh "E" in
      intros q (? & E & ?); destruct q; cbn in E |- *; try lia; exfalso; try discriminate E;
      injection E; intros; subst; cbn in *; try discriminate; auto ]
  | try (intros; discriminate); intros _
  | try (intros; split; discriminate); intros ].

Lemma opt_digit_starts (r : str) :
  opt_digit match r with c :: _ => Some c | [] => None end = false -> ~ starts digit r.
Proof.
  intros H (c & r' & -> & Hc). simpl in H. apply digit_iff in Hc. congruence.
Qed.

Lemma opt_digit_starts' (r : str) :
  opt_digit match r with c :: _ => Some c | [] => None end = true -> starts digit r.
Proof.
  destruct r as [|c r]; simpl; [discriminate|]. intros H. exists c, r. split; auto. now apply digit_iff.
Qed.

Lemma wp_read_value pre c rest f :
  WP (read_value (rpos pre) c) pre (c :: rest) f (produces st pre (c :: rest) f).
Proof.
  unfold read_value. unfold produce_peek, produce2, produce1. wp.
  repeat match goal with
  | |- context [N.eqb c (ch ?s)] =>
      let H := fresh "Hc" in destruct (N.eqb_spec c (ch s)) as [H|H];
      [ rewrite H in *; clear c H; eval_ch; eval_eqb |]
  end.
  all: repeat (wp || peek_case).
  all: try (match goal with |- produces _ _ _ _ (VPunct ?p) _ _ _ => solve [punct_leaf p] end).
  - destruct (regex_allowed st) eqn:Er.
    + now apply wp_read_regexp_literal.
    + peek_case; wp.
      * punct_leaf PSlashEqual. congruence.
      * punct_leaf PSlash. congruence.
  - cbn [andb]. destruct (opt_digit _) eqn:E; cbn [negb].
    + change (opt_is 63 (Some 46%N)) with false. wp. punct_leaf PQuestionMark.
      apply H. split; auto. now apply opt_digit_starts'.
    + wp. punct_leaf PQuestionMarkDot. cbn in E. apply digit_iff in Hq2. congruence.
  - eok2.
  - apply wp_read_number_literal. right. exists rest. split; auto. now apply opt_digit_starts'.
  - punct_leaf PDot. split; [now apply opt_digit_starts|]. intros (x & ->). discriminate.
  - apply wp_read_template_literal_head.
  - change (is_digit 92) with false. cbv iota. destruct (is_start_of_identifier 92);
      (apply wp_read_identifier_or_keyword; right; reflexivity).
  - cbn [andb orb]. destruct (is_digit c) eqn:Ed.
    { apply wp_read_number_literal. left. exists c, rest. split; auto. now apply digit_iff. }
    destruct (_ || _)%bool eqn:Es.
    { apply wp_read_string_literal. apply orb_true_iff in Es. rewrite !N.eqb_eq in Es. auto. }
    destruct (is_start_of_identifier c) eqn:Ei.
    { apply wp_read_identifier_or_keyword. left. now apply id_start_iff. }
    wp. clear; eok2.
Qed.

(** ** [read] *)

(** The outcome of [read]: a token, the end of the source, or an error. *)
Definition read_post (pre rest : str) (f : bool) (o : lres token * lexer) : Prop :=
  match o with
  | (Ok t, L') => exists pre' rest' f', L' = LX D st pre' rest' f' /\ pre' ++ rest' = pre ++ rest /\
      (if inside_template st then lexed_template (pre ++ rest) pre f t pre' f'
       else lexed (pre ++ rest) st pre f t pre' f')
  | (Err (LFail e), L') => exists pre' rest' f', L' = LX D st pre' rest' f' /\
      pre' ++ rest' = pre ++ rest /\
      (eok (pre ++ rest) e \/
       (e = end_of_stream /\ inside_template st = false /\ rest' = [] /\
        trivia (html_comment_allowed st) f rest [] f'))
  | (Err _, _) => False
  end.

Lemma read_fuel_template n pre rest f :
  inside_template st = true -> read_post pre rest f (read_fuel (S n) (LX D st pre rest f)).
Proof.
  intros Ht. cbn [read_fuel].
  unfold bind at 1. unfold get_state. cbn [lx_state LX]. rewrite Ht.
  pose proof (wp_read_template_middle_or_tail D st pre rest f) as H. unfold wpl in H.
  fold (LX D st pre rest f).
  unfold read_post. rewrite Ht.
  destruct (read_template_literal_middle_or_tail (LX D st pre rest f)) as [[t|[e| |]] L']; auto.
  - destruct H as (p & r & g & -> & E & s & -> & -> & -> & _ & Hs & Hf & Hsp).
    exists (pre ++ s), r, f. repeat split; auto. destruct t as [v b sp]; simpl in *; subst.
    econstructor; eauto.
  - destruct H as (p & r & g & -> & E & He). exists p, r, g. auto.
Qed.

Lemma read_fuel_normal n : forall pre w rest f f1,
  inside_template st = false -> length rest < n ->
  trivia (html_comment_allowed st) f w rest f1 ->
  read_post pre (w ++ rest) f (read_fuel n (LX D st (pre ++ w) rest f1)).
Proof.
  induction n as [|n IH]; intros pre w rest f f1 Ht Hn Hw; [lia|].
  cbn [read_fuel]. unfold bind at 1. unfold get_state. cbn [lx_state LX]. rewrite Ht.
  fold (LX D st (pre ++ w) rest f1).
  unfold bind at 1.
  pose proof (wp_skip_trivia D st (pre ++ w) rest f1) as H. unfold wpl in H.
  destruct (skip_comments_and_white_spaces (LX D st (pre ++ w) rest f1)) as [[[]|[e| |]] L']; auto.
  2:{ destruct H as (p & r & g & -> & E & He). rewrite <- app_assoc in *. exists p, r, g. auto. }
  destruct H as (p & r & g & -> & _ & w2 & -> & -> & Hw2 & Hg & Hc).
  assert (Hw3 := trivia_app _ _ _ _ _ _ _ Hw Hw2). clear Hw Hw2.
  unfold bind at 1. unfold is_end. unfold bind at 1. unfold current_ok. cbn [lx_rd LX].
  unfold cr_current. cbn [rd_rest]. destruct r as [|c r].
  - cbn. exists (pre ++ w ++ w2), [], g. rewrite !app_nil_r, <- app_assoc.
    repeat split; auto.
  - unfold ret. fold (LX D st ((pre ++ w) ++ w2) (c :: r) g).
    unfold bind at 1. unfold current, cr_current. cbn [lx_rd LX rd_rest].
    unfold bind at 1. unfold position. cbn [lx_rd LX rd_pos].
    fold (LX D st ((pre ++ w) ++ w2) (c :: r) g).
    unfold bind at 1.
    pose proof (wp_read_value ((pre ++ w) ++ w2) c r g) as H. unfold wpl in H.
    destruct (read_value _ c (LX D st ((pre ++ w) ++ w2) (c :: r) g)) as [[v|[e| |]] L']; auto.
    2:{ destruct H as (p & r' & g' & -> & E & He). rewrite <- !app_assoc in *. exists p, r', g'. auto. }
    destruct H as (p & r' & g' & -> & E & s & Hne & Es & -> & -> & Hs).
    unfold bind at 1. cbn [lx_rd LX rd_pos].
    unfold bind at 1. unfold get_fol. cbn [lx_fol LX].
    unfold bind at 1. cbn [lx_rd LX rd_rest].
    fold (LX D st (((pre ++ w) ++ w2) ++ s) r' g).
    assert (Hd : pre ++ w ++ w2 ++ c :: r = pre ++ (w ++ w2) ++ s ++ r').
    { rewrite Es. norm. reflexivity. }
    destruct (_ && _)%bool eqn:Eh.
    + apply andb_true_iff in Eh. destruct Eh as [Eh1 Eh2]. apply andb_true_iff in Eh1.
      destruct Eh1 as [-> Eh1]. destruct v; try discriminate. destruct p; try discriminate.
      apply opt_is_cons in Eh2. destruct r' as [|x r']; [discriminate|]. injection Eh2 as ->.
      assert (s = chars "--").
      { inv Hs; auto.
        - exfalso. destruct H0 as [(k & _ & ?)|(_ & ?)]; discriminate. }
      subst s. destruct (html_comment_allowed st) eqn:Eha; cbn [negb].
      * unfold bind at 1.
        pose proof (wp_skip_rest_of_line D st (((pre ++ w) ++ w2) ++ chars "--") (ch ">" :: r') true) as H.
        unfold wpl in H.
        destruct (skip_rest_of_line _) as [[[]|[e| |]] L']; auto.
        2:{ destruct H as (p & r1 & g1 & -> & E1 & He). exists p, r1, g1. split; [reflexivity|].
            rewrite E1. rewrite <- !app_assoc in *. rewrite Es. split; [reflexivity|]. left. exact He. }
        destruct H as (p & r1 & g1 & -> & E1 & body & Hb & -> & Hl).
        unfold bind at 1. unfold set_fol. cbn [set_fol_ lx_data lx_state lx_rd LX].
        fold (LX D st p r1 true).
        assert (Hbody : exists b, body = ch ">" :: b).
        { destruct Hl as [(x & Hx & Ex & _)|(Ex & _)].
          - destruct body as [|y body]; simpl in Ex; injection Ex; intros; subst; eauto.
            exfalso. unfold line_term in Hx. simpl in Hx. eval_ch. intuition discriminate.
          - subst. eauto. }
        destruct Hbody as (b & ->).
        assert (Hb' : no_line_term b) by (intros y Hy; apply Hb; right; auto).
        assert (Hpc : exists s, chars "-->" ++ r' = s ++ r1 /\ piece true true s r1 true /\
                   p = (pre ++ w ++ w2) ++ s).
        { destruct (line_piece true true (chars "-->") b r' r1) as (s & Es2 & Hs2);
            [constructor; auto|auto|
             destruct Hl as [(x & Hx & Ex & _)|(Ex & -> & _)];
               [left; exists x; split; auto; injection Ex; auto|right; split; auto; injection Ex; auto]|].
          exists s. repeat split; auto.
          destruct Hl as [(x & Hx & Ex & ->)|(Ex & -> & ->)].
          - injection Ex as ->. 
            assert (Es3 : (chars "-->" ++ b ++ [x]) ++ r1 = s ++ r1) by (rewrite <- Es2; norm; reflexivity).
            apply app_inv_tail in Es3. subst s. simpl chars. norm. reflexivity.
          - injection Ex as ->. rewrite app_nil_r in Es2. subst s. simpl chars. norm. reflexivity. }
        destruct Hpc as (s & Es2 & Hs2 & ->).
        assert (Hgoal : read_post pre (((w ++ w2) ++ s) ++ r1) f
                  (read_fuel n (LX D st (pre ++ (w ++ w2) ++ s) r1 true))).
        { apply IH; auto.
          - apply (f_equal (@length _)) in Es, Es2. pose proof (piece_nonempty _ _ _ _ _ Hs2).
            destruct s; [congruence|]. rewrite !app_length in *. simpl in *. lia.
          - eapply trivia_snoc; [|exact Hs2]. rewrite <- Es2. rewrite Es in Hw3. exact Hw3. }
        replace (w ++ w2 ++ c :: r) with (((w ++ w2) ++ s) ++ r1)
          by (rewrite <- !app_assoc, <- Es2, Es; reflexivity).
        replace ((pre ++ w ++ w2) ++ s) with (pre ++ (w ++ w2) ++ s)
          by (rewrite <- !app_assoc; reflexivity).
        exact Hgoal.
      * unfold bind at 1 || idtac. unfold lfail_.
        exists (((pre ++ w) ++ w2) ++ chars "--"), (ch ">" :: r'), true. split; [reflexivity|].
        rewrite Hd. split; [norm; reflexivity|]. left.
        simpl chars. eok2.
    + unfold bind at 1. unfold set_fol, ret. cbn [set_fol_ lx_data lx_state lx_rd LX].
      fold (LX D st (((pre ++ w) ++ w2) ++ s) r' false).
      exists (((pre ++ w) ++ w2) ++ s), r', false. split; [reflexivity|].
      split; [rewrite <- !app_assoc; rewrite Es; norm; reflexivity|]. rewrite Ht.
      replace (((pre ++ w) ++ w2) ++ s) with (pre ++ (w ++ w2) ++ s) by (norm; reflexivity).
      replace ((pre ++ w) ++ w2) with (pre ++ w ++ w2) by (norm; reflexivity).
      apply lexed_intro with (after := r'); auto.
      * rewrite <- Es. exact Hw3.
      * rewrite <- Es. exact Hc.
      * intros -> -> (x & ->). cbn in Eh. discriminate.
Qed.

Theorem read_spec pre rest f : read_post pre rest f (read (LX D st pre rest f)).
Proof.
  unfold read. change (lx_rest (LX D st pre rest f)) with rest.
  destruct (inside_template st) eqn:Ht.
  - now apply read_fuel_template.
  - pose proof (read_fuel_normal (S (length rest)) pre [] rest f f Ht) as H.
    rewrite app_nil_r in H. apply H; [lia|constructor].
Qed.

End Sound.
