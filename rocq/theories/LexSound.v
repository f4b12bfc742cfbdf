(** * LexSound: every lexer function satisfies its part of the lexical grammar. *)

From Verif Require Import Base Tokens PeekReader CharReader Lexer LexSpec LexChars LexerFacts.
Local Open Scope string_scope.
Local Open Scope list_scope.

(** ** Automation *)

Ltac pos_facts :=
  repeat rewrite ?rpos_snoc, ?blen_app in *; simpl blen in *; simpl length in *;
  repeat match goal with
  | |- context [rpos ?p] =>
      lazymatch goal with H : rpos p <= blen p |- _ => fail | _ => pose proof (rpos_le p) end
  | H : context [rpos ?p] |- _ =>
      lazymatch goal with H : rpos p <= blen p |- _ => fail | _ => pose proof (rpos_le p) end
  | |- context [len8 ?c] =>
      lazymatch goal with H : 1 <= len8 c |- _ => fail
      | _ => pose proof (len8_pos c); pose proof (len16_pos c); pose proof (len16_le_len8 c) end
  end; repeat rewrite ?blen_app in *; eval_ch; simpl blen in *; try lia.

Ltac eok_tac := split; [|split]; [simpl; pos_facts|simpl; pos_facts|try lex_kind].

Ltac wp1 :=
  match goal with
  | |- wpl ?D ?st (if true then ?m else _) ?p ?r ?f ?Q => change (wpl D st m p r f Q)
  | |- wpl ?D ?st (if false then _ else ?m) ?p ?r ?f ?Q => change (wpl D st m p r f Q)
  | |- wpl _ _ (bind _ _) _ _ _ _ => apply wpl_bind
  | |- wpl _ _ (ret _) _ _ _ _ => apply wpl_ret
  | |- wpl _ _ position _ _ _ _ => apply wpl_position
  | |- wpl _ _ current_ok _ _ _ _ => apply wpl_current_ok
  | |- wpl _ _ peek_ok _ _ _ _ => apply wpl_peek_ok
  | |- wpl _ _ current _ (_ :: _) _ _ => apply wpl_current_cons
  | |- wpl _ _ consume _ (_ :: _) _ _ => apply wpl_consume_cons
  | |- wpl _ _ consume_unwrap _ (_ :: _) _ _ => apply wpl_consume_unwrap
  | |- wpl _ _ current _ _ _ _ => apply wpl_current; intros ? ? ?
  | |- wpl _ _ consume _ _ _ _ => apply wpl_consume; intros ? ? ?
  | |- wpl _ _ (set_fol _) _ _ _ _ => apply wpl_set_fol
  | |- wpl _ _ get_state _ _ _ _ => apply wpl_get_state
  | |- wpl _ _ get_fol _ _ _ _ => apply wpl_get_fol
  | |- wpl _ _ (lfail_ _) _ _ _ _ => apply wpl_fail
  end.
Ltac wp := repeat wp1.
Ltac inv H := inversion H; subst; clear H.
Ltac norm := repeat rewrite <- ?app_assoc in *; simpl app in *.

Section Sound.
Context {PF : Platform}.
Variable D : str.
Variable st : lexer_state.
Notation WP m := (wpl D st m).

(** ** Trivia *)

Lemma trivia_snoc html f w s2 after f1 f2 :
  trivia html f w (s2 ++ after) f1 -> piece html f1 s2 after f2 ->
  trivia html f (w ++ s2) after f2.
Proof.
  intros H. remember (s2 ++ after) as a eqn:E. revert s2 after E.
  induction H as [f a|f s1 s3 a f1 f2' Hp Ht IH]; intros s2 after -> H2.
  - simpl. rewrite <- (app_nil_r s2). econstructor; [rewrite app_nil_l; eassumption|constructor].
  - rewrite <- app_assoc. econstructor; [|apply IH; eauto].
    rewrite <- app_assoc. exact Hp.
Qed.

Lemma trivia_app html f w w2 after f1 f2 :
  trivia html f w (w2 ++ after) f1 -> trivia html f1 w2 after f2 ->
  trivia html f (w ++ w2) after f2.
Proof.
  intros H. remember (w2 ++ after) as a eqn:E. revert w2 after E.
  induction H as [f a|f s1 s3 a f1 f2' Hp Ht IH]; intros w2 after -> H2.
  - exact H2.
  - rewrite <- app_assoc. econstructor; [|apply IH; eauto].
    rewrite <- app_assoc. exact Hp.
Qed.

Lemma piece_nonempty html f s after f' : piece html f s after f' -> s <> [].
Proof.
  intros H. destruct H; try discriminate.
  - destruct H; discriminate.
  - destruct H; discriminate.
Qed.

Definition gap_char (c : N) : Prop := white_space c \/ line_term c.

Lemma wp_read_while check pre rest f :
  WP (read_while check) pre rest f (fun s pre' rest' f' =>
    pre' = pre ++ s /\ rest = s ++ rest' /\ f' = f /\
    (forall c, In c s -> check c = true) /\ ~ starts (fun c => check c = true) rest').
Proof.
  unfold read_while.
  apply wpl_loop with (Inv := fun s p r g => p = pre ++ s /\ rest = s ++ r /\ g = f /\
    (forall c, In c s -> check c = true)).
  2:{ rewrite app_nil_r. repeat split; auto. }
  intros s p r g (-> & -> & -> & Hs). wp. destruct r as [|c r].
  - wp. repeat split; auto. intros (? & ? & E & _). discriminate.
  - destruct (check c) eqn:Hc.
    + wp. norm. repeat split; simpl; auto; try lia.
      intros x Hx. apply in_app_iff in Hx. destruct Hx as [Hx|[<-|[]]]; auto.
    + wp. repeat split; auto. intros (? & ? & E & H). inv E. congruence.
Qed.

Lemma wp_skip_whitespaces html pre rest f :
  WP skip_whitespaces pre rest f (fun _ pre' rest' f' =>
    exists w, pre' = pre ++ w /\ rest = w ++ rest' /\ trivia html f w rest' f' /\
      ~ starts gap_char rest' /\ (w = [] \/ starts gap_char rest)).
Proof.
  unfold skip_whitespaces.
  apply wpl_loop with (Inv := fun _ p r g => exists w, p = pre ++ w /\ rest = w ++ r /\
    trivia html f w r g /\ (w = [] \/ starts gap_char rest)).
  2:{ exists []. rewrite app_nil_r. repeat split; auto. constructor. }
  intros _ p r g (w & -> & -> & Hw & Hst). unfold is_end. wp. destruct r as [|c r].
  - wp. exists w. repeat split; auto. intros (? & ? & E & _). discriminate.
  - wp.
    destruct (is_ecma_line_terminator c) eqn:E1; [|destruct (is_ecma_whitespace c) eqn:E2].
    + apply line_term_iff in E1. wp. split; [|simpl; lia].
      exists (w ++ [c]). norm. repeat split; auto.
      * eapply (trivia_snoc _ _ _ [c]); [exact Hw|]. constructor; auto.
      * destruct Hst as [->|Hst]; [right; exists c, r; simpl; unfold gap_char; auto|right; auto].
    + apply white_space_iff in E2. wp. split; [|simpl; lia].
      exists (w ++ [c]). norm. repeat split; auto.
      * eapply (trivia_snoc _ _ _ [c]); [exact Hw|]. constructor; auto.
      * destruct Hst as [->|Hst]; [right; exists c, r; simpl; unfold gap_char; auto|right; auto].
    + wp. exists w. repeat split; auto. intros (? & ? & E & [H|H]); inv E.
      * apply white_space_iff in H. congruence.
      * apply line_term_iff in H. congruence.
Qed.

Lemma not_lt_forall s :
  (forall c, In c s -> negb (is_ecma_line_terminator c) = true) -> no_line_term s.
Proof.
  intros H c Hc Hl. apply line_term_iff in Hl. apply H in Hc. rewrite Hl in Hc. discriminate.
Qed.

Lemma wp_skip_rest_of_line pre rest f :
  WP skip_rest_of_line pre rest f (fun _ pre' rest' f' =>
    exists body, no_line_term body /\ f' = f /\
      ((exists c, line_term c /\ rest = body ++ c :: rest' /\ pre' = pre ++ body ++ [c]) \/
       (rest = body /\ rest' = [] /\ pre' = pre ++ body))).
Proof.
  unfold skip_rest_of_line. wp.
  eapply wpl_mono; [apply wp_read_while|].
  intros s p r g _ (-> & -> & -> & Hs & Hn). wp.
  destruct r as [|c r].
  - wp. exists s. repeat split; auto using not_lt_forall. right. rewrite app_nil_r. auto.
  - apply wpl_bind, wpl_consume_unwrap, wpl_ret. exists s.
    repeat split; auto using not_lt_forall. left. exists c. norm. repeat split; auto.
    apply line_term_iff. destruct (is_ecma_line_terminator c) eqn:E; auto.
    exfalso. apply Hn. exists c, r. rewrite E. auto.
Qed.

(** A comment up to the end of the line, after its opener. *)
Lemma line_piece html f opener body rest rest' :
  line_comment_open html f opener -> no_line_term body ->
  (exists c, line_term c /\ rest = body ++ c :: rest') \/ (rest = body /\ rest' = []) ->
  exists s, opener ++ rest = s ++ rest' /\ piece html f s rest' true.
Proof.
  intros Ho Hb [(c & Hc & ->)|(-> & ->)].
  - exists (opener ++ body ++ [c]). rewrite <- !app_assoc. split; [reflexivity|].
    now apply piece_line.
  - exists (opener ++ body). rewrite app_nil_r. split; [reflexivity|]. now apply piece_line_at_end.
Qed.

Lemma wp_skip_single_line_comment pre a b rest f :
  WP skip_single_line_comment pre (a :: b :: rest) f (fun _ pre' rest' f' =>
    exists body, no_line_term body /\ f' = f /\ length rest' <= length rest /\
      ((exists c, line_term c /\ rest = body ++ c :: rest' /\ pre' = pre ++ [a; b] ++ body ++ [c]) \/
       (rest = body /\ rest' = [] /\ pre' = pre ++ [a; b] ++ body))).
Proof.
  unfold skip_single_line_comment.
  apply wpl_bind, wpl_consume_unwrap, wpl_bind, wpl_consume_unwrap.
  eapply wpl_mono; [apply wp_skip_rest_of_line|].
  intros _ p r g _ (body & Hb & -> & H). exists body. repeat split; auto.
  - destruct H as [(c & _ & -> & _)|(-> & -> & _)]; [rewrite app_length|]; simpl; lia.
  - destruct H as [(c & Hc & -> & ->)|(-> & -> & ->)]; [left|right]; norm; eauto.
Qed.

Lemma opt_is_cons c (o : option N) : opt_is c o = true -> o = Some c.
Proof. destruct o; simpl; [intros H; apply N.eqb_eq in H; congruence|discriminate]. Qed.

Lemma opt_is_false c (o : option N) : opt_is c o = false -> o <> Some c.
Proof. destruct o; simpl; [intros H; apply N.eqb_neq in H; congruence|discriminate]. Qed.

(** [c; p] are the first two characters of [rest]. *)
Lemma two_chars a b (rest : str) :
  (opt_is a match rest with c :: _ => Some c | [] => None end &&
   opt_is b match rest with _ :: c :: _ => Some c | _ => None end)%bool = true ->
  exists r, rest = a :: b :: r.
Proof.
  intros H. apply andb_true_iff in H. destruct H as [H1 H2].
  apply opt_is_cons in H1. apply opt_is_cons in H2.
  destruct rest as [|x [|y r]]; try discriminate. inv H1. inv H2. eauto.
Qed.

Lemma two_chars_not a b (rest : str) :
  (opt_is a match rest with c :: _ => Some c | [] => None end &&
   opt_is b match rest with _ :: c :: _ => Some c | _ => None end)%bool = false ->
  ~ prefix [a; b] rest.
Proof.
  intros H (r & ->). simpl in H. rewrite !N.eqb_refl in H. discriminate.
Qed.

Lemma wp_skip_multi_line_comment pre rest f :
  WP skip_multi_line_comment pre (chars "/*" ++ rest) f (fun _ pre' rest' f' =>
    exists body, rest = body ++ chars "*/" ++ rest' /\
      pre' = pre ++ chars "/*" ++ body ++ chars "*/" /\
      (forall a b, body ++ chars "*" = a ++ chars "*/" ++ b -> False) /\
      (f' = true <-> f = true \/ has_line_term body)).
Proof.
  unfold skip_multi_line_comment. simpl chars. simpl app. wp.
  apply wpl_loop with (Inv := fun _ p r g => exists b, p = pre ++ chars "/*" ++ b /\ rest = b ++ r /\
     (forall a x, b = a ++ x -> x <> [] -> ~ prefix (chars "*/") (x ++ r)) /\
     (g = true <-> f = true \/ has_line_term b)).
  2:{ exists []. norm. repeat split; auto.
      - intros a x E Hx. destruct a; [|discriminate]. simpl in E. congruence.
      - intros [H|(? & [] & _)]; auto. }
  intros _ p r g (b & -> & -> & Hb & Hg). wp.
  destruct (opt_is _ _ && opt_is _ _)%bool eqn:E.
  - apply two_chars in E. destruct E as (r' & ->). wp.
    exists b. norm. simpl chars. norm. repeat split; try tauto.
    intros a x Ex. apply app_prefix_cases in Ex. destruct Ex as [(e & -> & Ex)|(e & -> & Ex)].
    + simpl in Ex. inv Ex. destruct e as [|y e].
      * simpl in H0. discriminate.
      * eapply (Hb a (y :: e)); [reflexivity|discriminate|].
        simpl in H0 |- *. inv H0. exists (match e with [] => [] | _ :: e' => e' ++ [42; 47]%N ++ r' end).
        destruct e as [|z e]; simpl in *.
        -- discriminate.
        -- congruence.
    + simpl in Ex. destruct e as [|y e]; simpl in Ex; inv Ex. destruct e; discriminate.
  - apply two_chars_not in E. destruct r as [|c r].
    + wp. eok_tac.
    + wp.
      assert (Hb' : forall a x, b ++ [c] = a ++ x -> x <> [] -> ~ prefix (chars "*/") (x ++ r)).
      { intros a x Ex Hx. apply app_prefix_cases in Ex. destruct Ex as [(e & -> & ->)|(e & -> & Ex)].
        - destruct e as [|y e].
          + exact E.
          + rewrite <- app_assoc. apply (Hb a); [reflexivity|discriminate].
        - destruct e as [|y e].
          + simpl in Ex. subst x. exact E.
          + simpl in Ex. inv Ex. destruct e; [|discriminate]. simpl in *. subst x. congruence. }
      destruct (is_ecma_line_terminator c) eqn:El; wp; (split; [|simpl; lia]);
        exists (b ++ [c]); norm; repeat split; auto.
      * intros _. right. exists c. split; [apply in_app_iff; simpl; auto|now apply line_term_iff].
      * intros Hg'. apply Hg in Hg'. destruct Hg' as [?|(y & Hy & Hl)]; auto.
        right. exists y. rewrite in_app_iff. auto.
      * intros H. apply Hg. destruct H as [?|(y & Hy & Hl)]; auto. right. exists y. split; auto.
        apply in_app_iff in Hy. destruct Hy as [|[<-|[]]]; auto.
        apply line_term_iff in Hl. congruence.
Qed.

Lemma wp_skip_trivia pre rest f :
  WP skip_comments_and_white_spaces pre rest f (fun _ pre' rest' f' =>
    exists w, pre' = pre ++ w /\ rest = w ++ rest' /\
      trivia (html_comment_allowed st) f w rest' f' /\
      ~ starts gap_char rest' /\ ~ starts_comment rest').
Proof.
  unfold skip_comments_and_white_spaces. wp.
  apply wpl_loop with (Inv := fun _ p r g => exists w, p = pre ++ w /\ rest = w ++ r /\
    trivia (html_comment_allowed st) f w r g).
  2:{ exists []. rewrite app_nil_r. repeat split; auto. constructor. }
  intros _ p r g (w & -> & -> & Hw). wp.
  eapply wpl_mono; [apply (wp_skip_whitespaces (html_comment_allowed st))|].
  intros _ p r1 g1 _ (w1 & -> & -> & Hw1 & Hn & _).
  assert (Hw2 := trivia_app _ _ _ _ _ _ _ Hw Hw1). clear Hw Hw1. wp.
  destruct (opt_is _ _ && opt_is _ _)%bool eqn:E1;
  [|destruct (opt_is _ _ && opt_is _ _)%bool eqn:E2 in |- *;
    [|destruct (opt_is _ _ && opt_is _ _)%bool eqn:E3 in |- *]].
  - apply two_chars in E1. destruct E1 as (r2 & ->). wp.
    eapply wpl_mono; [apply wp_skip_single_line_comment|].
    intros _ p r3 g2 _ (body & Hb & -> & Hl & H). wp. split.
    2:{ rewrite !app_length. simpl. lia. }
    destruct (line_piece (html_comment_allowed st) g1 (chars "//") body r2 r3) as (s & Es & Hs);
      [constructor|auto|destruct H as [(c & ? & ? & _)|(? & ? & _)]; eauto|].
    exists ((w ++ w1) ++ s). simpl in Es.
    change (ch "/") with 47%N in *. rewrite Es. rewrite Es in Hw2.
    repeat split; [|norm; reflexivity|eapply trivia_snoc; eauto].
    destruct H as [(c & ? & -> & ->)|(-> & -> & ->)].
    + change (47%N :: 47%N :: body ++ c :: r3) with ([47;47]%N ++ body ++ [c] ++ r3) in Es.
      rewrite !app_assoc in Es. apply app_inv_tail in Es. subst s. norm. reflexivity.
    + rewrite app_nil_r in Es. subst s. norm. reflexivity.
  - apply two_chars in E2. destruct E2 as (r2 & ->). wp.
    destruct (html_comment_allowed st) eqn:Eh.
    + wp. eapply wpl_mono; [apply wp_skip_single_line_comment|].
      intros _ p r3 g2 _ (body & Hb & -> & Hl & H). wp. split.
      2:{ rewrite !app_length. simpl. lia. }
      destruct (line_piece true g1 (chars "<!") body r2 r3) as (s & Es & Hs);
        [constructor; auto|auto|destruct H as [(c & ? & ? & _)|(? & ? & _)]; eauto|].
      exists ((w ++ w1) ++ s). simpl in Es.
      change (ch "<") with 60%N in *. change (ch "!") with 33%N in *. rewrite Es. rewrite Es in Hw2.
      repeat split; [|norm; reflexivity|eapply trivia_snoc; eauto].
      destruct H as [(c & ? & -> & ->)|(-> & -> & ->)].
      * change (60%N :: 33%N :: body ++ c :: r3) with ([60;33]%N ++ body ++ [c] ++ r3) in Es.
        rewrite !app_assoc in Es. apply app_inv_tail in Es. subst s. norm. reflexivity.
      * rewrite app_nil_r in Es. subst s. norm. reflexivity.
    + wp. eok_tac.
  - apply two_chars in E3. destruct E3 as (r2 & ->). wp.
    eapply wpl_mono; [apply (wp_skip_multi_line_comment ((pre ++ w) ++ w1) r2)|].
    intros _ p r3 g2 _ (body & -> & -> & Hb & Hg). wp.
    change (ch "/" :: ch "*" :: body ++ chars "*/" ++ r3)
      with (chars "/*" ++ body ++ chars "*/" ++ r3) in *.
    split; [|repeat (rewrite ?app_length; simpl); lia].
    exists ((w ++ w1) ++ chars "/*" ++ body ++ chars "*/").
    repeat split; [norm; reflexivity|norm; reflexivity|].
    eapply trivia_snoc; [|apply piece_block; eauto]. norm. exact Hw2.
  - apply two_chars_not in E1, E2, E3. wp.
    eapply wpl_mono; [apply (wp_skip_whitespaces (html_comment_allowed st))|].
    intros _ p r2 g2 _ (w2 & -> & -> & Hw3 & Hn2 & Hw4).
    destruct Hw4 as [->|Hw4]; [|contradiction]. simpl in *.
    exists (w ++ w1). norm. repeat split; auto.
    + rewrite app_nil_r. reflexivity.
    + inv Hw3; auto. apply app_eq_nil in H. destruct H as [-> ->].
      exfalso. now apply piece_nonempty in H0.
    + unfold starts_comment. simpl chars. intuition.
Qed.

End Sound.
