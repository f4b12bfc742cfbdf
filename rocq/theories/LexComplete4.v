(** * LexComplete4: the longest punctuator is read. *)

From Verif Require Import Base Tokens PeekReader CharReader Lexer LexSpec LexChars LexerFacts
  LexSound LexSound2 LexSound3 LexComplete LexComplete2 LexComplete3.
Local Open Scope string_scope.
Local Open Scope list_scope.

Section Forward.
Context {PF : Platform}.
Variable D : str.
Variable st : lexer_state.
Notation LX := (LX D st).

(** ** Punctuators *)

Lemma punct_from_str_some x q : punct_from_str x = Some q -> punct_str q = x.
Proof.
  unfold punct_from_str. intros H. apply find_some in H. destruct H as [_ H].
  now apply str_eqb_eq in H.
Qed.

(** No longer punctuator continues the longest one. *)
Lemma longest_no p after :
  longest_punct p (punct_str p ++ after) ->
  forall c r, after = c :: r -> forall q, punct_from_str (punct_str p ++ [c]) = Some q ->
  q <> PQuestionMarkDot -> False.
Proof.
  intros [_ H] c r -> q Hq Hn. apply punct_from_str_some in Hq.
  assert (L : length (punct_str q) <= length (punct_str p)).
  { apply H. exists r. split.
    - rewrite Hq, <- app_assoc. reflexivity.
    - intros [? _]. contradiction. }
  rewrite Hq, app_length in L. simpl in L. lia.
Qed.

Ltac fwd_case :=
  match goal with
  | |- context [opt_is ?a match ?r with [] => None | c :: _ => Some c end] =>
      let E := fresh "E" in
      destruct (opt_is a match r with [] => None | c :: _ => Some c end) eqn:E;
      [ apply opt_is_cons in E; destruct r; [discriminate E|];
        injection E as E; subst;
        try solve [exfalso; match goal with K : forall c r, _ = c :: r -> _ |- _ =>
                   eapply K; [reflexivity|vm_compute; reflexivity|discriminate] end] | ]
  end.

Lemma punct_fwd p after pre f start c r :
  longest_punct p (punct_str p ++ after) ->
  (p = PDot -> ~ starts digit after /\ ~ prefix (chars ".") after) ->
  (regex_allowed st = true -> p <> PSlash /\ p <> PSlashEqual) ->
  punct_str p = c :: r ->
  read_value start c (LX pre (punct_str p ++ after) f) = (Ok (VPunct p), LX (pre ++ punct_str p) after f).
Proof.
  intros Hl Hd Hr E. assert (K := longest_no p after Hl).
  assert (Hq : p = PQuestionMarkDot -> ~ starts digit after).
  { intros ->. destruct Hl as [(s' & E' & Hs') _]. apply app_inv_head in E'. subst. tauto. }
  assert (Hq2 : p = PQuestionMark -> prefix (chars ".") after -> exists r, after = ch "." :: r /\ starts digit r).
  { intros -> (x & ->). destruct Hl as [_ Hl]. exists x. split; auto. destruct x as [|y x].
    - exfalso. specialize (Hl PQuestionMarkDot). cbn in Hl. assert (2 <= 1); [|lia]. apply Hl.
      exists []. split; auto. intros [_ (? & ? & ? & _)]. discriminate.
    - destruct (is_digit y) eqn:Ey.
      + exists y, x. split; auto. now apply digit_iff.
      + exfalso. specialize (Hl PQuestionMarkDot). cbn in Hl. assert (2 <= 1); [|lia]. apply Hl.
        exists (y :: x). split; auto. intros [_ (a & b & Eab & Hy)]. injection Eab as <- <-.
        apply digit_iff in Hy. congruence. }
  clear Hl.
  destruct p; cbn in E; injection E as <- <-; unfold read_value, produce_peek, produce2, produce1;
    cbn [punct_str]; simpl chars; simpl app; ex; cbn [opt_is]; eval_ch; eval_eqb.
  all: try (destruct (regex_allowed st) eqn:Er; [destruct (Hr eq_refl); congruence|]).
  all: cbn [andb]; ex; cbn [opt_is opt_digit]; eval_eqb; ex; norm.
  all: try reflexivity.
  all: repeat (fwd_case; cbn [andb]; ex; cbn [opt_is opt_digit]; eval_eqb; ex; norm).
  all: try reflexivity.
  - exfalso. destruct (Hd eq_refl) as [_ H]. apply H. eexists. reflexivity.
  - exfalso. destruct (Hd eq_refl) as [_ H]. apply H. eexists. reflexivity.
  - destruct (Hd eq_refl) as [H _]. destruct (opt_digit _) eqn:Eo.
    + destruct H. now apply opt_digit_starts'.
    + ex. reflexivity.
  - change (opt_is 61 (Some 61%N)) with true. cbv iota. ex. norm. reflexivity.
  - destruct (Hq2 eq_refl) as (r & Er & Hs); [eexists; reflexivity|]. injection Er as <-.
    destruct (opt_digit _) eqn:Eo; [reflexivity|]. apply opt_digit_starts in Eo. contradiction.
  - destruct (opt_digit _) eqn:Eo; [apply opt_digit_starts' in Eo; now apply Hq in Eo|].
    cbn [negb]. ex. norm. reflexivity.
Qed.

End Forward.
