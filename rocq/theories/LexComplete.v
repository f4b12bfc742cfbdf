(** * LexComplete: the lexer accepts every text of the lexical grammar. *)

From Verif Require Import Base Tokens PeekReader CharReader Lexer LexSpec LexChars LexerFacts
  LexSound LexSound2 LexSound3.
Local Open Scope string_scope.
Local Open Scope list_scope.

Section Forward.
Context {PF : Platform}.
Variable D : str.
Variable st : lexer_state.
Notation LX := (LX D st).

(** ** Symbolic execution by rewriting *)

Lemma bind_ok {A B} (m : lm A) (k : A -> lm B) L a L' : m L = (Ok a, L') -> bind m k L = k a L'.
Proof. unfold bind. intros ->. reflexivity. Qed.
Lemma bind_ret {A B} (a : A) (k : A -> lm B) L : bind (ret a) k L = k a L.
Proof. reflexivity. Qed.
Lemma bind_bind {A B C} (m : lm A) (k : A -> lm B) (k2 : B -> lm C) L :
  bind (bind m k) k2 L = bind m (fun a => bind (k a) k2) L.
Proof. unfold bind. destruct (m L) as [[a|e] L']; reflexivity. Qed.
Lemma bind_if {A B} (b : bool) (m1 m2 : lm A) (k : A -> lm B) L :
  bind (if b then m1 else m2) k L = if b then bind m1 k L else bind m2 k L.
Proof. destruct b; reflexivity. Qed.
Lemma LX_snoc pre c rest f :
  mk_lexer D st (mk_cr rest (blen pre + len8 c) (blen pre + len16 c)) f = LX (pre ++ [c]) rest f.
Proof. unfold LexerFacts.LX. rewrite blen_app, rpos_snoc. simpl. rewrite Nat.add_0_r. reflexivity. Qed.
Lemma consume_eq pre c r f : consume (LX pre (c :: r) f) = (Ok c, LX (pre ++ [c]) r f).
Proof. unfold consume. rewrite LX_consume. reflexivity. Qed.
Lemma consume_unwrap_eq pre c r f : consume_unwrap (LX pre (c :: r) f) = (Ok c, LX (pre ++ [c]) r f).
Proof. unfold consume_unwrap. rewrite LX_consume. reflexivity. Qed.
Lemma bind_consume {B} (k : N -> lm B) pre c r f :
  bind consume k (LX pre (c :: r) f) = k c (LX (pre ++ [c]) r f).
Proof. apply bind_ok, consume_eq. Qed.
Lemma bind_consume_unwrap {B} (k : N -> lm B) pre c r f :
  bind consume_unwrap k (LX pre (c :: r) f) = k c (LX (pre ++ [c]) r f).
Proof. apply bind_ok, consume_unwrap_eq. Qed.
Lemma bind_current {B} (k : N -> lm B) pre c r f :
  bind current k (LX pre (c :: r) f) = k c (LX pre (c :: r) f).
Proof. reflexivity. Qed.
Lemma bind_current_ok {B} (k : option N -> lm B) pre r f :
  bind current_ok k (LX pre r f) = k (match r with c :: _ => Some c | [] => None end) (LX pre r f).
Proof. reflexivity. Qed.
Lemma bind_peek_ok {B} (k : option N -> lm B) pre r f :
  bind peek_ok k (LX pre r f) = k (match r with _ :: c :: _ => Some c | _ => None end) (LX pre r f).
Proof. reflexivity. Qed.
Lemma bind_position {B} (k : nat -> lm B) pre r f :
  bind position k (LX pre r f) = k (rpos pre) (LX pre r f).
Proof. reflexivity. Qed.
Lemma bind_set_fol {B} (k : unit -> lm B) b pre r f :
  bind (set_fol b) k (LX pre r f) = k tt (LX pre r b).
Proof. reflexivity. Qed.
Lemma bind_get_fol {B} (k : bool -> lm B) pre r f :
  bind get_fol k (LX pre r f) = k f (LX pre r f).
Proof. reflexivity. Qed.
Lemma bind_get_state {B} (k : lexer_state -> lm B) pre r f :
  bind get_state k (LX pre r f) = k st (LX pre r f).
Proof. reflexivity. Qed.
Lemma bind_debug_assert {B} (k : unit -> lm B) L : bind (debug_assert true) k L = k tt L.
Proof. unfold debug_assert. rewrite andb_false_r. reflexivity. Qed.

Ltac ex1 :=
  first
  [ rewrite bind_bind | rewrite bind_ret | rewrite bind_consume | rewrite bind_consume_unwrap
  | rewrite bind_current | rewrite bind_current_ok | rewrite bind_peek_ok | rewrite bind_position
  | rewrite bind_set_fol | rewrite bind_get_fol | rewrite bind_get_state ];
  cbv beta.
Ltac ex := repeat ex1.
Ltac lxl := unfold lx_rest, LexerFacts.LX; simpl; rewrite ?app_length; simpl; lia.

Inductive loop_runs {S A} (step : S -> lm (S + A)) : S -> lexer -> A -> lexer -> Prop :=
| lr_done s L a L' : step s L = (Ok (inr a), L') -> loop_runs step s L a L'
| lr_next s L s1 L1 a L' : step s L = (Ok (inl s1), L1) ->
    length (lx_rest L1) < length (lx_rest L) -> loop_runs step s1 L1 a L' ->
    loop_runs step s L a L'.

Lemma loop_runs_eq {S A} (step : S -> lm (S + A)) s L a L' :
  loop_runs step s L a L' -> loop step s L = (Ok a, L').
Proof.
  intros H. unfold loop.
  assert (G : forall n, length (lx_rest L) < n -> loop_ n step s L = (Ok a, L')).
  { induction H as [s L a L' E|s L s1 L1 a L' E Hl H IH]; intros n Hn; destruct n; try lia; cbn [loop_].
    - rewrite E. reflexivity.
    - rewrite E. apply IH. lia. }
  apply G. lia.
Qed.

(** ** Trivia *)

Lemma read_while_fwd check s after pre f :
  (forall c, In c s -> check c = true) -> ~ starts (fun c => check c = true) after ->
  read_while check (LX pre (s ++ after) f) = (Ok s, LX (pre ++ s) after f).
Proof.
  intros Hs Ha. unfold read_while. apply loop_runs_eq.
  assert (G : forall acc p, loop_runs (fun acc : str =>
    let! o := current_ok in
    match o with
    | Some c => if check c then let! c' := consume in ret (inl (acc ++ [c'])) else ret (inr acc)
    | None => ret (inr acc)
    end)%lm acc (LX p (s ++ after) f) (acc ++ s) (LX (p ++ s) after f)).
  { induction s as [|c s IH]; intros acc p.
    - rewrite !app_nil_r. apply lr_done. simpl app. ex. destruct after as [|x after]; [reflexivity|].
      destruct (check x) eqn:E; [|reflexivity]. exfalso. apply Ha. exists x, after. auto.
    - eapply lr_next.
      + simpl app. ex. rewrite (Hs c) by (left; auto). ex. reflexivity.
      + lxl.
      + assert (Hs' : forall x, In x s -> check x = true) by (intros; apply Hs; right; auto).
        specialize (IH Hs' (acc ++ [c]) (p ++ [c])). rewrite <- !app_assoc in IH. exact IH. }
  apply (G [] pre).
Qed.

Definition skip_ws_step : unit -> lm (unit + unit) := fun _ =>
  (let! e := is_end in
    if e then ret (inr tt) else
    let! c := current in
    if is_ecma_line_terminator c then set_fol true;; consume;; ret (inl tt)
    else if is_ecma_whitespace c then consume;; ret (inl tt)
    else ret (inr tt))%lm.

(** Runs of white space and line terminators. *)
Inductive blank : bool -> str -> bool -> Prop :=
| blank_nil f : blank f [] f
| blank_ws f c s f' : white_space c -> blank f s f' -> blank f (c :: s) f'
| blank_lt f c s f' : line_term c -> blank true s f' -> blank f (c :: s) f'.

Lemma ws_not_lt c : white_space c -> is_ecma_line_terminator c = false.
Proof.
  intros H. destruct (is_ecma_line_terminator c) eqn:E; auto. apply line_term_iff in E.
  unfold line_term, white_space in *. simpl in *. exfalso.
  repeat (destruct E as [<-|E]; [intuition discriminate|]). destruct E.
Qed.

Lemma skip_ws_fwd s after pre f f' :
  blank f s f' -> ~ starts gap_char after ->
  skip_whitespaces (LX pre (s ++ after) f) = (Ok tt, LX (pre ++ s) after f').
Proof.
  intros Hs Ha. unfold skip_whitespaces. apply loop_runs_eq. fold skip_ws_step.
  revert pre. induction Hs as [f|f c s f' Hc Hs IH|f c s f' Hc Hs IH]; intros pre.
  - rewrite app_nil_r. apply lr_done. simpl app. unfold skip_ws_step, is_end. ex.
    destruct after as [|x after]; [reflexivity|]. ex.
    destruct (is_ecma_line_terminator x) eqn:E1.
    { exfalso. apply Ha. exists x, after. split; auto. right. now apply line_term_iff. }
    destruct (is_ecma_whitespace x) eqn:E2.
    { exfalso. apply Ha. exists x, after. split; auto. left. now apply white_space_iff. }
    reflexivity.
  - eapply lr_next with (L1 := LX (pre ++ [c]) (s ++ after) f).
    + simpl app. unfold skip_ws_step, is_end. ex. rewrite (ws_not_lt _ Hc).
      apply white_space_iff in Hc. rewrite Hc. ex. reflexivity.
    + lxl.
    + specialize (IH (pre ++ [c])). rewrite <- app_assoc in IH. exact IH.
  - eapply lr_next with (L1 := LX (pre ++ [c]) (s ++ after) true).
    + simpl app. unfold skip_ws_step, is_end. ex.
      apply line_term_iff in Hc. rewrite Hc. ex. reflexivity.
    + lxl.
    + specialize (IH (pre ++ [c])). rewrite <- app_assoc in IH. exact IH.
Qed.

Lemma lt_not c : line_term c -> negb (is_ecma_line_terminator c) = false.
Proof. intros H. apply line_term_iff in H. rewrite H. reflexivity. Qed.

Lemma no_lt_check s :
  no_line_term s -> forall c, In c s -> negb (is_ecma_line_terminator c) = true.
Proof.
  intros H c Hc. destruct (is_ecma_line_terminator c) eqn:E; auto.
  apply line_term_iff in E. destruct (H c Hc E).
Qed.

Lemma skip_rest_of_line_fwd body c after pre f :
  no_line_term body -> line_term c ->
  skip_rest_of_line (LX pre (body ++ [c] ++ after) f) = (Ok tt, LX (pre ++ body ++ [c]) after f).
Proof.
  intros Hb Hc. unfold skip_rest_of_line.
  erewrite bind_ok.
  2:{ apply read_while_fwd; [now apply no_lt_check|]. intros (x & r & E & Hx). inv E.
      rewrite lt_not in Hx by auto. discriminate. }
  ex. simpl. ex. rewrite <- app_assoc. reflexivity.
Qed.

Lemma skip_rest_of_line_fwd_end body pre f :
  no_line_term body ->
  skip_rest_of_line (LX pre body f) = (Ok tt, LX (pre ++ body) [] f).
Proof.
  intros Hb. unfold skip_rest_of_line.
  erewrite bind_ok.
  2:{ rewrite <- (app_nil_r body) at 1. apply read_while_fwd; [now apply no_lt_check|].
      intros (x & r & E & Hx). discriminate. }
  ex. reflexivity.
Qed.

Definition block_step (ss : nat) : unit -> lm (unit + unit) := fun _ =>
  (let! c := current_ok in
    let! p := peek_ok in
    if (opt_is (ch "*") c && opt_is (ch "/") p)%bool then consume;; consume;; ret (inr tt)
    else match c with
    | None => lfail_ (lex_syntax_error "Unterminated comment" ss (ss + 2))
    | Some _ =>
      let! c' := consume in
      if is_ecma_line_terminator c' then set_fol true;; ret (inl tt) else ret (inl tt)
    end)%lm.

Lemma has_lt_cons c s : has_line_term (c :: s) <-> line_term c \/ has_line_term s.
Proof.
  split.
  - intros (x & [<-|Hx] & Hl); [auto|right; exists x; auto].
  - intros [H|(x & Hx & Hl)]; [exists c|exists x]; simpl; auto.
Qed.

Lemma skip_block_fwd body after pre f f' :
  (forall a b, body ++ chars "*" = a ++ chars "*/" ++ b -> False) ->
  (f' = true <-> f = true \/ has_line_term body) ->
  skip_multi_line_comment (LX pre (chars "/*" ++ body ++ chars "*/" ++ after) f) =
    (Ok tt, LX (pre ++ chars "/*" ++ body ++ chars "*/") after f').
Proof.
  intros Hb Hf. unfold skip_multi_line_comment. simpl chars. simpl app. ex.
  apply loop_runs_eq. fold (block_step (rpos pre)).
  replace (pre ++ 47%N :: 42%N :: body ++ [42%N; 47%N])
    with (((pre ++ [47%N]) ++ [42%N]) ++ body ++ [42%N; 47%N]) by (norm; reflexivity).
  generalize ((pre ++ [47%N]) ++ [42%N]) as p. generalize (rpos pre) as ss. intros ss.
  revert f Hf. induction body as [|c body IH]; intros f Hf p.
  - apply lr_done. simpl app. unfold block_step. ex. simpl. ex. unfold ret.
    replace f' with f. { norm. reflexivity. }
    destruct f, f'; auto; exfalso; destruct Hf as [H1 H2].
    + discriminate H2; auto.
    + destruct H1 as [|(x & [] & _)]; auto. discriminate.
  - eapply lr_next with (L1 := LX (p ++ [c]) (body ++ [42; 47]%N ++ after)
        (if is_ecma_line_terminator c then true else f)).
    + simpl app. unfold block_step. ex.
      destruct (_ && _)%bool eqn:E.
      { exfalso. apply andb_true_iff in E. destruct E as [E1 E2]. apply opt_is_cons in E1, E2.
        injection E1 as ->. destruct body as [|y body]; simpl in E2.
        - discriminate.
        - injection E2 as ->. apply (Hb [] (body ++ [42%N])). reflexivity. }
      ex. destruct (is_ecma_line_terminator c); ex; reflexivity.
    + lxl.
    + replace (p ++ (c :: body) ++ [42; 47]%N) with ((p ++ [c]) ++ body ++ [42; 47]%N)
        by (norm; reflexivity).
      apply IH.
      * intros a b E. apply (Hb (c :: a) b). simpl. f_equal. exact E.
      * rewrite Hf, has_lt_cons, <- line_term_iff. destruct (is_ecma_line_terminator c); intuition.
Qed.

(** The loop of [skip_comments_and_white_spaces]. *)
Definition skip_step : unit -> lm (unit + unit) := fun _ =>
  (skip_whitespaces;;
    let! c := current_ok in
    let! p := peek_ok in
    if (opt_is (ch "/") c && opt_is (ch "/") p)%bool then
      skip_single_line_comment;; set_fol true;; ret (inl tt)
    else if (opt_is (ch "<") c && opt_is (ch "!") p)%bool then
      let! st := get_state in
      if html_comment_allowed st then
        skip_single_line_comment;; set_fol true;; ret (inl tt)
      else
        let! pos := position in
        lfail_ (lex_syntax_error html_message pos (pos + 2))
    else if (opt_is (ch "/") c && opt_is (ch "*") p)%bool then
      skip_multi_line_comment;; ret (inl tt)
    else ret (inr tt))%lm.

Lemma skip_comments_unfold :
  skip_comments_and_white_spaces = (loop skip_step tt;; skip_whitespaces)%lm.
Proof. reflexivity. Qed.

(** Trivia without html close comments, as alternating blanks and comments. *)
Inductive trivia_nc (html : bool) : bool -> str -> str -> bool -> Prop :=
| tn_blank f s after f' : blank f s f' -> trivia_nc html f s after f'
| tn_comment f s1 s2 s3 after f1 f2 f3 :
    blank f s1 f1 -> piece html f1 s2 (s3 ++ after) f2 -> ~ starts gap_char (s2 ++ s3 ++ after) ->
    (forall x, s2 <> chars "-->" ++ x) ->
    trivia_nc html f2 s3 after f3 ->
    trivia_nc html f (s1 ++ s2 ++ s3) after f3.

(** A text that starts with one of the characters that open a comment is no blank. *)
Lemma not_gap_char c r : In c [47; 60; 45]%N -> ~ starts gap_char (c :: r).
Proof.
  intros H (x & y & E & Hx). inv E. unfold gap_char, white_space, line_term in Hx. simpl in *.
  intuition subst; discriminate.
Qed.

Lemma opt_two a b r : (opt_is a match (a :: b :: r) with c :: _ => Some c | [] => None end &&
   opt_is b match (a :: b :: r) with _ :: c :: _ => Some c | _ => None end)%bool = true.
Proof. simpl. rewrite !N.eqb_refl. reflexivity. Qed.

(** One round of the loop on a comment. *)
Lemma skip_comment_fwd s after pre f f' :
  piece (html_comment_allowed st) f s after f' -> ~ starts gap_char (s ++ after) ->
  (forall x, s <> chars "-->" ++ x) ->
  bind current_ok (fun c => bind peek_ok (fun p =>
    if (opt_is (ch "/") c && opt_is (ch "/") p)%bool then
      skip_single_line_comment;; set_fol true;; ret (inl tt)
    else if (opt_is (ch "<") c && opt_is (ch "!") p)%bool then
      let! st := get_state in
      if html_comment_allowed st then
        skip_single_line_comment;; set_fol true;; ret (inl tt)
      else
        let! pos := position in
        lfail_ (lex_syntax_error html_message pos (pos + 2))
    else if (opt_is (ch "/") c && opt_is (ch "*") p)%bool then
      skip_multi_line_comment;; ret (inl tt)
    else ret (inr tt)))%lm (LX pre (s ++ after) f) = (Ok (inl tt : unit + unit), LX (pre ++ s) after f').
Proof.
  intros Hp Hg Hn. destruct Hp as [f c after Hc|f c after Hc|f opener body c after Ho Hb Hc
    |f opener body Ho Hb|f body after f' Hb Hf].
  - exfalso. apply Hg. exists c, after. split; auto. left. auto.
  - exfalso. apply Hg. exists c, after. split; auto. right. auto.
  - destruct Ho as [f|f Hh|Hh].
    + simpl chars. rewrite <- !app_assoc. simpl app. ex. cbn [opt_is]. eval_ch. eval_eqb.
      unfold skip_single_line_comment. ex.
      erewrite bind_ok by (now apply skip_rest_of_line_fwd). ex. norm. reflexivity.
    + simpl chars. rewrite <- !app_assoc. simpl app. ex. cbn [opt_is]. eval_ch. eval_eqb.
      ex. rewrite Hh. unfold skip_single_line_comment. ex.
      erewrite bind_ok by (now apply skip_rest_of_line_fwd). ex. norm. reflexivity.
    + destruct (Hn (body ++ [c])). reflexivity.
  - destruct Ho as [f|f Hh|Hh].
    + simpl chars. rewrite <- !app_assoc. simpl app. ex. cbn [opt_is]. eval_ch. eval_eqb.
      unfold skip_single_line_comment. ex. rewrite app_nil_r.
      erewrite bind_ok by (now apply skip_rest_of_line_fwd_end). ex. norm. reflexivity.
    + simpl chars. rewrite <- !app_assoc. simpl app. ex. cbn [opt_is]. eval_ch. eval_eqb.
      ex. rewrite Hh. unfold skip_single_line_comment. ex. rewrite app_nil_r.
      erewrite bind_ok by (now apply skip_rest_of_line_fwd_end). ex. norm. reflexivity.
    + destruct (Hn body). reflexivity.
  - rewrite <- !app_assoc. rewrite bind_current_ok, bind_peek_ok. cbn [chars app]. cbn [opt_is].
    eval_ch. eval_eqb. erewrite bind_ok by (apply (skip_block_fwd body after); [exact Hb|exact Hf]). reflexivity.
Qed.

Lemma skip_trivia_nc s after pre f f' :
  trivia_nc (html_comment_allowed st) f s after f' ->
  ~ starts gap_char after -> ~ starts_comment after ->
  skip_comments_and_white_spaces (LX pre (s ++ after) f) = (Ok tt, LX (pre ++ s) after f').
Proof.
  intros Hs Hg Hc. rewrite skip_comments_unfold.
  assert (HL : loop skip_step tt (LX pre (s ++ after) f) = (Ok tt, LX (pre ++ s) after f')).
  { apply loop_runs_eq. revert pre.
    induction Hs as [f s after f' Hs|f s1 s2 s3 after f1 f2 f3 H1 H2 H3 H4 H5 IH]; intros pre.
    - apply lr_done. unfold skip_step.
      erewrite bind_ok by (apply (skip_ws_fwd s after); eassumption). ex.
      destruct (_ && _)%bool eqn:E1.
      { exfalso. apply two_chars in E1. destruct E1 as (r & ->). apply Hc. left. exists r. reflexivity. }
      destruct (_ && _)%bool eqn:E2 in |- *.
      { exfalso. apply two_chars in E2. destruct E2 as (r & ->). apply Hc. right. right. exists r. reflexivity. }
      destruct (_ && _)%bool eqn:E3 in |- *.
      { exfalso. apply two_chars in E3. destruct E3 as (r & ->). apply Hc. right. left. exists r. reflexivity. }
      reflexivity.
    - eapply lr_next with (s1 := tt) (L1 := LX ((pre ++ s1) ++ s2) (s3 ++ after) f2).
      + unfold skip_step.
        replace ((s1 ++ s2 ++ s3) ++ after) with (s1 ++ s2 ++ s3 ++ after) by (norm; reflexivity).
        erewrite bind_ok by (apply (skip_ws_fwd s1); eassumption).
        apply (skip_comment_fwd s2); auto.
      + apply piece_nonempty in H2. destruct s2 as [|x s2]; [congruence|].
        unfold lx_rest, LexerFacts.LX. simpl. rewrite !app_length. simpl. rewrite !app_length. lia.
      + replace (pre ++ s1 ++ s2 ++ s3) with (((pre ++ s1) ++ s2) ++ s3) by (norm; reflexivity).
        apply IH; auto. }
  erewrite bind_ok by exact HL.
  pose proof (skip_ws_fwd [] after (pre ++ s) f' f' (blank_nil f') Hg) as H.
  rewrite app_nil_r in H. exact H.
Qed.

(** Blank prefixes of trivia. *)
Lemma trivia_blank_split html f s after f' :
  trivia html f s after f' -> ~ starts gap_char after ->
  (exists g, blank f s g /\ g = f') \/
  exists s1 s2 s3 f1 f2, s = s1 ++ s2 ++ s3 /\ blank f s1 f1 /\ piece html f1 s2 (s3 ++ after) f2 /\
    ~ starts gap_char (s2 ++ s3 ++ after) /\ trivia html f2 s3 after f'.
Proof.
  intros H Ha. induction H as [f after|f s1 s2 after f1 f2 Hp Ht IH].
  - left. exists f. split; [constructor|reflexivity].
  - specialize (IH Ha). remember (s2 ++ after) as a eqn:Ea in Hp.
    destruct Hp as [f c a Hc|f c a Hc|f opener body c a Ho Hb Hc|f opener body Ho Hb|f body a f1 Hb Hf].
    + destruct IH as [(g & Hg & ->)|(t1 & t2 & t3 & g1 & g2 & -> & H1 & H2 & H3 & H4)].
      * left. eexists. split; [apply blank_ws; eauto|reflexivity].
      * right. exists (c :: t1), t2, t3, g1, g2. repeat split; auto. apply blank_ws; auto.
    + destruct IH as [(g & Hg & ->)|(t1 & t2 & t3 & g1 & g2 & -> & H1 & H2 & H3 & H4)].
      * left. eexists. split; [apply blank_lt; eauto|reflexivity].
      * right. exists (c :: t1), t2, t3, g1, g2. repeat split; auto. apply blank_lt; auto.
    + right. exists [], (opener ++ body ++ [c]), s2, f, true. repeat split; auto; try constructor; auto.
      destruct Ho; simpl; apply not_gap_char; simpl; auto.
    + right. exists [], (opener ++ body), s2, f, true. repeat split; auto.
      * constructor.
      * rewrite <- Ea. now apply piece_line_at_end.
      * destruct Ho; simpl; apply not_gap_char; simpl; auto.
    + right. exists [], (chars "/*" ++ body ++ chars "*/"), s2, f, f1. repeat split; auto.
      * constructor.
      * now apply piece_block.
      * simpl. apply not_gap_char; simpl; auto.
Qed.

End Forward.
