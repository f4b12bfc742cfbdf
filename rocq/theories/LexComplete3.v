(** * LexComplete3: strings, regular expressions and templates. *)

From Verif Require Import Base Tokens PeekReader CharReader Lexer LexSpec LexChars LexerFacts
  LexSound LexSound2 LexSound3 LexComplete LexComplete2.
Local Open Scope string_scope.
Local Open Scope list_scope.

Section Forward.
Context {PF : Platform}.
Variable D : str.
Variable st : lexer_state.
Notation LX := (LX D st).

(** ** Strings *)

Definition string_step (q : N) : str -> lm (str + str) := fun result =>
  (let! c := consume in
    if N.eqb c (ch "\") then let! e := read_escape_sequence in ret (inl (result ++ e))
    else if N.eqb c q then ret (inr result)
    else validate_character c;; ret (inl (result ++ [c])))%lm.

Lemma string_body_no_lf q s v r : string_body q s v -> s <> 0xA%N :: r.
Proof. intros H E. destruct H; try discriminate E; injection E as -> _; congruence. Qed.

Lemma read_string_fwd q s v after pre f :
  q = 34%N \/ q = 39%N -> string_body q s v ->
  read_string_literal (LX pre ([q] ++ s ++ [q] ++ after) f) =
    (Ok (VLiteral (TLString v q)), LX (pre ++ [q] ++ s ++ [q]) after f).
Proof.
  intros Hq Hs. unfold read_string_literal. simpl app. ex.
  replace ((q =? 34) || (q =? 39))%N%bool with true by (destruct Hq as [->| ->]; reflexivity).
  rewrite bind_debug_assert. ex. unfold read_until_unescaped_delimiter.
  fold (string_step q).
  assert (Hqb : N.eqb q (ch "\") = false) by (destruct Hq as [->| ->]; reflexivity).
  assert (Hqn : q <> 0xA%N) by (destruct Hq as [->| ->]; discriminate).
  assert (G : forall acc p, loop_runs (string_step q) acc (LX p (s ++ q :: after) f)
                (acc ++ v) (LX (p ++ s ++ [q]) after f)).
  { induction Hs as [|c s v H1 H2 H3 H4 Hs IH|c s v Hs IH|s v Hs IH]; intros acc p.
    - apply lr_done. simpl app. unfold string_step. ex. rewrite Hqb, N.eqb_refl, app_nil_r. reflexivity.
    - eapply lr_next with (s1 := acc ++ [c]) (L1 := LX (p ++ [c]) (s ++ q :: after) f).
      + simpl app. unfold string_step. ex. rewrite (proj2 (N.eqb_neq _ _) H2), (proj2 (N.eqb_neq _ _) H1).
        unfold validate_character. rewrite (proj2 (N.eqb_neq _ _) H3), (proj2 (N.eqb_neq _ _) H4). reflexivity.
      + lxl.
      + specialize (IH (acc ++ [c]) (p ++ [c])). repeat rewrite <- app_assoc in IH. exact IH.
    - eapply lr_next with (s1 := acc ++ [c]) (L1 := LX (p ++ [ch "\"] ++ [c]) (s ++ q :: after) f).
      + simpl app. unfold string_step. ex. rewrite N.eqb_refl. unfold read_escape_sequence. ex.
        replace (_ && _)%bool with false.
        * ex. norm. reflexivity.
        * symmetry. apply andb_false_iff. right. apply not_prefix_opt. intros (x & E).
          destruct s as [|y s]; simpl in E.
          -- injection E as E _. congruence.
          -- injection E as -> _. now apply (string_body_no_lf _ _ _ s Hs).
      + lxl.
      + specialize (IH (acc ++ [c]) (p ++ [ch "\"] ++ [c])). repeat rewrite <- app_assoc in IH. exact IH.
    - eapply lr_next with (s1 := acc ++ [13; 10]%N) (L1 := LX (p ++ [ch "\"; 13; 10]%N) (s ++ q :: after) f).
      + simpl app. unfold string_step. ex. rewrite N.eqb_refl. unfold read_escape_sequence. ex.
        cbn [opt_is]. change ((13 =? 13)%N && (10 =? 10)%N)%bool with true. cbv iota. ex. norm. reflexivity.
      + lxl.
      + specialize (IH (acc ++ [13; 10]%N) (p ++ [ch "\"; 13; 10]%N)). repeat rewrite <- app_assoc in IH. exact IH. }
  erewrite bind_ok by (apply loop_runs_eq, G). norm. reflexivity.
Qed.

(** ** Regular expressions *)

Definition class_step : str -> lm (str + str) := fun result =>
  (let! c := consume in
    if N.eqb c (ch "]") then ret (inr (result ++ [c]))
    else if N.eqb c (ch "\") then let! e := consume in ret (inl (result ++ [c; e]))
    else ret (inl (result ++ [c])))%lm.

Lemma read_class_fwd s after pre f :
  class_body s ->
  read_regexp_group_body (LX pre (s ++ [ch "]"] ++ after) f) =
    (Ok (s ++ [ch "]"]), LX (pre ++ s ++ [ch "]"]) after f).
Proof.
  intros Hs. unfold read_regexp_group_body. fold class_step. apply loop_runs_eq.
  assert (G : forall acc p, loop_runs class_step acc (LX p (s ++ [ch "]"] ++ after) f)
                (acc ++ s ++ [ch "]"]) (LX (p ++ s ++ [ch "]"]) after f)).
  { induction Hs as [|c s H1 H2 Hs IH|c s Hs IH]; intros acc p.
    - apply lr_done. simpl app. unfold class_step. ex. rewrite N.eqb_refl. reflexivity.
    - eapply lr_next with (s1 := acc ++ [c]) (L1 := LX (p ++ [c]) (s ++ [ch "]"] ++ after) f).
      + simpl app. unfold class_step. ex. rewrite (proj2 (N.eqb_neq _ _) H2), (proj2 (N.eqb_neq _ _) H1). reflexivity.
      + lxl.
      + specialize (IH (acc ++ [c]) (p ++ [c])). repeat rewrite <- app_assoc in IH. exact IH.
    - eapply lr_next with (s1 := acc ++ [ch "\"; c]) (L1 := LX (p ++ [ch "\"; c]) (s ++ [ch "]"] ++ after) f).
      + simpl app. unfold class_step. ex. eval_ch. eval_eqb. ex. norm. reflexivity.
      + lxl.
      + specialize (IH (acc ++ [ch "\"; c]) (p ++ [ch "\"; c])). repeat rewrite <- app_assoc in IH. exact IH. }
  apply (G [] pre).
Qed.

Definition regexp_step (span_start : nat) : str -> lm (str + str) := fun result =>
  (let! c := consume in
    let result := result ++ [c] in
    if N.eqb c 0xA then
      let! span_end := position in
      lfail_ (lex_syntax_error "Unterminated regular expression literal" span_start (span_end - 1))
    else if N.eqb c (ch "/") then ret (inr result)
    else if N.eqb c (ch "\") then
      let! n := current in
      if is_ecma_line_terminator n then ret (inl result)
      else let! e := consume in ret (inl (result ++ [e]))
    else if N.eqb c (ch "[") then
      let! g := read_regexp_group_body in ret (inl (result ++ g))
    else ret (inl result))%lm.

(** Line terminators other than LF are ordinary characters of a regexp. *)
Lemma lt_ordinary c : line_term c -> c <> 0xA%N -> c <> ch "/" /\ c <> ch "\" /\ c <> ch "[".
Proof.
  intros H Hc. unfold line_term in H. simpl in H. destruct H as [<-|[<-|[<-|[<-|[]]]]];
    try congruence; repeat split; discriminate.
Qed.

Lemma read_regexp_fwd s flags after pre f :
  regexp_body s -> (forall c, In c flags -> id_part_char c) -> ~ starts id_part_char after ->
  read_regexp_literal (LX pre (chars "/" ++ s ++ chars "/" ++ flags ++ after) f) =
    (Ok (VLiteral (TLRegexp (chars "/" ++ s ++ chars "/" ++ flags))),
     LX (pre ++ chars "/" ++ s ++ chars "/" ++ flags) after f).
Proof.
  intros Hs Hf Ha. unfold read_regexp_literal.
  change (chars "/") with [ch "/"]. simpl app. ex. rewrite N.eqb_refl, bind_debug_assert. ex.
  fold (regexp_step (rpos pre)). generalize (rpos pre) as ss. intros ss.
  assert (Hord : forall acc c r p, c <> 0xA%N -> c <> ch "/" -> c <> ch "\" -> c <> ch "[" ->
    regexp_step ss acc (LX p (c :: r) f) = (Ok (inl (acc ++ [c])), LX (p ++ [c]) r f)).
  { intros acc c r p H1 H2 H3 H4. unfold regexp_step. ex.
    rewrite (proj2 (N.eqb_neq _ _) H1), (proj2 (N.eqb_neq _ _) H2), (proj2 (N.eqb_neq _ _) H3),
      (proj2 (N.eqb_neq _ _) H4). reflexivity. }
  assert (G : forall acc p, loop_runs (regexp_step ss) acc (LX p (s ++ ch "/" :: flags ++ after) f)
                (acc ++ s ++ [ch "/"]) (LX (p ++ s ++ [ch "/"]) (flags ++ after) f)).
  { induction Hs as [|c s H1 H2 H3 H4 Hs IH|c s H1 Hs IH|k s Hk Hs IH]; intros acc p.
    - apply lr_done. simpl app. unfold regexp_step. ex. change (ch "/" =? 10)%N with false.
      rewrite N.eqb_refl. reflexivity.
    - eapply lr_next; [simpl app; apply Hord; auto|lxl|].
      specialize (IH (acc ++ [c]) (p ++ [c])). repeat rewrite <- app_assoc in IH. exact IH.
    - destruct (is_ecma_line_terminator c) eqn:Ec.
      + eapply lr_next with (s1 := acc ++ [ch "\"]) (L1 := LX (p ++ [ch "\"]) (c :: s ++ ch "/" :: flags ++ after) f).
        * simpl app. unfold regexp_step. ex. eval_ch. eval_eqb. ex. rewrite Ec. reflexivity.
        * lxl.
        * apply line_term_iff in Ec. destruct (lt_ordinary c Ec H1) as (? & ? & ?).
          eapply lr_next; [apply Hord; auto|lxl|].
          specialize (IH ((acc ++ [ch "\"]) ++ [c]) ((p ++ [ch "\"]) ++ [c])). repeat rewrite <- app_assoc in IH.
          repeat rewrite <- app_assoc. exact IH.
      + eapply lr_next with (s1 := (acc ++ [ch "\"]) ++ [c]) (L1 := LX ((p ++ [ch "\"]) ++ [c]) (s ++ ch "/" :: flags ++ after) f).
        * simpl app. unfold regexp_step. ex. eval_ch. eval_eqb. ex. rewrite Ec. ex. reflexivity.
        * lxl.
        * specialize (IH ((acc ++ [ch "\"]) ++ [c]) ((p ++ [ch "\"]) ++ [c])). repeat rewrite <- app_assoc in IH.
          repeat rewrite <- app_assoc. exact IH.
    - eapply lr_next with (s1 := (acc ++ [ch "["]) ++ k ++ [ch "]"])
        (L1 := LX ((p ++ [ch "["]) ++ k ++ [ch "]"]) (s ++ ch "/" :: flags ++ after) f).
      + replace ((chars "[" ++ k ++ chars "]" ++ s) ++ ch "/" :: flags ++ after)
          with (ch "[" :: k ++ [ch "]"] ++ s ++ ch "/" :: flags ++ after) by (simpl chars; norm; reflexivity).
        unfold regexp_step. ex. change (ch "[" =? 10)%N with false.
        change (ch "[" =? ch "/")%N with false. change (ch "[" =? ch "\")%N with false.
        rewrite N.eqb_refl. erewrite bind_ok by (apply read_class_fwd; exact Hk). reflexivity.
      + lxl.
      + specialize (IH ((acc ++ [ch "["]) ++ k ++ [ch "]"]) ((p ++ [ch "["]) ++ k ++ [ch "]"])).
        change (chars "[") with [ch "["]. change (chars "]") with [ch "]"].
        repeat rewrite <- app_assoc in IH. repeat rewrite <- app_assoc. exact IH. }
  erewrite bind_ok by (apply loop_runs_eq, G).
  erewrite bind_ok.
  2:{ apply read_while_fwd.
      - intros c Hc. apply id_part_iff. auto.
      - intros (c & r & -> & Hc). apply Ha. exists c, r. split; auto. now apply id_part_iff. }
  norm. reflexivity.
Qed.

(** ** Templates *)

Definition template_step : str * bool -> lm ((str * bool) + (str * template_ending)) :=
  fun s => (
    let '(result, escape) := s in
    let! c := consume in
    if (negb escape && N.eqb c (ch "`"))%bool then ret (inr (result, TEBacktick)) else
    let! dollar :=
      (if (negb escape && N.eqb c (ch "$"))%bool
       then let! n := current in ret (N.eqb n (ch "{")) else ret false) in
    if (dollar : bool) then consume;; ret (inr (result, TEDollarBrace))
    else
      let escape' := (N.eqb c (ch "\") && negb escape)%bool in
      ret (inl (if escape' then result else result ++ [c], escape')))%lm.

Lemma template_body_fwd tail s v after f e r' L' :
  tail <> [] -> template_body tail s v ->
  (forall acc p, loop_runs template_step (acc, false) (LX p (tail ++ after) f) (acc ++ r', e) (L' p)) ->
  forall acc p, loop_runs template_step (acc, false) (LX p (s ++ tail ++ after) f) (acc ++ v ++ r', e)
    (L' (p ++ s)).
Proof.
  intros Ht Hs Hend.
  induction Hs as [|c s v H1 H2 H3 Hs IH|c s v Hs IH]; intros acc p.
  - rewrite app_nil_r. apply Hend.
  - eapply lr_next with (s1 := (acc ++ [c], false)) (L1 := LX (p ++ [c]) (s ++ tail ++ after) f).
    + simpl app. unfold template_step. ex. cbn [negb andb]. rewrite (proj2 (N.eqb_neq _ _) H1).
      destruct (N.eqb_spec c (ch "$")) as [->|Hd].
      * assert (Hn : exists n r, s ++ tail = n :: r) by (destruct s, tail; simpl; eauto; congruence).
        destruct Hn as (n & r & En). rewrite app_assoc, En. simpl app. ex.
        destruct (N.eqb_spec n (ch "{")) as [->|].
        { exfalso. apply (H3 eq_refl). exists r. exact En. }
        rewrite (proj2 (N.eqb_neq _ _) H2). reflexivity.
      * ex. rewrite (proj2 (N.eqb_neq _ _) H2). reflexivity.
    + lxl.
    + specialize (IH (acc ++ [c]) (p ++ [c])). repeat rewrite <- app_assoc in IH. exact IH.
  - eapply lr_next with (s1 := (acc, true)) (L1 := LX (p ++ [ch "\"]) (c :: s ++ tail ++ after) f).
    + simpl app. unfold template_step. ex. cbn [negb andb]. eval_ch. eval_eqb. ex. reflexivity.
    + lxl.
    + eapply lr_next with (s1 := (acc ++ [c], false)) (L1 := LX ((p ++ [ch "\"]) ++ [c]) (s ++ tail ++ after) f).
      * unfold template_step. ex. cbn [negb andb]. ex. rewrite andb_false_r. reflexivity.
      * lxl.
      * specialize (IH (acc ++ [c]) ((p ++ [ch "\"]) ++ [c])). repeat rewrite <- app_assoc in IH.
        rewrite <- !app_assoc. exact IH.
Qed.

Lemma template_end_fwd after f acc p :
  loop_runs template_step (acc, false) (LX p (chars "`" ++ after) f) (acc ++ [], TEBacktick)
    (LX (p ++ chars "`") after f).
Proof.
  apply lr_done. change (chars "`") with [ch "`"]. simpl app. unfold template_step. ex.
  cbn [negb andb]. rewrite N.eqb_refl, app_nil_r. reflexivity.
Qed.

Lemma template_subst_fwd after f acc p :
  loop_runs template_step (acc, false) (LX p (chars "${" ++ after) f) (acc ++ [], TEDollarBrace)
    (LX (p ++ chars "${") after f).
Proof.
  apply lr_done. change (chars "${") with [ch "$"; ch "{"]. simpl app. unfold template_step. ex.
  cbn [negb andb]. eval_ch. eval_eqb. ex. eval_eqb. ex. rewrite app_nil_r. norm. reflexivity.
Qed.

Lemma template_chunk_fwd s v b after pre f :
  template_chunk s v b ->
  read_until_end_of_template_literal_part (LX pre (s ++ after) f) =
    (Ok (v, if b then TEDollarBrace else TEBacktick), LX (pre ++ s) after f).
Proof.
  intros Hs. unfold read_until_end_of_template_literal_part. fold template_step. apply loop_runs_eq.
  destruct Hs as [s v Hs|s v Hs]; rewrite <- app_assoc.
  - pose proof (template_body_fwd (chars "`") s v after f TEBacktick [] (fun p => LX (p ++ chars "`") after f)
      ltac:(discriminate) Hs (template_end_fwd after f) [] pre) as H.
    rewrite !app_nil_r in H. simpl app in H. rewrite <- app_assoc in H. exact H.
  - pose proof (template_body_fwd (chars "${") s v after f TEDollarBrace [] (fun p => LX (p ++ chars "${") after f)
      ltac:(discriminate) Hs (template_subst_fwd after f) [] pre) as H.
    rewrite !app_nil_r in H. simpl app in H. rewrite <- app_assoc in H. exact H.
Qed.

Lemma read_template_head_fwd s v b after pre f :
  template_chunk s v b ->
  read_template_literal_head (LX pre (chars "`" ++ s ++ after) f) =
    (Ok (if b then VTemplateHead v else VLiteral (TLTemplate v)), LX (pre ++ chars "`" ++ s) after f).
Proof.
  intros Hs. unfold read_template_literal_head. change (chars "`") with [ch "`"]. simpl app. ex.
  rewrite N.eqb_refl, bind_debug_assert. erewrite bind_ok by (apply template_chunk_fwd; eauto).
  destruct b; norm; reflexivity.
Qed.

Lemma read_template_cont_fwd s v after pre f :
  template_continue s v ->
  read_template_literal_middle_or_tail (LX pre (s ++ after) f) =
    (Ok (mk_token v false (mk_span (rpos pre) (rpos (pre ++ s)))), LX (pre ++ s) after f).
Proof.
  intros Hs. unfold read_template_literal_middle_or_tail.
  assert (G : forall s v b, template_chunk s v b ->
    (let! span_start := position in
    let! start := consume in
    if negb (N.eqb start (ch "}")) then
    lfail_ (lex_syntax_error "Expected '}' in template expression" span_start (span_start + 1))
  else
    let! p := read_until_end_of_template_literal_part in
    let! span_end := position in
    ret (mk_token (match p with
                   | (value, TEDollarBrace) => VTemplateMiddle value
                   | (value, TEBacktick) => VTemplateTail value
                   end) false (mk_span span_start span_end)))%lm (LX pre ((chars "}" ++ s) ++ after) f) =
    (Ok (mk_token (if b then VTemplateMiddle v else VTemplateTail v) false
           (mk_span (rpos pre) (rpos (pre ++ chars "}" ++ s)))), LX (pre ++ chars "}" ++ s) after f)).
  { intros s0 v0 b Hc. change (chars "}") with [ch "}"]. rewrite <- app_assoc. simpl app. ex.
    rewrite N.eqb_refl. cbn [negb]. erewrite bind_ok by (apply template_chunk_fwd; eauto).
    ex. destruct b; norm; reflexivity. }
  destruct Hs as [s v Hc|s v Hc]; apply G in Hc; exact Hc.
Qed.

End Forward.
