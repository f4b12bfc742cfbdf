(** * LexProps: consequences of the lexer's correctness, used by [PropLexer.v]. *)

From Verif Require Import Base Tokens PeekReader CharReader Lexer LexSpec LexChars LexerFacts
  LexSound LexSound2 LexSound3 LexComplete LexComplete2 LexComplete3 LexComplete4 LexComplete5
  LexComplete6.
Local Open Scope string_scope.
Local Open Scope list_scope.

(** ** Observations *)

Section Obs.
Context {PF : Platform}.

(** A new lexer for source [D] in state [st]. *)
Definition start (D : str) (st : lexer_state) : lexer := lexer_set_state st (lexer_new D).

(** [reads L ts L']: successive successful calls of [read], with the state
    (mode) possibly changed by the caller in between, return [ts]. *)
Inductive reads : lexer -> list token -> lexer -> Prop :=
| reads_nil L : reads L [] L
| reads_token L t L1 ts L2 : read L = (Ok t, L1) -> reads L1 ts L2 -> reads L (t :: ts) L2
| reads_state L st ts L2 : reads (lexer_set_state st L) ts L2 -> reads L ts L2.

(** The part of [D] between two character offsets. *)
Definition sub (D : str) (a b : nat) : str := firstn (b - a) (skipn a D).

(** [tiles st f off D ts]: the text [D], which starts at offset [off], is trivia
    and lexemes alternately, and [ts] are the tokens of those lexemes. *)
Inductive tiles (st : lexer_state) : bool -> nat -> str -> list token -> Prop :=
| tiles_end f off gap f' :
    trivia (html_comment_allowed st) f gap [] f' -> tiles st f off gap []
| tiles_token f off gap s after v f' ts :
    trivia (html_comment_allowed st) f gap (s ++ after) f' ->
    lexeme st s after v ->
    tiles st false (off + length gap + length s) after ts ->
    tiles st f off (gap ++ s ++ after)
      (mk_token v f' (mk_span (off + length gap) (off + length gap + length s)) :: ts).

(** [spelled st f D vs]: [D] is trivia and lexemes alternately, and [vs] are
    the values of the lexemes, each with whether a line terminator precedes. *)
Inductive spelled (st : lexer_state) : bool -> str -> list (tvalue * bool) -> Prop :=
| spelled_end f gap f' :
    trivia (html_comment_allowed st) f gap [] f' -> spelled st f gap []
| spelled_token f gap s after v f' vs :
    trivia (html_comment_allowed st) f gap (s ++ after) f' -> ~ starts_comment (s ++ after) ->
    lexeme st s after v ->
    (f' = true -> v = VPunct PDoubleMinus -> ~ prefix (chars ">") after) ->
    spelled st false after vs ->
    spelled st f (gap ++ s ++ after) ((v, f') :: vs).

Definition value_fol (t : token) : tvalue * bool := (t_value t, t_fol t).

(** ** Lemmas *)

Lemma start_LX D st : start D st = LX D st [] D true.
Proof. reflexivity. Qed.

Lemma set_state_LX D st st' pre rest f : lexer_set_state st' (LX D st pre rest f) = LX D st' pre rest f.
Proof. reflexivity. Qed.

Lemma template_continue_nonempty s v : template_continue s v -> s <> [].
Proof. intros [s' v' _|s' v' _]; discriminate. Qed.

Lemma lexeme_nonempty st s after v : lexeme st s after v -> s <> [].
Proof. intros H. apply lexeme_head in H. destruct H as (c & r & -> & _). discriminate. Qed.

(** A successful read, as text. *)
Lemma read_ok D st pre rest f t L' :
  D = pre ++ rest -> read (LX D st pre rest f) = (Ok t, L') ->
  exists gap s after f',
    rest = gap ++ s ++ after /\ s <> [] /\ L' = LX D st (pre ++ gap ++ s) after f' /\
    t_span t = mk_span (rpos (pre ++ gap)) (rpos (pre ++ gap ++ s)) /\
    (if inside_template st then gap = [] /\ f' = f /\ t_fol t = false /\ template_continue s (t_value t)
     else f' = false /\ trivia (html_comment_allowed st) f gap (s ++ after) (t_fol t) /\
          ~ starts_comment (s ++ after) /\ lexeme st s after (t_value t) /\
          (t_fol t = true -> t_value t = VPunct PDoubleMinus -> ~ prefix (chars ">") after)).
Proof.
  intros HD H. pose proof (read_spec D st pre rest f) as R. rewrite H in R.
  destruct R as (p & r & g & -> & E & R). rewrite <- HD in *.
  destruct (inside_template st) eqn:Ht.
  - destruct R as [s after v ED Hs]. rewrite ED in HD. apply app_inv_head in HD. subst rest.
    exists [], s, after, f. simpl.
    assert (r = after).
    { rewrite ED in E. rewrite <- app_assoc in E. apply app_inv_head, app_inv_head in E. auto. }
    subst r. rewrite app_nil_r. repeat split; auto. now apply template_continue_nonempty in Hs.
  - destruct R as [gap s after v f1 _ ED Hg Hc Hs Hm]. rewrite ED in HD. apply app_inv_head in HD. subst rest.
    exists gap, s, after, false.
    assert (r = after).
    { rewrite ED in E. rewrite <- !app_assoc in E. apply app_inv_head, app_inv_head, app_inv_head in E. auto. }
    subst r. simpl. repeat split; auto. now apply lexeme_nonempty in Hs.
Qed.

Lemma reads_inv D L ts L' :
  reads L ts L' -> forall st pre rest f, L = LX D st pre rest f -> D = pre ++ rest ->
  exists st' x rest' f', L' = LX D st' (pre ++ x) rest' f' /\ rest = x ++ rest'.
Proof.
  induction 1 as [L|L t L1 ts L2 Hr _ IH|L st0 ts L2 _ IH]; intros st pre rest f -> HD.
  - exists st, [], rest, f. rewrite app_nil_r. auto.
  - destruct (read_ok _ _ _ _ _ _ _ HD Hr) as (gap & s & after & f' & -> & Hs & -> & _ & _).
    destruct (IH st (pre ++ gap ++ s) after f' eq_refl) as (st' & x & rest' & f'' & -> & ->).
    { rewrite HD. norm. reflexivity. }
    exists st', (gap ++ s ++ x), rest', f''. split; norm; reflexivity.
  - rewrite set_state_LX in IH. eauto.
Qed.

Lemma reads_start_inv D st ts L :
  reads (start D st) ts L ->
  exists st' pre rest f, L = LX D st' pre rest f /\ D = pre ++ rest.
Proof.
  intros H. destruct (reads_inv D _ _ _ H st [] D true) as (st' & x & rest & f & -> & E); auto.
  exists st', x, rest, f. auto.
Qed.

Lemma read_no_abort D st pre rest f :
  (exists t L', read (LX D st pre rest f) = (Ok t, L')) \/
  (exists e L', read (LX D st pre rest f) = (Err (LFail e), L')).
Proof.
  pose proof (read_spec D st pre rest f) as R.
  destruct (read (LX D st pre rest f)) as [[t|[e| |]] L']; try contradiction; eauto.
Qed.

Lemma reads_bound D L ts L' :
  reads L ts L' -> forall st pre rest f, L = LX D st pre rest f -> D = pre ++ rest ->
  length ts + length (lx_rest L') <= length rest.
Proof.
  induction 1 as [L|L t L1 ts L2 Hr _ IH|L st0 ts L2 _ IH]; intros st pre rest f -> HD.
  - change (lx_rest (LX D st pre rest f)) with rest. simpl. lia.
  - destruct (read_ok _ _ _ _ _ _ _ HD Hr) as (gap & s & after & f' & -> & Hs & -> & _ & _).
    specialize (IH st (pre ++ gap ++ s) after f' eq_refl).
    rewrite HD in IH. norm. specialize (IH eq_refl).
    rewrite !app_length. destruct s; [congruence|]. simpl. lia.
  - rewrite set_state_LX in IH. eauto.
Qed.

Lemma read_all_total D st n : forall pre rest f,
  D = pre ++ rest -> length rest < n ->
  (exists ts L', read_all_fuel n (LX D st pre rest f) = (Ok ts, L') /\ length ts <= length rest) \/
  (exists e L', read_all_fuel n (LX D st pre rest f) = (Err (LFail e), L')).
Proof.
  induction n as [|n IH]; intros pre rest f HD Hn; [lia|]. cbn [read_all_fuel].
  pose proof (read_spec D st pre rest f) as R.
  destruct (read (LX D st pre rest f)) as [[t|[e| |]] L'] eqn:Er; try contradiction.
  - destruct (read_ok _ _ _ _ _ _ _ HD Er) as (gap & s & after & f' & -> & Hs & -> & _ & _).
    assert (Hlt : length after < length (gap ++ s ++ after)).
    { rewrite !app_length. destruct s; [congruence|]. simpl. lia. }
    destruct (IH (pre ++ gap ++ s) after f') as [(ts & L2 & E & Hl)|(e & L2 & E)].
    + rewrite HD. norm. reflexivity.
    + lia.
    + left. rewrite E. eexists; eexists. split; [reflexivity|]. simpl. lia.
    + right. rewrite E. eauto.
  - destruct (le_kind e); eauto. left. exists [], L'. split; auto. simpl. lia.
Qed.

(** Spans of successive tokens. *)
Lemma reads_spans D L ts L' :
  reads L ts L' -> forall st pre rest f, L = LX D st pre rest f -> D = pre ++ rest ->
  Forall (fun t => rpos pre <= tstart t /\ tstart t < tend t /\ tend t <= rpos D) ts /\
  ForallOrdPairs (fun a b => tend a <= tstart b) ts.
Proof.
  induction 1 as [L|L t L1 ts L2 Hr _ IH|L st0 ts L2 _ IH]; intros st pre rest f -> HD.
  - split; constructor.
  - destruct (read_ok _ _ _ _ _ _ _ HD Hr) as (gap & s & after & f' & -> & Hs & -> & Hsp & _).
    destruct (IH st (pre ++ gap ++ s) after f' eq_refl) as [H1 H2].
    { rewrite HD. norm. reflexivity. }
    assert (Ht : rpos pre <= tstart t /\ tstart t < tend t /\ tend t <= rpos D /\
                 tend t = rpos (pre ++ gap ++ s)).
    { unfold tstart, tend. rewrite Hsp. cbn. pose proof (rpos_app_ge pre gap).
      pose proof (rpos_app_ge (pre ++ gap) s) as H3. rewrite <- app_assoc in H3.
      pose proof (rpos_mono (pre ++ gap ++ s) after) as H4. rewrite HD.
      rewrite <- !app_assoc in *. destruct s; [congruence|]. simpl length in H3. repeat split; lia || auto. }
    destruct Ht as (T1 & T2 & T3 & T4). split.
    + constructor; [repeat split; lia|]. eapply Forall_impl; [|exact H1]. cbv beta.
      intros a. lia.
    + constructor; auto. eapply Forall_impl; [|exact H1]. cbv beta. intros a. lia.
  - rewrite set_state_LX in IH. eauto.
Qed.

(** ** Line terminators in trivia *)

Lemma has_lt_app a b : has_line_term (a ++ b) <-> has_line_term a \/ has_line_term b.
Proof.
  unfold has_line_term. split.
  - intros (c & Hc & Hl). apply in_app_or in Hc. destruct Hc; eauto.
  - intros [(c & Hc & Hl)|(c & Hc & Hl)]; exists c; split; auto; apply in_or_app; auto.
Qed.

Lemma has_lt_none (s : str) : forallb (fun c => negb (is_ecma_line_terminator c)) s = true -> ~ has_line_term s.
Proof.
  intros H (c & Hc & Hl). rewrite forallb_forall in H. specialize (H c Hc).
  apply line_term_iff in Hl. rewrite Hl in H. discriminate.
Qed.

Lemma piece_fol html f s after f' :
  piece html f s after f' -> after <> [] -> (f' = true <-> f = true \/ has_line_term s).
Proof.
  intros H Ha. destruct H as [f c after Hc|f c after Hc|f opener body c after Ho Hb Hc
    |f opener body Ho Hb|f body after f' Hb Hf].
  - split; auto. intros [H|(x & [<-|[]] & Hx)]; auto. apply ws_not_lt in Hc.
    apply line_term_iff in Hx. congruence.
  - split; auto. intros _. right. exists c. simpl. auto.
  - split; auto. intros _. right. exists c. split; auto. rewrite !in_app_iff. simpl. auto.
  - congruence.
  - rewrite Hf, !has_lt_app. split; [tauto|]. intros [H|[H|[H|H]]]; auto.
    + exfalso. revert H. apply has_lt_none. reflexivity.
    + exfalso. revert H. apply has_lt_none. reflexivity.
Qed.

Lemma trivia_fol html f s after f' :
  trivia html f s after f' -> after <> [] -> (f' = true <-> f = true \/ has_line_term s).
Proof.
  intros H Ha. induction H as [f after|f s1 s2 after f1 f2 Hp _ IH].
  - split; auto. intros [H|(? & [] & _)]; auto.
  - apply piece_fol in Hp.
    + rewrite (IH Ha), Hp, has_lt_app. tauto.
    + destruct s2; simpl; congruence.
Qed.

(** ** ASCII offsets *)

Lemma ascii_app_inv a b : ascii_str (a ++ b) = true -> ascii_str a = true /\ ascii_str b = true.
Proof. rewrite ascii_str_app, andb_true_iff. auto. Qed.

Lemma lexed_to_tiles D st pre f ts :
  ascii_str D = true -> tokens_from D st pre f ts ->
  forall rest, D = pre ++ rest -> tiles st f (length pre) rest ts.
Proof.
  intros Ha H. induction H as [pre f gap f' E Hg|pre f t pre' f' ts Hl Hts IH]; intros rest HD.
  - rewrite HD in E. apply app_inv_head in E. subst. econstructor; eauto.
  - destruct Hl as [gap s after v f1 _ ED Hg Hc Hs Hm].
    assert (rest = gap ++ s ++ after) by (rewrite HD in ED; now apply app_inv_head in ED). subst rest.
    rewrite !rpos_ascii, !app_length, Nat.add_assoc.
    2:{ rewrite ED in Ha. replace (pre ++ gap ++ s ++ after) with ((pre ++ gap ++ s) ++ after) in Ha
          by (norm; reflexivity). now apply ascii_app_inv in Ha. }
    2:{ rewrite ED in Ha. replace (pre ++ gap ++ s ++ after) with ((pre ++ gap) ++ s ++ after) in Ha
          by (norm; reflexivity). now apply ascii_app_inv in Ha. }
    econstructor; eauto.
    specialize (IH after). rewrite !app_length, Nat.add_assoc in IH. apply IH.
    rewrite ED. norm. reflexivity.
Qed.

Lemma sub_app (a b c : str) n m :
  n = length a -> m = length a + length b -> sub (a ++ b ++ c) n m = b.
Proof.
  intros -> ->. unfold sub. rewrite skipn_app, skipn_all, Nat.sub_diag. simpl.
  replace (length a + length b - length a) with (length b) by lia.
  rewrite firstn_app, Nat.sub_diag, firstn_all. simpl. apply app_nil_r.
Qed.

Lemma tiles_tokens st f off D ts :
  tiles st f off D ts -> forall x, length x = off ->
  Forall (fun t => lexeme st (sub (x ++ D) (tstart t) (tend t)) (skipn (tend t) (x ++ D)) (t_value t)) ts.
Proof.
  induction 1 as [|f off gap s after v f' ts Hg Hs Ht IH]; intros x Hx; constructor.
  - unfold tstart, tend. cbn [t_span t_value sp_start sp_end]. replace (x ++ gap ++ s ++ after) with ((x ++ gap) ++ s ++ after) by (norm; reflexivity).
    rewrite sub_app by (rewrite ?app_length; lia).
    replace (skipn (off + length gap + length s) ((x ++ gap) ++ s ++ after)) with after; auto.
    rewrite app_assoc, skipn_app, skipn_all2 by (rewrite !app_length; lia).
    rewrite !app_length. replace (_ - _) with 0 by lia. reflexivity.
  - specialize (IH (x ++ gap ++ s)). rewrite <- !app_assoc in IH. apply IH. rewrite !app_length. lia.
Qed.

(** ** Spelling *)

Lemma spelled_tokens D st f rest vs :
  inside_template st = false ->
  spelled st f rest vs -> forall pre, D = pre ++ rest ->
  exists ts, tokens_from D st pre f ts /\ map value_fol ts = vs.
Proof.
  intros Hin. induction 1 as [f gap f' Hg|f gap s after v f' vs Hg Hc Hs Hm H IH]; intros pre HD.
  - exists []. split; auto. econstructor; eauto.
  - destruct (IH (pre ++ gap ++ s)) as (ts & Ht & Hv).
    { rewrite HD. norm. reflexivity. }
    eexists (_ :: ts). split; [eapply tf_token; [eapply lexed_intro; eauto|exact Ht]|].
    simpl. rewrite Hv. reflexivity.
Qed.

Lemma tokens_spelled D st pre f ts :
  tokens_from D st pre f ts -> forall rest, D = pre ++ rest -> spelled st f rest (map value_fol ts).
Proof.
  induction 1 as [pre f gap f' E Hg|pre f t pre' f' ts Hl Hts IH]; intros rest HD.
  - rewrite HD in E. apply app_inv_head in E. subst. econstructor; eauto.
  - destruct Hl as [gap s after v f1 _ ED Hg Hc Hs Hm].
    assert (rest = gap ++ s ++ after) by (rewrite HD in ED; now apply app_inv_head in ED). subst rest.
    simpl. econstructor; eauto. apply IH. rewrite ED. norm. reflexivity.
Qed.

(** ** Rewinding *)

(** Reading a token again from its start. *)
Lemma reread D st pre rest f t L' :
  D = pre ++ rest -> ascii_str D = true -> inside_template st = false ->
  read (LX D st pre rest f) = (Ok t, L') ->
  exists L0, (forall L, lx_data L = D -> lx_state L = st -> lexer_rewind_before t L = Some L0) /\
    read L0 = (Ok t, L').
Proof.
  intros HD Ha Hin Hr.
  destruct (read_ok _ _ _ _ _ _ _ HD Hr) as (gap & s & after & f' & -> & Hs & -> & Hsp & H).
  rewrite Hin in H. destruct H as (-> & Hg & Hc & Hl & Hm).
  assert (HD' : D = (pre ++ gap) ++ s ++ after) by (rewrite HD; norm; reflexivity).
  assert (Hpa : ascii_str (pre ++ gap) = true) by (rewrite HD' in Ha; now apply ascii_app_inv in Ha).
  exists (LX D st (pre ++ gap) (s ++ after) (t_fol t)). split.
  - intros L HL1 HL2. unfold lexer_rewind_before, lexer_seek. rewrite HL1, HL2, Hsp. cbn [sp_start].
    rewrite rpos_ascii by exact Hpa. rewrite <- (blen_ascii _ Hpa). rewrite HD' at 1.
    rewrite slice_from_app. unfold set_fol_, cr_at, LX. cbn. rewrite (rpos_ascii _ Hpa), (blen_ascii _ Hpa).
    rewrite ?HL1, ?HL2. reflexivity.
  - assert (Hx : lexed D st (pre ++ gap) (t_fol t)
                   (mk_token (t_value t) (t_fol t) (mk_span (rpos ((pre ++ gap) ++ [])) (rpos ((pre ++ gap) ++ [] ++ s))))
                   ((pre ++ gap) ++ [] ++ s) false).
    { eapply lexed_intro with (after := after); eauto. constructor. }
    destruct (read_complete D st _ _ _ _ _ _ HD' Hx) as (r' & E & Hr').
    rewrite Hr'. rewrite !app_nil_r in *. simpl app in *. rewrite <- !app_assoc in *.
    destruct t as [tv tf tsp]. cbn in Hsp. subst tsp. cbn.
    rewrite HD in E. apply app_inv_head, app_inv_head, app_inv_head in E. subst r'. reflexivity.
Qed.

End Obs.

(** ** Lexemes before blanks *)

Section Blanks.
Context {PF : Platform}.

Lemma id_part_not_gap c : id_part_char c -> ~ (white_space c \/ line_term c).
Proof.
  intros H G. destruct (N.ltb_spec c 128) as [Hc|Hc].
  - pose proof (id_part_ascii c H Hc) as E. unfold white_space, line_term in G. simpl in G.
    intuition (subst; try discriminate; lia).
  - destruct H as [H|[H|[->|[->|[->|[->|H]]]]]].
    + unfold letter in H. simpl in H. revert Hc.
      repeat (destruct H as [<-|H]; [intros Hc; exfalso; revert Hc; clear; lia|]). destruct H.
    + unfold digit in H. simpl in H. revert Hc.
      repeat (destruct H as [<-|H]; [intros Hc; exfalso; revert Hc; clear; lia|]). destruct H.
    + revert Hc. clear. eval_ch. lia.
    + revert Hc. clear. eval_ch. lia.
    + unfold white_space, line_term in G. simpl in G. intuition discriminate.
    + unfold white_space, line_term in G. simpl in G. intuition discriminate.
    + rewrite id_continue_blank in H; [discriminate|]. unfold white_space, line_term in G.
      simpl in G |- *. intuition (subst; tauto || lia).
Qed.

Lemma blank_not (l : str) c :
  forallb (fun x => negb (is_ecma_whitespace x || is_ecma_line_terminator x))%bool l = true ->
  white_space c \/ line_term c -> ~ In c l.
Proof.
  intros Hl Hc Hi. rewrite forallb_forall in Hl. specialize (Hl c Hi).
  apply negb_true_iff, orb_false_iff in Hl. destruct Hl as [H1 H2].
  destruct Hc as [Hc|Hc]; [apply white_space_iff in Hc|apply line_term_iff in Hc]; congruence.
Qed.

(** A lexeme that stands before a space also stands before any blank. *)
Lemma lexeme_before_blank st s v after :
  lexeme st s (chars " ") v -> starts (fun c => white_space c \/ line_term c) after ->
  lexeme st s after v.
Proof.
  intros H (c & r & -> & Hc).
  assert (Hnd : forall P : N -> Prop, (forall x, P x -> In x (chars "0123456789abcdefABCDEF")) ->
     ~ starts P (c :: r)).
  { intros P HP (x & y & E & Hx). injection E as <- _. apply HP in Hx.
    revert Hx. now apply blank_not. }
  assert (Hdig : ~ starts digit (c :: r)).
  { apply Hnd. intros x Hx. unfold digit in Hx. simpl in Hx |- *. tauto. }
  assert (Hpre : forall l, forallb (fun x => negb (is_ecma_whitespace x || is_ecma_line_terminator x))%bool l = true ->
     forall p, In p l -> ~ prefix [p] (c :: r)).
  { intros l Hl p Hp (x & E). injection E as -> _. revert Hp. now apply blank_not. }
  inversion H as [p a Hl Hd Hr E1 E2 E3|s0 v0 tv a Hw Hwv Ha Hb E1 E2 E3|s0 a Hn Ha E1 E2 E3
      |q s0 v0 a Hq Hs E1 E2 E3|s0 v0 a Hs E1 E2 E3|s0 v0 a Hs E1 E2 E3|s0 fl a Hr Hs Hf Ha E1 E2 E3]; subst.
  - apply lexeme_punct; auto.
    + split.
      * eexists. split; [reflexivity|]. tauto.
      * intros q (s' & E & Hq). apply app_prefix_cases in E.
        destruct E as [(e & E & _)|(e & E & E')].
        -- rewrite E, app_length. lia.
        -- destruct e as [|y e]; [rewrite app_nil_r in E; rewrite E; lia|].
           simpl in E'. injection E' as -> _.
           exfalso. assert (Hy : In y (punct_str q)) by (rewrite E; apply in_or_app; simpl; auto).
           revert Hy. destruct q; apply blank_not; auto; reflexivity.
    + intros ->. split; auto. eapply (Hpre (chars ".")); [reflexivity|simpl; auto].
  - eapply lexeme_word; eauto.
    + intros (x & y & E & Hx). injection E as <- _. now apply (id_part_not_gap c Hx).
    + eapply (Hpre (chars "\")); [reflexivity|simpl; auto].
  - apply lexeme_number.
    + inversion Hn as [p P s1 a1 Hp Hne Hs HnP E1 E2|i fr e a1 Hi Hf He Hst Hz Hd Hdot E1 E2]; subst.
      * apply (number_radix p P); auto. destruct Hp; apply Hnd; intros y Hy;
          unfold hex_digit, octal_digit, binary_digit in Hy; simpl in Hy |- *; tauto.
      * apply number_decimal; auto. intros _ _. eapply (Hpre (chars ".")); [reflexivity|simpl; auto].
    + intros (x & y & E & Hx). injection E as <- _. apply id_start_part in Hx.
      now apply (id_part_not_gap c Hx).
  - now apply lexeme_string.
  - now apply lexeme_template_plain.
  - now apply lexeme_template_head.
  - apply lexeme_regexp; auto.
    intros (x & y & E & Hx). injection E as <- _. now apply (id_part_not_gap c Hx).
Qed.

(** A nonempty text of white space and line terminators. *)
Definition blank_text (g : str) : Prop := g <> [] /\ forall c, In c g -> white_space c \/ line_term c.

Lemma blank_trivia html f g after :
  (forall c, In c g -> white_space c \/ line_term c) -> exists f', trivia html f g after f'.
Proof.
  revert f. induction g as [|c g IH]; intros f H.
  - exists f. constructor.
  - destruct (H c (or_introl eq_refl)) as [Hc|Hc].
    + destruct (IH f) as (f' & Hf); [intros; apply H; right; auto|].
      exists f'. apply (trivia_cons html f [c] g after f f'); auto. now constructor.
    + destruct (IH true) as (f' & Hf); [intros; apply H; right; auto|].
      exists f'. apply (trivia_cons html f [c] g after true f'); auto. now constructor.
Qed.

(** Texts (with the blank before each) put one after the other, then [final]. *)
Fixpoint joined (items : list (str * str * tvalue)) (final : str) : str :=
  match items with
  | [] => final
  | (g, s, _) :: items' => g ++ s ++ joined items' final
  end.

Lemma joined_spelled st items final :
  (forall g s v, In (g, s, v) items ->
     blank_text g /\ lexeme st s (chars " ") v /\ ~ starts_comment s) ->
  blank_text final ->
  forall f, exists fs, spelled st f (joined items final) (combine (map snd items) fs) /\
     length fs = length items.
Proof.
  intros H Hf. induction items as [|[[g s] v] items IH]; intros f.
  - destruct Hf as [_ Hf]. destruct (blank_trivia (html_comment_allowed st) f final [] Hf) as (f' & Ht).
    exists []. split; auto. simpl. econstructor; eauto.
  - destruct (H g s v (or_introl eq_refl)) as ((Hg1 & Hg2) & Hl & Hc).
    destruct (blank_trivia (html_comment_allowed st) f g (s ++ joined items final) Hg2) as (f' & Ht).
    destruct IH with (f := false) as (fs & Hs & Hfs); [intros; apply H; right; auto|].
    assert (Hb : starts (fun c => white_space c \/ line_term c) (joined items final)).
    { destruct items as [|[[g2 s2] v2] items]; simpl.
      - destruct Hf as [Hn Hf]. destruct final as [|c final]; [congruence|].
        exists c, final. split; auto. apply Hf. left. auto.
      - destruct (H g2 s2 v2) as ((Hn & Hg) & _); [simpl; auto|].
        destruct g2 as [|c g2]; [congruence|]. eexists; eexists. split; [reflexivity|]. apply Hg. left. auto. }
    exists (f' :: fs). split; [|simpl; lia]. simpl. econstructor; eauto.
    + intros Hsc. apply Hc. pose proof (lexeme_nonempty _ _ _ _ Hl) as Hne.
      destruct s as [|a s]; [congruence|]. destruct s as [|b s].
      * exfalso. destruct Hb as (x & y & E & Hx). rewrite E in Hsc.
        assert (Hx2 : In x (chars "/*!")) by
          (destruct Hsc as [(z & Ez)|[(z & Ez)|(z & Ez)]]; injection Ez as _ -> _; simpl; auto).
        revert Hx2. now apply blank_not.
      * destruct Hsc as [(z & Ez)|[(z & Ez)|(z & Ez)]]; injection Ez as -> -> _;
          [left|right; left|right; right]; exists s; reflexivity.
    + now apply lexeme_before_blank.
    + intros _ _ (z & Ez). destruct Hb as (x & y & E & Hx). rewrite E in Ez. injection Ez as -> _.
      apply (blank_not (chars ">") 62%N) in Hx; [|reflexivity]. apply Hx. simpl. auto.
Qed.

End Blanks.
