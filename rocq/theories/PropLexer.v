(** * PropLexer: the lexer properties C01-C13.

    Each theorem's vocabulary is in [LexSpec.v] (the lexical grammar as
    relations on text) and at the top of [LexProps.v] ([start], [reads],
    [tiles], [spelled]); [Lexer.v] is the model of the code. *)

From Verif Require Import Base Tokens PeekReader CharReader Lexer LexSpec LexChars LexerFacts
  LexSound LexSound2 LexSound3 LexComplete LexComplete2 LexComplete3 LexComplete4 LexComplete5
  LexComplete6 LexProps ReaderFacts.
Local Open Scope string_scope.
Local Open Scope list_scope.

(** The concrete platform of the examples. *)
Definition ap : Platform := ascii_platform false.
Definition lex_values (st : lexer_state) (D : str) : option (list (tvalue * bool)) :=
  match @read_all ap (start D st) with (Ok ts, _) => Some (map value_fol ts) | _ => None end.

Section Lexing.
Context {PF : Platform}.

(** ** C01: lexing terminates and makes progress *)

(** Every call of [read] returns a token or an error (it neither panics nor
    runs forever: [LPanic] and [LNoFuel] do not occur). *)
Theorem C01_read_returns D st ts L :
  reads (start D st) ts L ->
  (exists t L', read L = (Ok t, L')) \/ (exists e L', read L = (Err (LFail e), L')).
Proof.
  intros H. destruct (reads_start_inv _ _ _ _ H) as (st' & pre & rest & f & -> & _).
  apply read_no_abort.
Qed.

(** A successful read strictly advances. *)
Theorem C01_read_advances D st ts L t L' :
  reads (start D st) ts L -> read L = (Ok t, L') ->
  length (lx_rest L') < length (lx_rest L) /\ rd_pos (lx_rd L) < rd_pos (lx_rd L').
Proof.
  intros H Hr. destruct (reads_start_inv _ _ _ _ H) as (st' & pre & rest & f & -> & HD).
  destruct (read_ok _ _ _ _ _ _ _ HD Hr) as (gap & s & after & f' & -> & Hs & -> & _ & _).
  cbn. split.
  - rewrite !app_length. destruct s; [congruence|]. simpl. lia.
  - pose proof (rpos_app_ge pre (gap ++ s)) as H1. rewrite app_length in H1.
    destruct s; [congruence|]. simpl length in H1. lia.
Qed.

(** At most one token per character, in any sequence of reads and mode changes. *)
Theorem C01_token_count D st ts L : reads (start D st) ts L -> length ts <= length D.
Proof.
  intros H. pose proof (reads_bound D _ _ _ H st [] D true eq_refl eq_refl). lia.
Qed.

(** [read_all] returns. *)
Theorem C01_read_all_returns D st :
  (exists ts L', read_all (start D st) = (Ok ts, L') /\ length ts <= length D) \/
  (exists e L', read_all (start D st) = (Err (LFail e), L')).
Proof.
  pose proof (read_all_total D st (S (length D)) [] D true eq_refl (Nat.lt_succ_diag_r _)) as H.
  rewrite start_LX. exact H.
Qed.

(** ** C02: token spans are ordered, disjoint and inside the source *)

Theorem C02_spans D st ts L :
  reads (start D st) ts L ->
  Forall (fun t => tstart t < tend t /\ tend t <= blen D) ts /\
  ForallOrdPairs (fun a b => tend a <= tstart b) ts.
Proof.
  intros H. destruct (reads_spans D _ _ _ H st [] D true eq_refl eq_refl) as [H1 H2].
  split; auto. eapply Forall_impl; [|exact H1]. cbv beta. intros t Ht.
  pose proof (rpos_le D). lia.
Qed.

(** ** C03: tokens tile the source text *)

(** [read_all] succeeds exactly on the texts of the lexical grammar, with the
    tokens the grammar assigns to the text. *)
Theorem C03_read_all_exact D st ts :
  inside_template st = false ->
  ((exists L', read_all (start D st) = (Ok ts, L')) <-> tokens_from D st [] true ts).
Proof. intros Ht. rewrite start_LX. exact (read_all_spec D st [] D true ts Ht eq_refl). Qed.

(** ASCII: the source is its tokens' texts and the trivia between them. *)
Theorem C03_tokens_tile D st ts L' :
  ascii_str D = true -> inside_template st = false ->
  read_all (start D st) = (Ok ts, L') -> tiles st true 0 D ts.
Proof.
  intros Ha Ht H. apply (lexed_to_tiles D st [] true ts Ha).
  - apply C03_read_all_exact; eauto.
  - reflexivity.
Qed.

(** ASCII: slicing the source with a token's span gives that token's lexeme. *)
Theorem C03_token_text D st ts L' :
  ascii_str D = true -> inside_template st = false ->
  read_all (start D st) = (Ok ts, L') ->
  Forall (fun t => lexeme st (sub D (tstart t) (tend t)) (skipn (tend t) D) (t_value t)) ts.
Proof.
  intros Ha Ht H. apply (tiles_tokens st true 0 D ts) with (x := []); auto.
  eapply C03_tokens_tile; eauto.
Qed.

(** ** C04: spans are byte offsets only after ASCII characters *)

(** For ASCII text every token can be sought to, at the offset of its first
    character.  (What is missing: any source; see the refutation below.) *)
Theorem C04_boundaries_partial D st ts L t :
  ascii_str D = true -> reads (start D st) ts L -> In t ts ->
  slice_from D (tstart t) = Some (skipn (tstart t) D) /\
  slice_from D (tend t) = Some (skipn (tend t) D).
Proof.
  intros Ha H Hin.
  assert (G : forall n, n <= length D -> slice_from D n = Some (skipn n D)).
  { intros n Hn. pose proof (firstn_skipn n D) as E.
    assert (Hf : ascii_str (firstn n D) = true) by (rewrite <- E in Ha; now apply ascii_app_inv in Ha).
    pose proof (slice_from_app (firstn n D) (skipn n D)) as S. rewrite E in S.
    rewrite (blen_ascii _ Hf), firstn_length_le in S by lia. exact S. }
  destruct (C02_spans D st ts L H) as [H1 _]. rewrite Forall_forall in H1. specialize (H1 t Hin).
  rewrite (blen_ascii _ Ha) in H1. split; apply G; lia.
Qed.

(** The exact condition, for any text: the reported start of a token is its
    byte offset if and only if the character before it is ASCII (or absent). *)
Theorem C04_exact_condition D st ts L t L' :
  reads (start D st) ts L -> read L = (Ok t, L') ->
  exists before text, D = before ++ text ++ lx_rest L' /\
    (tstart t = blen before <-> before = [] \/ is_ascii (last before 0%N) = true).
Proof.
  intros H Hr. destruct (reads_start_inv _ _ _ _ H) as (st' & pre & rest & f & -> & HD).
  destruct (read_ok _ _ _ _ _ _ _ HD Hr) as (gap & s & after & f' & -> & Hs & -> & Hsp & _).
  exists (pre ++ gap), s. split; [rewrite HD; cbn; norm; reflexivity|].
  unfold tstart. rewrite Hsp. cbn [sp_start].
  destruct (list_snoc_cases (pre ++ gap)) as [->|(p & x & ->)].
  - split; auto.
  - rewrite rpos_snoc, blen_app, last_snoc. simpl.
    assert (Hx : len16 x = len8 x <-> is_ascii x = true).
    { unfold len16, len8, is_ascii.
      destruct (N.ltb_spec x 128); destruct (N.ltb_spec x 2048); destruct (N.ltb_spec x 65536);
        split; intros; try lia; try discriminate; auto. }
    rewrite <- Hx. split.
    + intros E. right. lia.
    + intros [E|E]; [destruct p; discriminate|lia].
Qed.

(** ** C05: maximal munch *)

(** A punctuator token is the longest punctuator at the start of the text that
    follows the skipped trivia, and is exactly that text. *)
Theorem C05_longest D st ts L t L' p :
  reads (start D st) ts L -> read L = (Ok t, L') -> t_value t = VPunct p ->
  exists gap after f', lx_rest L = gap ++ punct_str p ++ after /\
    trivia (html_comment_allowed (lx_state L)) (lx_fol L) gap (punct_str p ++ after) f' /\
    longest_punct p (punct_str p ++ after) /\ lx_rest L' = after.
Proof.
  intros H Hr Hv. destruct (reads_start_inv _ _ _ _ H) as (st' & pre & rest & f & -> & HD).
  destruct (read_ok _ _ _ _ _ _ _ HD Hr) as (gap & s & after & f' & -> & Hs & -> & Hsp & R).
  rewrite Hv in R. destruct (inside_template st').
  - destruct R as (_ & _ & _ & R). inversion R.
  - destruct R as (_ & Hg & _ & Hl & _). inversion Hl as [q a Hq|s0 v tv a Hw Hwv| | | | |]; subst.
    + exists gap, after, (t_fol t). auto.
    + destruct Hwv as [(k & _ & E)|(_ & E)]; discriminate E.
Qed.

(** Conversely, wherever the text starts with a punctuator that is not the
    start of a comment, regular expression or number, the token read is the
    longest punctuator. *)
Theorem C05_punctuator_read D st ts L p after :
  reads (start D st) ts L -> inside_template (lx_state L) = false ->
  lx_rest L = punct_str p ++ after ->
  longest_punct p (lx_rest L) ->
  ~ starts_comment (lx_rest L) ->
  (p = PDot -> ~ starts digit after /\ ~ prefix (chars ".") after) ->
  (regex_allowed (lx_state L) = true -> p <> PSlash /\ p <> PSlashEqual) ->
  ~ (p = PDoubleMinus /\ prefix (chars ">") after) ->
  exists t L', read L = (Ok t, L') /\ t_value t = VPunct p /\ lx_rest L' = after.
Proof.
  intros H Hin HE Hl Hc Hd Hr Hm.
  destruct (reads_start_inv _ _ _ _ H) as (st' & pre & rest & f & -> & HD).
  cbn in HE, Hin, Hl, Hc, Hr. subst rest.
  assert (Hx : lexed D st' pre f
     (mk_token (VPunct p) f (mk_span (rpos (pre ++ [])) (rpos (pre ++ [] ++ punct_str p))))
     (pre ++ [] ++ punct_str p) false).
  { eapply lexed_intro with (after := after); auto.
    - constructor.
    - now apply lexeme_punct.
    - intros _ E Hp. injection E as ->. auto. }
  destruct (read_complete D st' _ _ _ _ _ _ HD Hx) as (r & E & R). rewrite R.
  eexists; eexists. split; [reflexivity|]. split; auto. cbn.
  rewrite HD in E. simpl app in E. rewrite <- app_assoc in E.
  apply app_inv_head, app_inv_head in E. auto.
Qed.

(** ** C06: keyword and identifier classification *)

(** A word token's value is the keyword its text denotes, if there is one, and
    otherwise the identifier with that text. *)
Theorem C06_words D st ts L t L' :
  reads (start D st) ts L -> read L = (Ok t, L') ->
  (exists k, t_value t = VKeyword k) \/ (exists w, t_value t = VIdentifier w) ->
  exists gap s v after, lx_rest L = gap ++ s ++ after /\ word s v /\ word_value v (t_value t) /\
    ~ starts id_part_char after /\ lx_rest L' = after.
Proof.
  intros H Hr Hv. destruct (reads_start_inv _ _ _ _ H) as (st' & pre & rest & f & -> & HD).
  destruct (read_ok _ _ _ _ _ _ _ HD Hr) as (gap & s & after & f' & -> & Hs & -> & Hsp & R).
  destruct (inside_template st').
  - destruct R as (_ & _ & _ & R). inversion R as [s' v' _ E1 E2|s' v' _ E1 E2];
      rewrite <- E2 in Hv; destruct Hv as [(k & E)|(k & E)]; discriminate E.
  - destruct R as (_ & Hg & _ & Hl & _).
    inversion Hl as [q a Hq _ _ E1 E2 E3|s0 v tv a Hw Hwv Ha Hb E1 E2 E3|s0 a _ _ E1 E2 E3
      |q s0 v a _ _ E1 E2 E3|s0 v a _ E1 E2 E3|s0 v a _ E1 E2 E3|s0 fl a _ _ _ _ E1 E2 E3]; subst;
      try (rewrite <- E3 in Hv; destruct Hv as [(k & E)|(k & E)]; discriminate E).
    exists gap, s, v, after. auto.
Qed.

(** Conversely every word is read as one token, with that value. *)
Theorem C06_word_read D st ts L s v tv after :
  reads (start D st) ts L -> inside_template (lx_state L) = false ->
  lx_rest L = s ++ after -> word s v -> word_value v tv ->
  ~ starts id_part_char after -> ~ prefix (chars "\") after ->
  exists t L', read L = (Ok t, L') /\ t_value t = tv /\ lx_rest L' = after.
Proof.
  intros H Hin HE Hw Hv Ha Hb.
  destruct (reads_start_inv _ _ _ _ H) as (st' & pre & rest & f & -> & HD).
  cbn in HE, Hin. subst rest.
  assert (Hx : lexed D st' pre f
     (mk_token tv f (mk_span (rpos (pre ++ [])) (rpos (pre ++ [] ++ s)))) (pre ++ [] ++ s) false).
  { eapply lexed_intro with (after := after); auto.
    - constructor.
    - apply word_head in Hw. destruct Hw as (c & r & -> & Hc). intros Hsc.
      assert (Hc2 : In c [47; 60]%N) by (destruct Hsc as [(x & E)|[(x & E)|(x & E)]]; injection E as -> _; simpl; auto).
      destruct Hc as [Hc| ->].
      + revert Hc2. now apply id_start_not.
      + simpl in Hc2. intuition discriminate.
    - eapply lexeme_word; eauto.
    - intros _ -> _. destruct Hv as [(k & _ & E)|(_ & E)]; discriminate E. }
  destruct (read_complete D st' _ _ _ _ _ _ HD Hx) as (r & E & R). rewrite R.
  eexists; eexists. split; [reflexivity|]. split; auto. cbn.
  rewrite HD in E. simpl app in E. rewrite <- app_assoc in E.
  apply app_inv_head, app_inv_head in E. auto.
Qed.

(** The enumerations round-trip through their spellings. *)
Theorem C06_keyword_roundtrip s k : keyword_from_str s = Some k <-> s = keyword_str k.
Proof.
  split.
  - unfold keyword_from_str. intros H. apply find_some in H. destruct H as [_ H].
    now apply str_eqb_eq in H.
  - intros ->. destruct k; reflexivity.
Qed.
Theorem C06_punct_roundtrip s p : punct_from_str s = Some p <-> s = punct_str p.
Proof.
  split.
  - intros H. symmetry. now apply punct_from_str_some.
  - intros ->. destruct p; reflexivity.
Qed.

(** The spellings, in full. *)
Theorem C06_keywords s k : keyword_from_str s = Some k <->
  exists w, s = chars w /\ In (w, k)
    [("await", KAwait); ("as", KAs); ("async", KAsync); ("break", KBreak); ("case", KCase); ("catch", KCatch);
    ("class", KClass); ("const", KConst); ("continue", KContinue); ("debugger", KDebugger); ("default",
    KDefault); ("delete", KDelete); ("do", KDo); ("else", KElse); ("enum", KEnum); ("export", KExport);
    ("extends", KExtends); ("false", KFalse); ("finally", KFinally); ("for", KFor); ("from", KFrom);
    ("function", KFunction); ("get", KGet); ("if", KIf); ("implements", KImplements); ("import", KImport);
    ("in", KIn); ("instanceof", KInstanceof); ("interface", KInterface); ("let", KLet); ("new", KNew); ("null",
    KNull); ("of", KOf); ("package", KPackage); ("private", KPrivate); ("protected", KProtected); ("public",
    KPublic); ("return", KReturn); ("set", KSet); ("static", KStatic); ("super", KSuper); ("switch", KSwitch);
    ("target", KTarget); ("this", KThis); ("throw", KThrow); ("true", KTrue); ("try", KTry); ("typeof",
    KTypeof); ("var", KVar); ("void", KVoid); ("while", KWhile); ("with", KWith); ("yield", KYield)]%string.
Proof.
  rewrite C06_keyword_roundtrip. split.
  - intros ->. exists (keyword_string k). split; [reflexivity|].
    destruct k; simpl; repeat (try (left; reflexivity); right).
  - intros (w & -> & H). simpl in H.
    repeat (destruct H as [H|H]; [injection H as <- <-; reflexivity|]). destruct H.
Qed.
Theorem C06_punctuators s p : punct_from_str s = Some p <->
  exists w, s = chars w /\ In (w, p)
    [("(", PParenOpen); (")", PParenClose); ("[", PBraceOpen); ("]", PBraceClose); ("{", PBracketOpen); ("}",
    PBracketClose); (".", PDot); ("...", PTripleDot); (";", PSemiColon); (",", PComma); ("<", PLessThan); ("<<",
    PDoubleLessThan); (">", PGreaterThan); (">>", PDoubleGreaterThan); (">>>", PTripleGreaterThan); ("=",
    PEqual); ("==", PDoubleEqual); ("<=", PLessEqual); ("<<=", PDoubleLessEqual); (">=", PGreaterEqual); (">>=",
    PDoubleGreaterEqual); (">>>=", PTripleGreaterEqual); ("=>", PEqualGreater); ("!=", PNotEqual); ("+=",
    PPlusEqual); ("-=", PMinusEqual); ("*=", PStarEqual); ("**=", PDoubleStarEqual); ("/=", PSlashEqual); ("%=",
    PPercentEqual); ("|=", PPipeEqual); ("^=", PCaretEqual); ("&=", PAmpersandEqual); ("===", PTripleEqual);
    ("!==", PExclamationDoubleEqual); ("+", PPlus); ("++", PDoublePlus); ("-", PMinus); ("--", PDoubleMinus);
    ("*", PStar); ("**", PDoubleStar); ("/", PSlash); ("%", PPercent); ("&", PAmpersand); ("&&",
    PDoubleAmpersand); ("|", PPipe); ("||", PDoublePipe); ("^", PCaret); ("!", PExclamation); ("~", PTilde);
    ("?", PQuestionMark); ("??", PDoubleQuestionMark); ("?.", PQuestionMarkDot); (":", PColon)]%string.
Proof.
  rewrite C06_punct_roundtrip. split.
  - intros ->. exists (punct_string p). split; [reflexivity|].
    destruct p; simpl; repeat (try (left; reflexivity); right).
  - intros (w & -> & H). simpl in H.
    repeat (destruct H as [H|H]; [injection H as <- <-; reflexivity|]). destruct H.
Qed.

(** ** C07: first_on_line *)

(** The first token of a source has it; between two successive tokens it says
    whether the text between them has a line terminator. *)
Theorem C07_first_on_line D st ts L' :
  inside_template st = false -> read_all (start D st) = (Ok ts, L') ->
  (forall t ts', ts = t :: ts' -> t_fol t = true) /\
  (forall l1 a b l2, ts = l1 ++ a :: b :: l2 ->
     exists pre gap s after, D = pre ++ gap ++ s ++ after /\
       tend a = rpos pre /\ tstart b = rpos (pre ++ gap) /\
       tend b = rpos (pre ++ gap ++ s) /\
       (t_fol b = true <-> has_line_term gap)).
Proof.
  intros Hin H. assert (T : tokens_from D st [] true ts) by (apply C03_read_all_exact; eauto).
  clear H. split.
  - intros t ts' ->. inversion T as [|? ? ? pre' f' ? Hl]; subst.
    destruct Hl as [gap s after v f1 _ ED Hg Hc Hs Hm]. cbn.
    apply trivia_fol in Hg; [tauto|]. apply lexeme_nonempty in Hs. destruct s; simpl; congruence.
  - assert (G : forall l1 pre0 f0 ts, tokens_from D st pre0 f0 ts -> forall a b l2, ts = l1 ++ a :: b :: l2 ->
     exists pre gap s after, D = pre ++ gap ++ s ++ after /\
       tend a = rpos pre /\ tstart b = rpos (pre ++ gap) /\
       tend b = rpos (pre ++ gap ++ s) /\
       (t_fol b = true <-> has_line_term gap)).
    { clear ts T. induction l1 as [|x l1 IH]; intros pre0 f0 ts T a b l2 ->.
      - inversion T as [|? ? ? pre1 f1 ? Hl1 T1]; subst. inversion T1 as [|? ? ? pre2 f2 ? Hl2 T2]; subst.
        destruct Hl1 as [gap1 s1 after1 v1 g1 _ ED1 Hg1 Hc1 Hs1 Hm1].
        destruct Hl2 as [gap s after v g _ ED Hg Hc Hs Hm].
        exists (pre0 ++ gap1 ++ s1), gap, s, after.
        assert (Hf : g = true <-> false = true \/ has_line_term gap).
        { eapply trivia_fol; eauto. apply lexeme_nonempty in Hs. destruct s; simpl; congruence. }
        split; [exact ED|]. split; [reflexivity|]. split; [reflexivity|]. split; [reflexivity|].
        cbn. rewrite Hf. split; [intros [|]; [discriminate|auto]|auto].
      - inversion T as [|? ? ? pre1 f1 ? Hl1 T1]; subst. eapply IH; eauto. }
    intros l1. apply (G l1 [] true ts T).
Qed.

(** ** C08: numeric literals *)

(** A number token is the text of a numeric literal (radix prefix and digits,
    or digits, fraction and exponent; separators single and not at the end of
    a part), and no identifier follows directly. *)
Theorem C08_number_partial D st ts L t L' s :
  reads (start D st) ts L -> read L = (Ok t, L') -> t_value t = VLiteral (TLNumber s) ->
  exists gap after, lx_rest L = gap ++ s ++ after /\ number s after /\
    ~ starts id_start_char after /\ lx_rest L' = after.
Proof.
  intros H Hr Hv. destruct (reads_start_inv _ _ _ _ H) as (st' & pre & rest & f & -> & HD).
  destruct (read_ok _ _ _ _ _ _ _ HD Hr) as (gap & s' & after & f' & -> & Hs & -> & Hsp & R).
  rewrite Hv in R. destruct (inside_template st').
  - destruct R as (_ & _ & _ & R). inversion R.
  - destruct R as (_ & Hg & _ & Hl & _).
    inversion Hl as [|s0 v tv a Hw Hwv Ha Hb E1 E2 E3| | | | |]; subst.
    + destruct Hwv as [(k & _ & E)|(_ & E)]; discriminate E.
    + exists gap, after. auto.
Qed.

(** ** C09: string literals *)

(** A string token's text is a quote, characters that are neither that quote
    nor a line feed or carriage return unless escaped, and that quote. *)
Theorem C09_string D st ts L t L' v q :
  reads (start D st) ts L -> read L = (Ok t, L') -> t_value t = VLiteral (TLString v q) ->
  exists gap s after, lx_rest L = gap ++ ([q] ++ s ++ [q]) ++ after /\ (q = 34%N \/ q = 39%N) /\
    string_body q s v /\ lx_rest L' = after.
Proof.
  intros H Hr Hv. destruct (reads_start_inv _ _ _ _ H) as (st' & pre & rest & f & -> & HD).
  destruct (read_ok _ _ _ _ _ _ _ HD Hr) as (gap & s' & after & f' & -> & Hs & -> & Hsp & R).
  rewrite Hv in R. destruct (inside_template st').
  - destruct R as (_ & _ & _ & R). inversion R.
  - destruct R as (_ & Hg & _ & Hl & _).
    inversion Hl as [|s0 v0 tv a Hw Hwv Ha Hb E1 E2 E3| |q0 s0 v0 a Hq Hb E1 E2 E3| | |]; subst.
    + destruct Hwv as [(k & _ & E)|(_ & E)]; discriminate E.
    + exists gap, s0, after. auto.
Qed.

(** Without a backslash the stored value is the text between the quotes. *)
Theorem C09_value_partial q s v : string_body q s v -> ~ In (ch "\") s -> v = s.
Proof.
  induction 1 as [|c s v _ _ _ _ _ IH|c s v _ IH|s v _ IH]; intros Hn; auto.
  - f_equal. apply IH. intros H. apply Hn. right. auto.
  - destruct Hn. left. reflexivity.
  - destruct Hn. left. reflexivity.
Qed.

(** Every string literal is read whole. *)
Theorem C09_string_read D st ts L q s v after :
  reads (start D st) ts L -> inside_template (lx_state L) = false ->
  lx_rest L = ([q] ++ s ++ [q]) ++ after -> q = 34%N \/ q = 39%N -> string_body q s v ->
  exists t L', read L = (Ok t, L') /\ t_value t = VLiteral (TLString v q) /\ lx_rest L' = after.
Proof.
  intros H Hin HE Hq Hs.
  destruct (reads_start_inv _ _ _ _ H) as (st' & pre & rest & f & -> & HD).
  cbn in Hin. change (rest = ([q] ++ s ++ [q]) ++ after) in HE. subst rest.
  assert (Hx : lexed D st' pre f
     (mk_token (VLiteral (TLString v q)) f (mk_span (rpos (pre ++ [])) (rpos (pre ++ [] ++ [q] ++ s ++ [q]))))
     (pre ++ [] ++ [q] ++ s ++ [q]) false).
  { eapply lexed_intro with (after := after); auto.
    - constructor.
    - intros [(x & E)|[(x & E)|(x & E)]]; simpl in E; injection E as E _; destruct Hq; subst; discriminate.
    - now apply lexeme_string.
    - discriminate. }
  destruct (read_complete D st' _ _ _ _ _ _ HD Hx) as (r & E & R). rewrite R.
  eexists; eexists. split; [reflexivity|]. split; auto. cbn.
  rewrite HD in E. change ([] ++ [q] ++ s ++ [q]) with ([q] ++ s ++ [q]) in E. rewrite <- (app_assoc pre) in E.
  apply app_inv_head, app_inv_head in E. auto.
Qed.

(** ** C10: regular expressions and templates *)

(** A regular expression token ends at the first [/] that is neither escaped
    nor in a class, plus identifier characters; outside classes it has no
    line feed. *)
Theorem C10_regexp_partial D st ts L t L' s :
  reads (start D st) ts L -> read L = (Ok t, L') -> t_value t = VLiteral (TLRegexp s) ->
  exists gap body flags after, s = chars "/" ++ body ++ chars "/" ++ flags /\
    lx_rest L = gap ++ s ++ after /\ regexp_body body /\
    (forall c, In c flags -> id_part_char c) /\ ~ starts id_part_char after /\ lx_rest L' = after.
Proof.
  intros H Hr Hv. destruct (reads_start_inv _ _ _ _ H) as (st' & pre & rest & f & -> & HD).
  destruct (read_ok _ _ _ _ _ _ _ HD Hr) as (gap & s' & after & f' & -> & Hs & -> & Hsp & R).
  rewrite Hv in R. destruct (inside_template st').
  - destruct R as (_ & _ & _ & R). inversion R.
  - destruct R as (_ & Hg & _ & Hl & _).
    inversion Hl as [|s0 v0 tv a Hw Hwv Ha Hb E1 E2 E3| | | | |s0 fl a Hra Hb Hf Ha E1 E2 E3]; subst.
    + destruct Hwv as [(k & _ & E)|(_ & E)]; discriminate E.
    + exists gap, s0, fl, after. repeat split; auto.
Qed.

(** A template token ends at the first unescaped backtick or [${]. *)
Theorem C10_template D st ts L t L' :
  reads (start D st) ts L -> read L = (Ok t, L') ->
  match t_value t with
  | VLiteral (TLTemplate v) => exists gap s, template_chunk s v false /\
      lx_rest L = gap ++ chars "`" ++ s ++ lx_rest L'
  | VTemplateHead v => exists gap s, template_chunk s v true /\
      lx_rest L = gap ++ chars "`" ++ s ++ lx_rest L'
  | VTemplateMiddle v => exists s, template_chunk s v true /\ lx_rest L = chars "}" ++ s ++ lx_rest L'
  | VTemplateTail v => exists s, template_chunk s v false /\ lx_rest L = chars "}" ++ s ++ lx_rest L'
  | _ => True
  end.
Proof.
  intros H Hr. destruct (reads_start_inv _ _ _ _ H) as (st' & pre & rest & f & -> & HD).
  destruct (read_ok _ _ _ _ _ _ _ HD Hr) as (gap & s' & after & f' & -> & Hs & -> & Hsp & R).
  cbn [lx_rest LX lx_rd rd_rest]. destruct (inside_template st').
  - destruct R as (-> & _ & _ & R). inversion R as [s v Hc E1 E2|s v Hc E1 E2]; subst; eauto.
  - destruct R as (_ & Hg & _ & Hl & _).
    inversion Hl as [| s0 v0 tv a Hw Hwv Ha Hb E1 E2 E3| | |s0 v a Hc E1 E2 E3|s0 v a Hc E1 E2 E3|]; auto.
    + destruct Hwv as [(k & _ & E)|(_ & E)]; rewrite E; exact I.
    + exists gap, s0. split; [exact Hc|]. rewrite ?app_assoc. reflexivity.
    + exists gap, s0. split; [exact Hc|]. rewrite ?app_assoc. reflexivity.
Qed.

(** ** C11: trivia does not affect the tokens *)

(** Two sources made of the same lexemes, with trivia of the same line-break
    status between them, lex to the same values and flags. *)
Theorem C11_trivia_irrelevant st D1 D2 vs :
  inside_template st = false -> spelled st true D1 vs -> spelled st true D2 vs ->
  exists ts1 ts2 L1 L2,
    read_all (start D1 st) = (Ok ts1, L1) /\ read_all (start D2 st) = (Ok ts2, L2) /\
    map value_fol ts1 = vs /\ map value_fol ts2 = vs.
Proof.
  intros Hin H1 H2.
  destruct (spelled_tokens D1 st true D1 vs Hin H1 [] eq_refl) as (ts1 & T1 & V1).
  destruct (spelled_tokens D2 st true D2 vs Hin H2 [] eq_refl) as (ts2 & T2 & V2).
  apply C03_read_all_exact in T1; auto. apply C03_read_all_exact in T2; auto.
  destruct T1 as (L1 & T1), T2 as (L2 & T2). eauto 10.
Qed.

(** Every accepted source is spelled by what was read from it. *)
Theorem C11_spelling D st ts L :
  inside_template st = false -> read_all (start D st) = (Ok ts, L) ->
  spelled st true D (map value_fol ts).
Proof.
  intros Hin H. apply (tokens_spelled D st [] true ts); auto. apply C03_read_all_exact; eauto.
Qed.

(** ** C12: rewinding replays *)

(** Rewinding the lexer to an earlier token and reading gives that token again
    and the lexer state that followed it, whatever was read meanwhile. *)
Theorem C12_rewind_lexer D st0 ts0 Lb t La L :
  ascii_str D = true ->
  reads (start D st0) ts0 Lb -> inside_template (lx_state Lb) = false ->
  read Lb = (Ok t, La) ->
  lx_data L = D -> lx_state L = lx_state Lb ->
  exists L0, lexer_rewind_before t L = Some L0 /\ read L0 = (Ok t, La).
Proof.
  intros Ha H Hin Hr HL1 HL2.
  destruct (reads_start_inv _ _ _ _ H) as (st' & pre & rest & f & -> & HD). cbn in Hin, HL2.
  destruct (reread D st' pre rest f t La HD Ha Hin Hr) as (L0 & H0 & H1). eauto.
Qed.

Lemma cur_consumed_pos (r1 r2 : peek_reader lexer token lfail) k :
  pr_inner r1 = pr_inner r2 -> pr_current r1 = pr_current r2 -> pr_next r1 = pr_next r2 ->
  pr_inner (consumed lexer_next r1 k) = pr_inner (consumed lexer_next r2 k) /\
  pr_current (consumed lexer_next r1 k) = pr_current (consumed lexer_next r2 k) /\
  pr_next (consumed lexer_next r1 k) = pr_next (consumed lexer_next r2 k).
Proof.
  intros H1 H2 H3. induction k as [|k (I1 & I2 & I3)]; auto.
  cbn [consumed]. unfold pr_consume. rewrite I1, I2.
  destruct (lexer_next _) as [n i]. destruct (pr_current (consumed lexer_next r2 k)) as [[p t]|e]; auto.
Qed.

(** The same through [PeekReader::rewind_to]: the token is current again, and
    what follows it is what follows it in the stream. *)
Theorem C12_rewind_reader D st0 ts0 Lb t La (r : peek_reader lexer token lfail) :
  ascii_str D = true ->
  reads (start D st0) ts0 Lb -> inside_template (lx_state Lb) = false ->
  read Lb = (Ok t, La) ->
  lx_data (pr_inner r) = D -> lx_state (pr_inner r) = lx_state Lb ->
  exists r', pr_rewind_to lexer_next lexer_rewind_before r t = Some r' /\
    pr_cur r' = Ok t /\
    forall k, pr_cur (consumed lexer_next r' (S k)) =
              pr_cur (consumed lexer_next (pr_new lexer_next La) k).
Proof.
  intros Ha H Hin Hr HL1 HL2.
  destruct (C12_rewind_lexer D st0 ts0 Lb t La (pr_inner r) Ha H Hin Hr HL1 HL2) as (L0 & E0 & R0).
  unfold pr_rewind_to. rewrite E0. unfold lexer_next at 1. rewrite R0.
  destruct (lexer_next La) as [n i2] eqn:En.
  eexists. split; [reflexivity|]. split; [reflexivity|]. intros k.
  assert (Hs : consumed lexer_next (mk_pr i2 (Ok (tend t, t)) n (pr_position r) (pr_offset r)) (S k) =
     consumed lexer_next (snd (pr_consume lexer_next (mk_pr i2 (Ok (tend t, t)) n (pr_position r) (pr_offset r)))) k).
  { generalize (mk_pr i2 (Ok (tend t, t)) n (pr_position r) (pr_offset r)). intros q. clear.
    induction k as [|k IH]; [reflexivity|]. cbn [consumed] in *. rewrite IH. reflexivity. }
  change (consumed lexer_next (mk_pr i2 (Ok (sp_end (t_span t), t)) n (pr_position r) (pr_offset r)) (S k))
    with (consumed lexer_next (mk_pr i2 (Ok (tend t, t)) n (pr_position r) (pr_offset r)) (S k)).
  rewrite Hs. unfold pr_cur. f_equal.
  apply cur_consumed_pos; unfold pr_consume, pr_new, pr_with_offset; cbn [pr_inner pr_current pr_next];
    rewrite En; destruct (lexer_next i2) as [n2 i3]; reflexivity.
Qed.

(** Items separated by blanks lex to exactly their values: for every sequence of
    lexemes, each preceded by any nonempty white space, the token values of the
    text are the values of the lexemes, in order. *)
Theorem C11_blank_separated st items final :
  inside_template st = false ->
  (forall g s v, In (g, s, v) items ->
     blank_text g /\ lexeme st s (chars " ") v /\ ~ starts_comment s) ->
  blank_text final ->
  exists ts L', read_all (start (joined items final) st) = (Ok ts, L') /\
    map t_value ts = map snd items.
Proof.
  intros Hin H Hf. destruct (joined_spelled st items final H Hf true) as (fs & Hs & Hl).
  destruct (spelled_tokens _ st true _ _ Hin Hs [] eq_refl) as (ts & T & V).
  apply C03_read_all_exact in T; auto. destruct T as (L' & T). exists ts, L'. split; auto.
  assert (E : map t_value ts = map fst (map value_fol ts)).
  { rewrite map_map. reflexivity. }
  rewrite E, V. assert (Hl2 : length fs = length (map snd items)) by now rewrite map_length. revert Hl2. generalize (map snd items). clear.
  intros l. revert fs. induction l as [|x l IH]; intros [|y fs] E; simpl in *; try discriminate; auto.
  f_equal. apply IH. lia.
Qed.

(** [<!] opens a comment up to the end of the line where html-like comments are
    allowed: the next token is the one that is read after that line. *)
Theorem C11_html_comment_script D st ts L body c after L2 t L' :
  reads (start D st) ts L -> inside_template (lx_state L) = false ->
  html_comment_allowed (lx_state L) = true ->
  lx_rest L = chars "<!" ++ body ++ [c] ++ after -> no_line_term body -> line_term c ->
  lexer_seek (blen D - blen after) L = Some L2 ->
  is_ascii c = true -> read L2 = (Ok t, L') ->
  read L = (Ok t, L').
Proof.
  intros H Hin Hh HE Hb Hc Hsk Hac Hr.
  destruct (reads_start_inv _ _ _ _ H) as (st' & pre & rest & f & -> & HD).
  cbn in Hin, Hh. change (rest = chars "<!" ++ body ++ [c] ++ after) in HE. subst rest.
  assert (E2 : L2 = LX D st' (pre ++ chars "<!" ++ body ++ [c]) after true).
  { assert (HD2 : D = (pre ++ chars "<!" ++ body ++ [c]) ++ after).
    { rewrite HD. repeat (progress (simpl app; rewrite <- ?app_assoc)). reflexivity. }
    assert (Hbl : blen D - blen after = blen (pre ++ chars "<!" ++ body ++ [c])).
    { rewrite HD2, blen_app. lia. }
    rewrite Hbl in Hsk. unfold lexer_seek in Hsk. cbn [lx_data LX] in Hsk.
    rewrite HD2 in Hsk at 1. rewrite slice_from_app in Hsk. injection Hsk as <-.
    cbn [lx_data lx_state lx_rd LX]. unfold LX, cr_at. f_equal.
    f_equal. assert (Hp : pre ++ chars "<!" ++ body ++ [c] = (pre ++ chars "<!" ++ body) ++ [c]).
    { repeat (progress (simpl app; rewrite <- ?app_assoc)). reflexivity. }
    rewrite Hp, rpos_snoc, (len16_ascii _ Hac). simpl app. 
    repeat (rewrite ?blen_app; cbn [blen]). rewrite (len8_ascii _ Hac). lia. }
  assert (Hw : piece (html_comment_allowed st') f (chars "<!" ++ body ++ [c]) after true).
  { apply piece_line; auto. constructor. auto. }
  rewrite E2 in Hr. clear E2 Hsk.
  assert (Ew : chars "<!" ++ body ++ [c] ++ after = (chars "<!" ++ body ++ [c]) ++ after).
  { now repeat rewrite <- app_assoc. }
  rewrite Ew in *. clear Ew H. revert HD Hr Hw. generalize (chars "<!" ++ body ++ [c]). intros w HD Hr Hw.
  assert (HD3 : D = (pre ++ w) ++ after) by (rewrite HD; now rewrite app_assoc).
  destruct (read_ok _ _ _ _ _ _ _ HD3 Hr) as (gap & s & after' & f' & -> & Hs & -> & Hsp & R).
  rewrite Hin in R. destruct R as (-> & Hg & Hcm & Hl & Hm).
  assert (Hx : lexed D st' pre f t ((pre ++ w) ++ gap ++ s) false).
  { destruct t as [tv tf tsp]. cbn [t_value t_fol t_span] in *. subst tsp.
    replace ((pre ++ w) ++ gap ++ s) with (pre ++ (w ++ gap) ++ s) by (now repeat rewrite <- app_assoc).
    replace ((pre ++ w) ++ gap) with (pre ++ (w ++ gap)) by (now repeat rewrite <- app_assoc).
    eapply lexed_intro with (after := after'); eauto.
    - rewrite HD. now repeat rewrite <- app_assoc.
    - eapply trivia_cons with (f1 := true); [exact Hw|exact Hg]. }
  destruct (read_complete D st' _ _ _ _ _ _ HD Hx) as (r & E & R). rewrite R. f_equal.
  f_equal. rewrite HD in E. repeat rewrite <- app_assoc in E.
  do 4 apply app_inv_head in E. congruence.
Qed.

(** Where they are not allowed (modules) [<!] is an error. *)
Theorem C11_html_comment_module D st ts L after :
  reads (start D st) ts L -> inside_template (lx_state L) = false ->
  html_comment_allowed (lx_state L) = false ->
  lx_rest L = chars "<!" ++ after ->
  exists e L', read L = (Err (LFail e), L').
Proof.
  intros H Hin Hh HE. destruct (C01_read_returns D st ts L H) as [(t & L' & Hr)|]; auto. exfalso.
  destruct (reads_start_inv _ _ _ _ H) as (st' & pre & rest & f & -> & HD).
  cbn in Hin, Hh. change (rest = chars "<!" ++ after) in HE. subst rest.
  destruct (read_ok _ _ _ _ _ _ _ HD Hr) as (gap & s & after' & f' & E & Hs & -> & Hsp & R).
  rewrite Hin in R. destruct R as (_ & Hg & Hcm & _).
  inversion Hg as [|f0 s1 s2 a f1 f2 Hp Ht E1 E2]; subst.
  - apply Hcm. right. right. exists after. symmetry. exact E.
  - rewrite <- !app_assoc in E. simpl in E. inversion Hp as [f3 c a Hc|f3 c a Hc|f3 o b c a Ho|f3 o b Ho|f3 b a f4]; subst;
      try (inversion Ho; subst); try discriminate; try congruence;
      simpl in E; injection E as <- _; 
      [apply white_space_iff in Hc|apply line_term_iff in Hc]; discriminate.
Qed.

End Lexing.

(** ** C13: PeekReader is a two-item look-ahead cursor *)

Section Cursor.
Context {I T E : Type} (next : I -> result (nat * T) E * I).

(** After [k] calls of [consume] on a new reader: [current] is item [k] of the
    inner reader, [peek] item [k+1], [consume] returns item [k], and
    [position] is the end of the last item consumed successfully. *)
Theorem C13_cursor i off k :
  let r := consumed next (pr_with_offset next i off) k in
  pr_cur r = value_of (item_at next i k) /\
  pr_peek r = value_of (item_at next i (k + 1)) /\
  fst (pr_consume next r) = value_of (item_at next i k) /\
  pr_pos r = last_end next i off k.
Proof.
  cbv zeta. rewrite consumed_state. rewrite Nat.add_1_r. repeat split.
  unfold pr_consume. cbn [pr_inner pr_current]. destruct (next _) as [n i'].
  destruct (item_at next i k) as [[p t]|e]; reflexivity.
Qed.
End Cursor.

(** The cursor the lexer model uses shows what [PeekReader] over [CharIndices]
    shows, after any number of [consume]s. *)
Theorem C13_char_reader rest off k :
  let r := consumed ci_next (pr_with_offset ci_next (mk_ci 0 rest) off) k in
  let c := Nat.iter k (fun c => snd (cr_consume c)) (cr_at rest off) in
  pr_cur r = match cr_current c with Some a => Ok a | None => Err CharEndOfStream end /\
  pr_peek r = match cr_peek c with Some a => Ok a | None => Err CharEndOfStream end /\
  fst (pr_consume ci_next r) =
    match fst (cr_consume c) with Some a => Ok a | None => Err CharEndOfStream end /\
  pr_pos r = rd_pos c.
Proof.
  cbv zeta.
  assert (H : char_agree off (consumed ci_next (pr_with_offset ci_next (mk_ci 0 rest) off) k)
                (Nat.iter k (fun c => snd (cr_consume c)) (cr_at rest off))).
  { induction k as [|k IH]; [apply char_agree_start|]. cbn [consumed Nat.iter nat_rect].
    now apply char_agree_consume. }
  repeat split.
  - eapply char_agree_current; eauto.
  - eapply char_agree_peek; eauto.
  - eapply char_agree_consume; eauto.
  - unfold pr_pos. eapply ca_pos; eauto.
Qed.

(** ** Concrete instances and refutations *)

Definition src1 : str := chars "a+=b ?.5:c/*x*/!==`t${".
Definition nl : str := [10%N].

(** C01, C02, C03, C07, C11_spelling: an accepted, non-trivial source. *)
Example ex_read_all :
  exists ts L', @read_all ap (start src1 ls_default) = (Ok ts, L') /\ length ts = 9.
Proof. eexists; eexists. split; [vm_compute; reflexivity|reflexivity]. Qed.
Example ex_reads : exists t L, @reads ap (start src1 ls_default) [t] L /\ t_value t = VIdentifier (chars "a").
Proof. eexists; eexists. split; [eapply reads_token; [vm_compute; reflexivity|apply reads_nil]|reflexivity]. Qed.
(** Reads with a mode change in between, as the parser makes them. *)
Example ex_reads_modes :
  exists ts L, @reads ap (start (chars "=/a+/g;") ls_default) ts L /\
    map t_value ts = [VPunct PEqual; VLiteral (TLRegexp (chars "/a+/g")); VPunct PSemiColon].
Proof.
  eexists; eexists. split.
  - eapply reads_token; [vm_compute; reflexivity|].
    eapply reads_state with (st := ls_regex_allowed).
    eapply reads_token; [vm_compute; reflexivity|].
    eapply reads_state with (st := ls_default).
    eapply reads_token; [vm_compute; reflexivity|]. apply reads_nil.
  - reflexivity.
Qed.
Example ex_values :
  lex_values ls_default (chars "x/**/=>" ++ nl ++ chars "if") =
  Some [(VIdentifier (chars "x"), true); (VPunct PEqualGreater, false); (VKeyword KIf, true)].
Proof. vm_compute. reflexivity. Qed.
(** C11: the same values with different trivia. *)
Example ex_same_values :
  lex_values ls_default (chars " x => // c" ++ nl ++ chars "/* d */ if  ") =
  lex_values ls_default (chars "x/**/=>" ++ nl ++ chars "if").
Proof. vm_compute. reflexivity. Qed.
Example ex_blank_items :
  @lexeme ap ls_default (chars "?.") (chars " ") (VPunct PQuestionMarkDot) /\ ~ starts_comment (chars "?.").
Proof.
  split.
  - apply (@lexeme_punct ap ls_default PQuestionMarkDot (chars " ")).
    + split.
      * eexists. split; [reflexivity|]. intros [_ (c & s & E & Hd)]. injection E as <- _.
        vm_compute in Hd. intuition discriminate.
      * intros q (s & E & _). destruct q; try (apply (f_equal (firstn 2)) in E; discriminate E); vm_compute; lia.
    + discriminate.
    + discriminate.
  - intros [(x & E)|[(x & E)|(x & E)]]; discriminate E.
Qed.
(** C05. *)
Example ex_longest : lex_values ls_default (chars "a>>>=b") =
  Some [(VIdentifier (chars "a"), true); (VPunct PTripleGreaterEqual, false); (VIdentifier (chars "b"), false)].
Proof. vm_compute. reflexivity. Qed.
(** C06: escapes are decoded before classification. *)
Example ex_word : lex_values ls_default (chars "i\u0066 iffy") =
  Some [(VKeyword KIf, true); (VIdentifier (chars "iffy"), false)].
Proof. vm_compute. reflexivity. Qed.
(** C08, C09, C10. *)
Example ex_number : lex_values ls_default (chars "1_0.5e-3") =
  Some [(VLiteral (TLNumber (chars "1_0.5e-3")), true)].
Proof. vm_compute. reflexivity. Qed.
Example ex_string : lex_values ls_default (chars "'a'") = Some [(VLiteral (TLString (chars "a") 39%N), true)].
Proof. vm_compute. reflexivity. Qed.
Example ex_regexp : lex_values ls_regex_allowed (chars "/[/]\//g") =
  Some [(VLiteral (TLRegexp (chars "/[/]\//g")), true)].
Proof. vm_compute. reflexivity. Qed.
(** C12: a token can be rewound to and read again, from a lexer at the end. *)
Example ex_rewind :
  match @read ap (start src1 ls_default) with
  | (Ok t, La) =>
      match lexer_rewind_before t (snd (@read_all ap (start src1 ls_default))) with
      | Some L0 => @read ap L0 = (Ok t, La)
      | None => False
      end
  | _ => False
  end.
Proof. vm_compute. reflexivity. Qed.

(** C11: [<!] comments. *)
Example ex_html_script : lex_values ls_default (chars "a<!--b" ++ nl ++ chars "c") =
  Some [(VIdentifier (chars "a"), true); (VIdentifier (chars "c"), true)].
Proof. vm_compute. reflexivity. Qed.
Example ex_html_module :
  lex_values (ls_with_html_comments_allowed ls_default false) (chars "a<!--b" ++ nl ++ chars "c") = None.
Proof. vm_compute. reflexivity. Qed.
(** ... and [<!b] is one as well, so [a<!b], a valid comparison, is not lexed
    as one: a deviation from ECMAScript, where only [<!--] opens a comment. *)
Theorem C11_not_comparison_refuted :
  lex_values ls_default (chars "a<!b") = Some [(VIdentifier (chars "a"), true)] /\
  lex_values (ls_with_html_comments_allowed ls_default false) (chars "a<!b") = None.
Proof. split; vm_compute; reflexivity. Qed.

(** C04 is false beyond ASCII: a token after U+00A0 starts, by its span, inside
    that character, and rewinding to it panics. *)
Theorem C04_refuted :
  exists D, match @read ap (start D ls_default) with
  | (Ok t, L') => t_value t = VPunct PSlash /\ slice_from D (tstart t) = None /\ lexer_rewind_before t L' = None
  | _ => False
  end.
Proof. exists [0xA0; 47]%N. vm_compute. auto. Qed.

(** C08, the ECMAScript clauses: separators are accepted directly after a radix
    prefix, a dot, an exponent mark and a leading zero. *)
Theorem C08_separator_placement_refuted :
  Forall (fun s => lex_values ls_default (chars s) = Some [(VLiteral (TLNumber (chars s)), true)])
    ["0x_1"; "1._5"; "1e_5"; "0_1"].
Proof. repeat constructor. Qed.
(** A digit outside the base directly after a number starts another number. *)
Theorem C08_digit_after_number_refuted :
  lex_values ls_default (chars "0b12") =
  Some [(VLiteral (TLNumber (chars "0b1")), true); (VLiteral (TLNumber (chars "2")), false)].
Proof. vm_compute. reflexivity. Qed.

(** C09: with an escape the stored value is not the text between the quotes
    (nor the string it denotes): the backslash alone is dropped. *)
Theorem C09_value_refuted :
  exists D t L' v, @read ap (start D ls_default) = (Ok t, L') /\
    D = chars "'" ++ chars "a\nb" ++ chars "'" /\
    t_value t = VLiteral (TLString v 39%N) /\ v = chars "anb".
Proof.
  exists (chars "'a\nb'"). eexists; eexists; eexists. split; [vm_compute; reflexivity|].
  repeat split; reflexivity.
Qed.

(** C10: a class may contain a line feed. *)
Theorem C10_no_line_terminator_refuted :
  exists s, lex_values ls_regex_allowed (chars "/[" ++ nl ++ chars "]/") =
    Some [(VLiteral (TLRegexp s), true)] /\ In 10%N s.
Proof. eexists. split; [vm_compute; reflexivity|]. simpl. auto. Qed.

(** One check for all theorems of this file. *)
Definition lexer_theorems :=
  (@C01_read_returns,
   @C01_read_advances,
   @C01_token_count,
   @C01_read_all_returns,
   @C02_spans,
   @C03_read_all_exact,
   @C03_tokens_tile,
   @C03_token_text,
   @C04_boundaries_partial,
   @C04_exact_condition,
   @C05_longest,
   @C05_punctuator_read,
   @C06_words,
   @C06_word_read,
   @C07_first_on_line,
   @C08_number_partial,
   @C09_string,
   @C09_string_read,
   @C10_regexp_partial,
   @C10_template,
   @C11_trivia_irrelevant,
   @C11_blank_separated,
   @C11_html_comment_script,
   @C11_html_comment_module,
   @C12_rewind_lexer,
   @C12_rewind_reader,
   @C13_cursor,
   @C13_char_reader).
Print Assumptions lexer_theorems.
