(** * Print: the text the printer makes of its calls consists of the tokens they stand for.

    [reads m cs l]: the printer calls [cs] write the tokens (and blanks) [l]. *)

From Verif Require Import Base Tokens Lexer LexSpec LexProps Ast Layout Bare Starts Source Codegen PropCodegen Unparse PrintLex.
Local Open Scope string_scope.
Local Open Scope list_scope.

Inductive reads (m : bool) : list cmd -> list titem -> Prop :=
| rd_nil : reads m [] []
| rd_app cs l ds k : reads m cs l -> reads m ds k -> reads m (cs ++ ds) (l ++ k)
| rd_str v : reads m [Str (spell v)] [T v]
| rd_empty : reads m [Str []] []
| rd_char p c : punct_str p = [c] -> reads m [Char c] [P p]
| rd_quote s : reads m (quote_ s) [str_item s]
| rd_piece (h e : bool) s cs : cs = [Str s] \/ cs = [] /\ s = [] ->
    reads m (Char (if h then ch "`" else ch "}") :: cs ++ [if e then C_ "`" else S_ "${"]) [T (piece h e s)]
| rd_raw c : word_char c = false -> reads m [Char c] [raw [c]]
| rd_question_dot : reads m [C_ "?"; C_ "."] [P PQuestionMarkDot]
| rd_two u v : before u (hd 0%N (spell v)) = true -> reads m [Str (spell u ++ spell v)] [T u; T v]
| rd_two_blank u v : reads m [Str (spell u ++ 32%N :: spell v)] [T u; Bl; T v]
| rd_blank u : reads m [Str (spell u ++ [32%N])] [T u; Bl]
| rd_space : reads m [Space] [Sp]
| rd_new_line : reads m [NewLine] [NL]
| rd_separation : reads m [Separation] [Brk]
| rd_stmt_end : reads m [StmtEnd] [Brk]
| rd_indent : reads m [PushIndent] []
| rd_align : reads m [PushAlign] []
| rd_no_align : reads m [PushNoAlign] []
| rd_pop : reads m [Pop] []
| rd_block cs l : reads m cs l -> reads m (StartBlock :: cs ++ [EndBlock]) (blk m l)
| rd_drop cs l : reads m cs l -> reads m (cs ++ [C_ ";"; Pop; DropSemicolon]) l.

(** The last token, and whether a blank comes after it. *)
Definition step (m : bool) (s : option tvalue * bool) (x : titem) : option tvalue * bool :=
  match x with
  | T v => (Some v, false)
  | Sp | NL => (fst s, snd s || negb m)%bool
  | Bl => (fst s, true)
  | Brk => s
  end.
Definition stat (m : bool) (l : list titem) : option tvalue * bool := fold_left (step m) l (None, false).

Lemma apart_app m l1 : forall s l2,
  apart m (fst s) (snd s) (l1 ++ l2) =
  (apart m (fst s) (snd s) l1 && apart m (fst (fold_left (step m) l1 s)) (snd (fold_left (step m) l1 s)) l2)%bool.
Proof.
  induction l1 as [|x l1 IH]; intros s l2; [reflexivity|].
  destruct x; cbn [app apart fold_left].
  - rewrite (IH (Some v, false)). cbn [fst snd step]. now rewrite andb_assoc.
  - apply (IH (step m s Sp)).
  - apply (IH (step m s NL)).
  - apply (IH s).
  - apply (IH (fst s, true)).
Qed.

(** Whether a line break may come next. *)
Definition break_after (b : bool) (x : titem) : bool :=
  match x with T _ => false | NL | Brk => true | Sp | Bl => b end.
Definition fstat (l : list titem) : bool := fold_left break_after l true.

Lemma fstat_snoc l x : fstat (l ++ [x]) = break_after (fstat l) x.
Proof. unfold fstat. now rewrite fold_left_app. Qed.
Lemma snug_app l1 : forall b l2, snug b (l1 ++ l2) = (snug b l1 && snug (fold_left break_after l1 b) l2)%bool.
Proof.
  induction l1 as [|x l1 IH]; intros b l2; [reflexivity|].
  destruct x; cbn [app snug fold_left break_after]; rewrite IH; auto. now rewrite andb_assoc.
Qed.
Lemma snug_app2 acc l k : snug (fstat acc) (l ++ k) = true ->
  snug (fstat acc) l = true /\ snug (fstat (acc ++ l)) k = true.
Proof. intros H. rewrite snug_app in H. apply andb_true_iff in H. unfold fstat at 2. rewrite fold_left_app. exact H. Qed.

Lemma stat_snoc m l x : stat m (l ++ [x]) = step m (stat m l) x.
Proof. unfold stat. now rewrite fold_left_app. Qed.

Definition blanks (s : str) : Prop := Forall blank s.
Lemma blanks_app a b : blanks a -> blanks b -> blanks (a ++ b).
Proof. intros. apply Forall_app. auto. Qed.
Definition breaks (x : titem) : bool := match x with NL | Brk => true | _ => false end.

(** [St l out f]: the text [out] is written with the tokens of [l]; a line
    break may follow it if [f]. *)
Inductive St (m : bool) : list titem -> str -> bool -> Prop :=
| St_nil : St m [] [] true
| St_T l out f gap v : St m l out f -> blanks gap -> (In 10%N gap -> f = true) -> plain v ->
    (forall u, fst (stat m l) = Some u -> gap = [] -> before u (hd 0%N (spell v)) = true) ->
    (m = true -> (snd (stat m l) = true -> fst (stat m l) <> None -> gap <> []) /\
                 (wordlike v = false -> snd (stat m l) = false -> gap = [])) ->
    (resumes v = true -> f = false) ->
    St m (l ++ [T v]) (out ++ gap ++ spell v) false
| St_gap l out f x : St m l out f -> (forall v, x <> T v) -> St m (l ++ [x]) out (f || breaks x).

Section Inv.
Context {PF : Platform}.
Variable m : bool.

Record Inv (g : gst) (l : list titem) : Prop := mk_Inv {
  inv_line : line_ok g;
  inv_out : exists out gap f, g_out g = out ++ gap /\ St m l out f /\ blanks gap /\ (In 10%N gap -> f = true) /\
    (snd (stat m l) = true -> fst (stat m l) <> None -> gap <> []) /\ (m = true -> snd (stat m l) = false -> gap = []) }.

Lemma St_snoc_T l v out f : St m (l ++ [T v]) out f ->
  exists out0 gap f0, f = false /\ out = out0 ++ gap ++ spell v /\ St m l out0 f0 /\ blanks gap /\
    (In 10%N gap -> f0 = true) /\ plain v /\
    (m = true -> (snd (stat m l) = true -> fst (stat m l) <> None -> gap <> []) /\
                 (wordlike v = false -> snd (stat m l) = false -> gap = [])).
Proof.
  intros H. remember (l ++ [T v]) as l0 eqn:E. destruct H as [|l1 out f gap w H Hb Hl Hp Hj HM HC|l1 out f x H Hx].
  - now destruct l.
  - apply app_inj_tail in E. destruct E as [-> [= ->]]. exists out, gap, f. auto 10.
  - apply app_inj_tail in E. destruct E as [-> ->]. now destruct (Hx v).
Qed.
Lemma St_snoc_gap l x out f : St m (l ++ [x]) out f -> (forall v, x <> T v) ->
  exists f0, f = (f0 || breaks x)%bool /\ St m l out f0.
Proof.
  intros H Hx'. remember (l ++ [x]) as l0 eqn:E. destruct H as [|l1 out f gap w H Hb Hl Hp Hj HM HC|l1 out f y H Hx].
  - now destruct l.
  - apply app_inj_tail in E. destruct E as [-> <-]. now destruct (Hx' w).
  - apply app_inj_tail in E. destruct E as [-> ->]. exists f. auto.
Qed.

Lemma St_fstat l out f : St m l out f -> f = fstat l.
Proof.
  induction 1 as [|l out f gap v H IH Hb Hl Hp Hj HM HC|l out f x H IH Hx]; auto; rewrite fstat_snoc; auto.
  rewrite <- IH. destruct x; cbn [break_after breaks]; auto using orb_false_r, orb_true_r. now destruct (Hx v).
Qed.

(** The last character written. *)
Lemma St_last l out f : St m l out f ->
  match fst (stat m l) with
  | None => out = []
  | Some v => plain v /\ exists o, out = o ++ spell v
  end.
Proof.
  induction 1 as [|l out f gap v H IH Hb Hl Hp Hj HM HC|l out f x H IH Hx].
  - reflexivity.
  - rewrite stat_snoc. cbn [step fst]. split; auto. exists (out ++ gap). now rewrite app_assoc.
  - rewrite stat_snoc. destruct x; cbn [step fst]; auto. now destruct (Hx v).
Qed.

Lemma last_char_app o s : s <> [] -> last_char (o ++ s) = Some (last s 0%N).
Proof.
  intros H. destruct s as [|x s _] using rev_ind; [congruence|].
  unfold last_char. rewrite app_assoc, rev_app_distr. cbn. now rewrite last_last.
Qed.

Lemma plain_ne v : plain v -> spell v <> [].
Proof. intros H E. destruct (plain_cons v H) as (c & s & Es & _). congruence. Qed.

(** No indentation is put in the middle of a line. *)
Lemma indent_spaces g : line_ok g -> exists k, g_out (do_indent m g) = g_out g ++ repeat 32%N k /\
  (m = true -> k = 0) /\ (g_newline g < gpos g -> k = 0).
Proof.
  intros H. unfold do_indent. destruct m.
  - exists 0. cbn. rewrite app_nil_r. auto.
  - cbv zeta. destruct (negb _) eqn:E.
    + exists 0. cbn. rewrite app_nil_r. auto.
    + exists (indentation (g_ctx (col_check g))). cbn [with_out g_out]. split; auto. split; [discriminate|].
      intros Hlt. exfalso. apply negb_false_iff, Nat.eqb_eq in E. unfold col_pos, gpos in *.
      cbn [col_check g_out g_newline] in E. lia.
Qed.

Lemma newline_indent g : g_newline (do_indent m g) = g_newline g.
Proof. unfold do_indent. destruct m; auto. cbv zeta. now destruct (negb _). Qed.

Lemma blanks_spaces k : blanks (repeat 32%N k).
Proof. induction k; constructor; auto. now left. Qed.
Lemma spaces_no_line k : ~ In 10%N (repeat 32%N k).
Proof. intros H. apply repeat_spec in H. discriminate. Qed.

(** Writing a token. *)
Lemma put_raw l out f gap v g' : St m l out f -> blanks gap -> (In 10%N gap -> f = true) -> plain v ->
  (forall u, fst (stat m l) = Some u -> gap = [] -> before u (hd 0%N (spell v)) = true) ->
  (m = true -> (snd (stat m l) = true -> fst (stat m l) <> None -> gap <> []) /\
               (wordlike v = false -> snd (stat m l) = false -> gap = [])) ->
  (resumes v = true -> fstat l = false) ->
  line_ok g' -> g_out g' = out ++ gap ++ spell v -> Inv g' (l ++ [T v]).
Proof.
  intros HS Hb Hn Hp Hj HM HC Hl E. constructor; auto. exists (out ++ gap ++ spell v), [], false.
  rewrite app_nil_r. split; auto. split; [apply St_T with (f := f); auto; rewrite (St_fstat _ _ _ HS); exact HC|]. split; [constructor|]. split; [intros []|].
  rewrite stat_snoc. cbn [step fst snd]. split; [discriminate|auto].
Qed.

Lemma put0 g l v g' k : Inv g l -> plain v -> line_ok g' -> g_out g' = g_out g ++ repeat 32%N k ++ spell v ->
  (m = true -> wordlike v = false -> k = 0) ->
  (forall u, fst (stat m l) = Some u -> snd (stat m l) = false -> k = 0 ->
     last_char (g_out g) = Some (last (spell u) 0%N) -> before u (hd 0%N (spell v)) = true) ->
  (resumes v = true -> fstat l = false) ->
  Inv g' (l ++ [T v]).
Proof.
  intros [Hl (out & gap & f & Eo & HS & Hb & Hn & Hh & Hm)] Hp Hl' Eo' Hk Hj HC.
  apply put_raw with (out := out) (f := f) (gap := gap ++ repeat 32%N k); auto.
  - auto using blanks_app, blanks_spaces.
  - intros Hi. apply in_app_or in Hi. destruct Hi as [Hi|Hi]; auto. now apply spaces_no_line in Hi.
  - intros u Hu E. apply app_eq_nil in E. destruct E as [-> Ek]. destruct k as [|k]; [|discriminate].
    apply Hj; auto.
    + destruct (snd (stat m l)) eqn:Es; auto. exfalso. apply Hh; auto. congruence.
    + rewrite Eo, app_nil_r. apply St_last in HS. rewrite Hu in HS. destruct HS as (Hpu & o & ->).
      apply last_char_app. now apply plain_ne.
  - intros Em. split.
    + intros H1 H2 E. apply app_eq_nil in E. destruct E as [E _]. now apply Hh.
    + intros H1 H2. rewrite (Hm Em H2), (Hk Em H1). reflexivity.
  - rewrite Eo', Eo. now rewrite !app_assoc.
Qed.

Lemma put g l v g' k : Inv g l -> plain v -> apart m (fst (stat m l)) (snd (stat m l)) [T v] = true ->
  line_ok g' -> g_out g' = g_out g ++ repeat 32%N k ++ spell v ->
  (m = true -> wordlike v = false -> k = 0) ->
  (forall u c, fst (stat m l) = Some u -> wordlike v = true -> hd 0%N (spell v) = c ->
     ascii_alnum (last (spell u) 0%N) = true -> ascii_alnum c = true -> g_out g = g_out g ++ [] ->
     last_char (g_out g) = Some (last (spell u) 0%N) -> k <> 0) ->
  (resumes v = true -> fstat l = false) ->
  Inv g' (l ++ [T v]).
Proof.
  intros HI Hp Ha Hl' Eo' Hk0 Hk HC. apply put0 with (g := g) (k := k); auto.
  intros u Hu Es Ek Hlast. cbn [apart] in Ha. rewrite Hu, Es in Ha.
  cbn [orb] in Ha. unfold together in Ha. destruct (plain_cons v Hp) as (c & s & Ec & _).
  rewrite Ec in Ha. rewrite andb_true_r in Ha. apply orb_true_iff in Ha. destruct Ha as [Ha|Ha].
  - apply andb_true_iff in Ha. destruct Ha as [Ha Hc]. apply andb_true_iff in Ha. destruct Ha as [Hw Hu'].
    exfalso. refine (Hk u c Hu Hw _ Hu' Hc _ Hlast Ek).
    + now rewrite Ec.
    + now rewrite app_nil_r.
  - rewrite Ec. exact Ha.
Qed.

Lemma alnum_table c : (c < 128)%N -> alphanumeric c = ascii_alnum c.
Proof. apply alphanumeric_table. Qed.

Lemma not_wordlike v : plain v -> wordlike v = false -> ascii_alnum (hd 0%N (spell v)) = false.
Proof.
  destruct v as [k|x|p|l|s|s|s]; cbn [wordlike plain spell]; try discriminate; try (intros; reflexivity).
  - intros _ _. destruct p; reflexivity.
  - destruct l as [s q|r|s|s]; try discriminate; cbn [hd app].
    + intros ([->| ->] & _) _; reflexivity.
    + intros (_ & b & fl & -> & _) _; reflexivity.
    + reflexivity.
Qed.

Lemma St_ascii l out f : St m l out f -> ascii_str out = true.
Proof.
  induction 1 as [|l out f gap v H IH Hb Hl Hp Hj HM HC|l out f x H IH Hx]; auto.
  rewrite !ascii_str_app, IH, (plain_ascii _ Hp). cbn. rewrite andb_true_r. unfold ascii_str. apply forallb_forall.
  intros c Hc. unfold blanks in Hb. rewrite Forall_forall in Hb. apply Hb in Hc. destruct Hc as [->| ->]; reflexivity.
Qed.

Lemma put_string g l v tail : Inv g l -> plain v ->
  exists k, g_out (do_string m (spell v ++ tail) g) = g_out g ++ repeat 32%N k ++ spell v ++ tail /\
  (forall u c, fst (stat m l) = Some u -> wordlike v = true -> hd 0%N (spell v) = c ->
     ascii_alnum (last (spell u) 0%N) = true -> ascii_alnum c = true -> g_out g = g_out g ++ [] ->
     last_char (g_out g) = Some (last (spell u) 0%N) -> k <> 0) /\
  (m = true -> wordlike v = false -> k = 0).
Proof.
  intros [Hl (out & gap & f & Eo & HS & Hb & Hn & Hh & Hm)] Hp. unfold do_string.
  destruct (indent_spaces g Hl) as (k & E & Hk1 & Hk2). cbn [with_out g_out].
  set (b := must_add_space_before (g_out (do_indent m g)) (spell v ++ tail)).
  exists (if b then k + 1 else k). rewrite E. split; [|split].
  - destruct b; [rewrite repeat_app|]; now rewrite <- !app_assoc.
  - intros u c Hu Hw Hc Hu' Hc' _ Hlast. destruct k as [|k]; [|destruct b; lia].
    cbn [repeat] in E. rewrite app_nil_r in E.
    assert (b = true) as ->.
    { unfold b, must_add_space_before. rewrite E, Hlast. destruct (plain_cons v Hp) as (c0 & s & Ec & Hlt).
      rewrite Ec in Hc |- *. cbn [hd app] in Hc |- *. subst c0. rewrite !alnum_table; auto; [now rewrite Hu', Hc'|].
      pose proof (St_last _ _ _ HS) as X. rewrite Hu in X. destruct X as (Hpu & _).
      pose proof (plain_ascii _ Hpu) as Hq. unfold ascii_str in Hq. rewrite forallb_forall in Hq.
      apply N.ltb_lt. apply Hq. apply last_In. now apply plain_ne. }
    lia.
  - intros Em Hw. rewrite (Hk1 Em). assert (b = false) as ->; auto.
    unfold b, must_add_space_before. destruct (last_char _); auto. destruct (plain_cons v Hp) as (c & s & Ec & Hlt).
    rewrite Ec. cbn [app]. rewrite (alnum_table c Hlt). replace (ascii_alnum c) with false; [apply andb_false_r|].
    symmetry. replace c with (hd 0%N (spell v)) by now rewrite Ec. now apply not_wordlike.
Qed.

Lemma inv_gap g l x g' more : Inv g l -> (forall v, x <> T v) -> line_ok g' -> g_out g' = g_out g ++ more ->
  blanks more -> (In 10%N more -> breaks x = true) ->
  (x = Bl \/ (m = false /\ (x = Sp \/ x = NL)) -> more <> []) -> (m = true -> x <> Bl -> more = []) ->
  Inv g' (l ++ [x]).
Proof.
  intros [Hl (out & gap & f & Eo & HS & Hb & Hn & Hh & Hm)] Hx Hl' Eo' Hmb Hml Hmh Hmm. constructor; auto.
  exists out, (gap ++ more), (f || breaks x)%bool. rewrite Eo', Eo, app_assoc. split; auto.
  split; [now constructor|]. split; [now apply Forall_app|]. split; [|rewrite stat_snoc; split].
  - intros Hi. apply in_app_or in Hi. apply orb_true_iff. destruct Hi; auto.
  - destruct x; cbn [step snd fst].
    + now destruct (Hx v).
    + intros H Hf E. apply app_eq_nil in E. destruct E as [-> ->]. apply orb_true_iff in H. destruct H as [H|H].
      * now apply Hh.
      * apply negb_true_iff in H. now apply Hmh; auto.
    + intros H Hf E. apply app_eq_nil in E. destruct E as [-> ->]. apply orb_true_iff in H. destruct H as [H|H].
      * now apply Hh.
      * apply negb_true_iff in H. now apply Hmh; auto.
    + intros H Hf E. apply app_eq_nil in E. destruct E as [-> ->]. now apply Hh.
    + intros _ _ E. apply app_eq_nil in E. destruct E as [-> ->]. now apply Hmh; auto.
  - intros Em. destruct x; cbn [step snd fst].
    + now destruct (Hx v).
    + intros H. apply orb_false_iff in H. destruct H as [H _]. rewrite (Hm Em H), (Hmm Em); auto; discriminate.
    + intros H. apply orb_false_iff in H. destruct H as [H _]. rewrite (Hm Em H), (Hmm Em); auto; discriminate.
    + intros H. rewrite (Hm Em H), (Hmm Em); auto; discriminate.
    + discriminate.
Qed.

(** More blanks do no harm. *)
Lemma inv_more g l g' k : Inv g l -> line_ok g' -> g_out g' = g_out g ++ repeat 32%N k -> (m = true -> k = 0) ->
  Inv g' l.
Proof.
  intros [Hl (out & gap & f & Eo & HS & Hb & Hn & Hh & Hm)] Hl' Eo' Hk. constructor; auto.
  exists out, (gap ++ repeat 32%N k), f. rewrite Eo', Eo, app_assoc. split; auto. split; auto.
  split; [auto using blanks_app, blanks_spaces|]. split; [|split].
  - intros Hi. apply in_app_or in Hi. destruct Hi as [Hi|Hi]; auto. now apply spaces_no_line in Hi.
  - intros H1 H2 E. apply app_eq_nil in E. destruct E as [E _]. now apply Hh.
  - intros H1 H2. rewrite (Hk H1), (Hm H1 H2). reflexivity.
Qed.

Lemma inv_same g l g' : Inv g l -> line_ok g' -> g_out g' = g_out g -> Inv g' l.
Proof. intros H Hl E. apply inv_more with (g := g) (k := 0); auto. cbn. now rewrite app_nil_r. Qed.

(** Quotes: no blank is put inside. *)
Definition writes (c : cmd) (e : str) : Prop :=
  (exists q, c = Char q /\ e = [q]) \/
  (c = Str e /\ exists d e', e = d :: e' /\ (d < 128)%N /\ ascii_alnum d = false).

Lemma put_here g c e : line_ok g -> g_newline g < gpos g -> writes c e ->
  g_out (exec1 m c g) = g_out g ++ e.
Proof.
  intros Hl L Hw. destruct (indent_spaces g Hl) as (k & E & _ & Hk).
  rewrite (Hk L) in E. cbn [repeat] in E. rewrite app_nil_r in E.
  destruct Hw as [(q & -> & ->)|(-> & d & e' & -> & Hd & Ha)]; cbn [exec1].
  - unfold do_char. cbn [with_out g_out]. now rewrite E.
  - unfold do_string. cbn [with_out g_out]. rewrite E. unfold must_add_space_before.
    destruct (last_char (g_out g)); auto. rewrite (alnum_table d), Ha by auto. rewrite andb_false_r. reflexivity.
Qed.

Lemma newline_here g c e : writes c e -> g_newline (exec1 m c g) = g_newline g.
Proof.
  intros [(q & -> & ->)|(-> & d & e' & -> & Hd & Ha)]; cbn [exec1].
  - unfold do_char. cbn [with_out g_newline]. apply newline_indent.
  - unfold do_string. cbn [with_out g_newline]. apply newline_indent.
Qed.

Lemma put_quoted g s cs q c e : line_ok g -> (q < 128)%N -> ascii_alnum q = false ->
  cs = [Str s] \/ cs = [] /\ s = [] -> writes c e ->
  exists k, g_out (exec m (Char q :: cs ++ [c]) g) = g_out g ++ repeat 32%N k ++ [q] ++ s ++ e /\
    line_ok (exec m (Char q :: cs ++ [c]) g) /\ (m = true -> k = 0).
Proof.
  intros Hl Hq Ha Hcs Hc. pose proof (line_ok_exec m (Char q :: cs ++ [c]) g Hl) as HL.
  destruct (indent_spaces g Hl) as (k & E & Hk0 & _). exists k. split; auto. clear HL.
  cbn [exec exec1] in *. set (g1 := do_char m q g) in *.
  assert (E1 : g_out g1 = g_out g ++ repeat 32%N k ++ [q]).
  { unfold g1, do_char. cbn [with_out g_out]. rewrite E. now rewrite <- !app_assoc. }
  assert (N1 : g_newline g1 = g_newline g) by (unfold g1, do_char; cbn [with_out g_newline]; apply newline_indent).
  assert (L1 : g_newline g1 < gpos g1).
  { rewrite N1. pose proof (line_ok_le _ Hl). unfold gpos in *. rewrite E1, !blen_app. cbn [blen].
    pose proof (len8_pos q). lia. }
  assert (K1 : line_ok g1) by (now apply line_ok_char).
  destruct Hcs as [->|[-> ->]]; cbn [app exec].
  - cbn [exec1]. set (g2 := do_string m s g1) in *.
    assert (E2 : g_out g2 = g_out g1 ++ s).
    { unfold g2, do_string. cbn [with_out g_out]. destruct (indent_spaces g1 K1) as (k1 & Ek & _ & Hk).
      rewrite (Hk L1) in Ek. cbn [repeat] in Ek. rewrite app_nil_r in Ek. rewrite Ek.
      assert (X : last_char (g_out g1) = Some q).
      { rewrite E1, app_assoc. apply (last_char_app _ [q]). discriminate. }
      unfold must_add_space_before. rewrite X, alnum_table, Ha by auto. destruct s; auto. }
    assert (K2 : line_ok g2) by (apply (line_ok_exec1 m (Str s) g1 K1)).
    assert (N2 : g_newline g2 = g_newline g1) by (unfold g2, do_string; cbn [with_out g_newline]; apply newline_indent).
    assert (L2 : g_newline g2 < gpos g2).
    { rewrite N2. unfold gpos in *. rewrite E2, blen_app. lia. }
    rewrite (put_here g2 c e K2 L2 Hc), E2, E1. now rewrite <- !app_assoc.
  - rewrite (put_here g1 c e K1 L1 Hc), E1. now rewrite <- !app_assoc.
Qed.

Lemma put_two g q q' : line_ok g ->
  exists k, g_out (exec m [Char q; Char q'] g) = g_out g ++ repeat 32%N k ++ [q; q'] /\ (m = true -> k = 0).
Proof.
  intros Hl. destruct (indent_spaces g Hl) as (k & E & Hk0 & _). exists k. split; auto.
  cbn [exec exec1] in *. set (g1 := do_char m q g) in *.
  assert (E1 : g_out g1 = g_out g ++ repeat 32%N k ++ [q]).
  { unfold g1, do_char. cbn [with_out g_out]. rewrite E. now rewrite <- !app_assoc. }
  assert (N1 : g_newline g1 = g_newline g) by (unfold g1, do_char; cbn [with_out g_newline]; apply newline_indent).
  assert (L1 : g_newline g1 < gpos g1).
  { rewrite N1. pose proof (line_ok_le _ Hl). unfold gpos in *. rewrite E1, !blen_app. cbn [blen].
    pose proof (len8_pos q). lia. }
  assert (K1 : line_ok g1) by (now apply line_ok_char).
  unfold do_char. cbn [with_out g_out]. destruct (indent_spaces g1 K1) as (k2 & Ek & _ & Hk).
  rewrite (Hk L1) in Ek. cbn [repeat] in Ek. rewrite app_nil_r in Ek. rewrite Ek, E1. now rewrite <- !app_assoc.
Qed.

Definition plain_item (x : titem) : Prop := match x with T v => plain v | _ => True end.

Lemma exec_app a : forall b g, exec m (a ++ b) g = exec m b (exec m a g).
Proof. induction a as [|c a IH]; intros b g; cbn [app exec]; auto. Qed.

Lemma stat_app l k : stat m (l ++ k) = fold_left (step m) k (stat m l).
Proof. unfold stat. apply fold_left_app. Qed.

Lemma apart_app2 acc l k : apart m (fst (stat m acc)) (snd (stat m acc)) (l ++ k) = true ->
  apart m (fst (stat m acc)) (snd (stat m acc)) l = true /\
  apart m (fst (stat m (acc ++ l))) (snd (stat m (acc ++ l))) k = true.
Proof.
  intros H. rewrite apart_app in H. apply andb_true_iff in H. rewrite stat_app. exact H.
Qed.

Lemma char_out g c : line_ok g -> exists k, g_out (do_char m c g) = g_out g ++ repeat 32%N k ++ [c] /\ (m = true -> k = 0).
Proof.
  intros H. unfold do_char. destruct (indent_spaces g H) as (k & E & Hk & _). exists k. cbn [with_out g_out]. rewrite E.
  rewrite <- app_assoc. auto.
Qed.

Lemma snug_one acc v : snug (fstat acc) [T v] = true -> resumes v = true -> fstat acc = false.
Proof. cbn [snug]. intros H Hc. rewrite Hc, andb_true_r in H. now apply negb_true_iff in H. Qed.
Lemma no_continue v (b : bool) : resumes v = false -> resumes v = true -> b = false.
Proof. congruence. Qed.

Lemma put_char g l p c : Inv g l -> punct_str p = [c] ->
  apart m (fst (stat m l)) (snd (stat m l)) [P p] = true -> Inv (do_char m c g) (l ++ [P p]).
Proof.
  intros H E Ha. destruct (char_out g c (inv_line _ _ H)) as (k & Ek & Hk).
  apply put with (g := g) (k := k); auto.
  - constructor.
  - apply line_ok_char, H.
  - cbn [spell]. now rewrite E.
  - discriminate.
  - discriminate.
Qed.

Lemma new_line_out g : line_ok g -> exists more, g_out (do_new_line m g) = g_out g ++ more /\ blanks more /\
  (m = true -> more = []) /\ (m = false -> more <> []).
Proof.
  intros H. unfold do_new_line. pose proof (char_out g 10%N H) as X.
  destruct (bool_dec m true) as [Em|Em].
  - exists []. rewrite Em, app_nil_r. split; auto. split; [constructor|]. split; auto. discriminate.
  - apply not_true_is_false in Em. rewrite Em in X |- *. destruct X as (k & Ek & _). exists (repeat 32%N k ++ [10%N]).
    cbv zeta. cbn [with_newline g_out]. split; auto. split; [|split].
    + apply blanks_app; [apply blanks_spaces|]. constructor; [now right|constructor].
    + discriminate.
    + intros _ E. apply app_eq_nil in E. destruct E; discriminate.
Qed.

Lemma put_new_line g l x : Inv g l -> x = NL \/ x = Brk -> Inv (do_new_line m g) (l ++ [x]).
Proof.
  intros H Hx. pose proof (line_ok_new_line m g (inv_line _ _ H)) as HL.
  destruct (new_line_out g (inv_line _ _ H)) as (more & E & Hb & H1 & H2).
  apply inv_gap with (g := g) (more := more); auto.
  - destruct Hx as [->| ->]; discriminate.
  - intros _. destruct Hx as [->| ->]; reflexivity.
  - intros [->|[X _]]; auto. destruct Hx; discriminate.
Qed.

Lemma put_nothing g l : Inv g l -> Inv g (l ++ [Brk]).
Proof.
  intros H. assert (X : line_ok g) by apply H.
  apply inv_gap with (g := g) (more := nil); auto; try discriminate.
  - now rewrite app_nil_r.
  - constructor.
  - intros [Y|[_ [Y|Y]]]; discriminate.
Qed.

(** ** Dropping the semicolon at the end of a block *)

Definition semi : option tvalue := Some (VPunct PSemiColon).

Lemma gap_stat l : forall s, m = true -> ink l = false -> fold_left (step m) l s = s.
Proof.
  induction l as [|x l IH]; intros s Em H; auto. cbn [ink existsb] in H. apply orb_false_iff in H. destruct H as [Hx H].
  destruct x; try discriminate; cbn [fold_left step]; rewrite IH; auto; rewrite Em; cbn; rewrite orb_false_r; now destruct s.
Qed.
Lemma gap_blank l : forall s, ink l = false -> snd s = true -> snd (fold_left (step m) l s) = true.
Proof.
  induction l as [|x l IH]; intros s H E; auto. cbn [ink existsb] in H. apply orb_false_iff in H. destruct H as [Hx H].
  destruct x; try discriminate; cbn [fold_left step]; apply IH; auto; cbn; now rewrite E.
Qed.

Lemma dropped_cases l :
  (dropped l = l /\ forall s, fst (fold_left (step m) l s) = semi -> snd (fold_left (step m) l s) = false ->
     ink l = false /\ fst s = semi) \/
  exists a b, l = a ++ P PSemiColon :: b /\ dropped l = a ++ b /\ ink b = false.
Proof.
  induction l as [|x l IH]; [left; auto|].
  assert (G : dropped (x :: l) = x :: dropped l -> x <> P PSemiColon \/ ink l = true ->
    (dropped (x :: l) = x :: l /\ forall s, fst (fold_left (step m) (x :: l) s) = semi ->
       snd (fold_left (step m) (x :: l) s) = false -> ink (x :: l) = false /\ fst s = semi) \/
    exists a b, x :: l = a ++ P PSemiColon :: b /\ dropped (x :: l) = a ++ b /\ ink b = false).
  { intros -> Hx. destruct IH as [(-> & IH)|(a & b & -> & -> & Hb)]; [left|right].
    - split; auto. intros s H1 H2. cbn [fold_left] in H1, H2. destruct (IH _ H1 H2) as [Hi Hf].
      destruct Hx as [Hx|Hx]; [|congruence]. destruct x; cbn [step fst] in Hf; cbn [ink existsb orb]; auto.
      + unfold semi in Hf. congruence.
      + exfalso. rewrite gap_blank in H2; auto. discriminate.
    - exists (x :: a), b. auto. }
  destruct x as [v| | | |]; try (apply G; [reflexivity|left; discriminate]).
  destruct v as [k|y|p|t|s|s|s]; try (apply G; [reflexivity|left; discriminate]).
  destruct p; try (apply G; [reflexivity|left; discriminate]). destruct (ink l) eqn:Ei.
  - apply G; auto. cbn [dropped]. now rewrite Ei.
  - right. exists [], l. cbn [dropped]. rewrite Ei. auto.
Qed.

Lemma St_gaps b : forall l out f, ink b = false -> St m (l ++ b) out f ->
  exists f0, St m l out f0.
Proof.
  induction b as [|x b IH] using rev_ind; intros l out f Hi H.
  - rewrite app_nil_r in H. eauto.
  - unfold ink in Hi. rewrite existsb_app in Hi. apply orb_false_iff in Hi. destruct Hi as [Hi Hx].
    rewrite app_assoc in H. apply St_snoc_gap in H; [|destruct x; discriminate]. destruct H as (f0 & _ & H). eauto.
Qed.
Lemma gaps_St b : forall l out f, ink b = false -> St m l out f -> exists f0, St m (l ++ b) out f0 /\ (f = true -> f0 = true).
Proof.
  induction b as [|x b IH] using rev_ind; intros l out f Hi H.
  - rewrite app_nil_r. eauto.
  - unfold ink in Hi. rewrite existsb_app in Hi. apply orb_false_iff in Hi. destruct Hi as [Hi Hx].
    destruct (IH l out f Hi H) as (f0 & H0 & Hf). exists (f0 || breaks x)%bool. rewrite app_assoc. split.
    + constructor; auto. destruct x; discriminate.
    + intros E. rewrite (Hf E). reflexivity.
Qed.

Lemma remove_last_snoc o c g : g_out g = o ++ [c] -> remove_last c g = (true, with_out o g).
Proof. intros E. unfold remove_last. rewrite E, rev_app_distr. cbn. rewrite N.eqb_refl, rev_involutive. reflexivity. Qed.
Lemma remove_last_cases c g : remove_last c g = (false, g) /\ last_char (g_out g) <> Some c \/
  exists o, g_out g = o ++ [c] /\ remove_last c g = (true, with_out o g).
Proof.
  unfold remove_last, last_char. destruct (rev (g_out g)) as [|x r] eqn:E; [left; split; [auto|discriminate]|].
  destruct (N.eqb_spec x c) as [->|Hx].
  - right. exists (rev r). split; auto. rewrite <- (rev_involutive (g_out g)), E. reflexivity.
  - left. split; auto. congruence.
Qed.

Lemma tvalue_dec_semi (u : tvalue) : u = VPunct PSemiColon \/ u <> VPunct PSemiColon.
Proof. destruct u as [ | |p| | | | ]; try (right; discriminate). destruct p; try (right; discriminate). now left. Qed.

Lemma inv_last g l : Inv g l ->
  match last_char (g_out g) with
  | Some c => (c = 32%N \/ c = 10%N) \/ exists u, fst (stat m l) = Some u /\ plain u /\ c = last (spell u) 0%N
                                             /\ (snd (stat m l) = true -> False)
  | None => fst (stat m l) = None
  end.
Proof.
  intros [Hl (out & gap & f & Eo & HS & Hb & Hn & Hh & Hm)]. rewrite Eo. destruct gap as [|x gap _] using rev_ind.
  - rewrite app_nil_r. pose proof (St_last _ _ _ HS) as X. destruct (fst (stat m l)) as [u|] eqn:Eu.
    + destruct X as (Hp & o & ->). rewrite last_char_app by now apply plain_ne. right. exists u.
      repeat (split; auto). intros Hs. apply Hh; auto. discriminate.
    + rewrite X. reflexivity.
  - rewrite last_char_app by (destruct gap; discriminate). left. rewrite last_last.
    unfold blanks in Hb. rewrite Forall_forall in Hb. apply Hb. apply in_or_app. right. now left.
Qed.

(** The semicolon before the end of minified code. *)
Lemma put_drop g acc l : m = true -> Inv g (acc ++ l) -> fst (stat m acc) <> semi ->
  Inv (snd (remove_last (ch ";") g)) (acc ++ dropped l).
Proof.
  intros Em H Hacc.
  assert (HL' : line_ok (snd (remove_last (ch ";") g))).
    { apply line_ok_drop; [reflexivity|cbv; congruence|apply H]. }
    destruct (dropped_cases l) as [[-> Hd]|(a & b & -> & -> & Hi)].
    - destruct (remove_last_cases (ch ";") g) as [[E _]|(o & E & _)]; [now rewrite E|].
      exfalso. pose proof (inv_last _ _ H) as X. rewrite E, last_char_app in X by discriminate. cbn [last] in X.
      destruct X as [[X|X]|(u & Hu & Hp & Ec & Hs)]; try discriminate.
      assert (Eu : u = VPunct PSemiColon).
      { destruct (tvalue_dec_semi u) as [Eu|Eu]; auto. exfalso. pose proof (plain_last u Hp Eu) as (_ & Y & _).
        rewrite <- Ec in Y. now apply Y. }
      subst u. destruct (Hd (stat m acc)) as [_ X].
      + rewrite <- stat_app. exact Hu.
      + rewrite <- stat_app. destruct (snd (stat m (acc ++ l))); auto. now destruct (Hs eq_refl).
      + now apply Hacc.
    - (* the semicolon goes *)
      destruct H as [Hl (out & gap & f & Eo & HS & Hb & Hn & Hh & Hm)].
      assert (Est : stat m (acc ++ a ++ P PSemiColon :: b) = (semi, false)).
      { rewrite stat_app, fold_left_app. cbn [fold_left]. rewrite (gap_stat b _ Em Hi). reflexivity. }
      rewrite Est in Hm. rewrite (Hm Em eq_refl), app_nil_r in Eo.
      replace (acc ++ a ++ P PSemiColon :: b) with (((acc ++ a) ++ [P PSemiColon]) ++ b) in HS
        by now rewrite <- !app_assoc.
      destruct (St_gaps b _ _ _ Hi HS) as (f0 & HS0).
      apply St_snoc_T in HS0. destruct HS0 as (out0 & gap0 & f1 & -> & -> & HS1 & Hb1 & Hn1 & _ & HM).
      cbn [spell punct_str] in Eo.
      assert (Eo' : g_out g = (out0 ++ gap0) ++ [ch ";"]) by (rewrite Eo, <- app_assoc; reflexivity).
      rewrite (remove_last_snoc _ _ _ Eo') in *. cbn [snd] in *.
      destruct (gaps_St b _ _ _ Hi HS1) as (f2 & HS2 & Hf2).
      constructor; auto. exists out0, gap0, f2. cbn [with_out g_out]. rewrite app_assoc.
      destruct (HM Em) as [HM1 HM2]. rewrite stat_app, (gap_stat b _ Em Hi).
      repeat (split; auto).
Qed.

(** The end of a block. *)
Lemma put_end g acc l : Inv g (acc ++ l) -> fst (stat m acc) <> semi -> fst (stat m acc) <> None ->
  Inv (do_end_block m g) (acc ++ (if m then dropped l else l) ++ [P PBracketClose]).
Proof.
  intros H Hacc Hacc0. rewrite app_assoc.
  assert (HL : line_ok (do_end_block m g)) by (apply (line_ok_exec1 m EndBlock), H).
  unfold do_end_block in *. destruct (bool_dec m true) as [Em|Em].
  - rewrite Em in HL. rewrite Em. rewrite andb_false_r in *.
    assert (X : Inv (snd (remove_last (ch ";") g)) (acc ++ dropped l)) by now apply put_drop.
    set (g1 := snd _) in *. destruct (char_out g1 (ch "}") (inv_line _ _ X)) as (k & E & Hk).
    apply put0 with (g := g1) (k := k); auto.
    + exact Logic.I.
    + now rewrite Em in E.
    + intros u _ _ _ _. apply before_close. now left.
    + discriminate.
  - apply not_true_is_false in Em. rewrite Em in HL |- *. rewrite andb_true_r in *.
    destruct H as [Hl (out & gap & f & Eo & HS & Hb & Hn & Hh & Hm)].
    destruct (at_block_start g) eqn:Eb.
    + destruct (remove_last_cases 10%N g) as [[E _]|(o & E & E')].
      * rewrite E in *. pose proof (char_out g (ch "}") Hl) as (k & Ek & Hk). rewrite Em in Ek.
        apply put_raw with (out := out) (f := f) (gap := gap ++ repeat 32%N k); auto.
        -- auto using blanks_app, blanks_spaces.
        -- intros Hi. apply in_app_or in Hi. destruct Hi as [Hi|Hi]; auto. now apply spaces_no_line in Hi.
        -- exact Logic.I.
        -- intros u _ _. apply before_close. now left.
        -- congruence.
        -- discriminate.
        -- rewrite Ek, Eo, <- !app_assoc. reflexivity.
      * rewrite E' in *. set (g1 := with_newline 0 _) in *.
        assert (Hl1 : line_ok g1).
        { pose proof (line_ok_exec1 false EndBlock g Hl) as X. cbn [exec1] in X. unfold do_end_block in X.
          rewrite Eb in X. cbn [andb negb] in X. rewrite E' in X. fold g1 in X.
          unfold g1. destruct Hl as (F & _). split; auto. cbn. exists [], o. auto. }
        pose proof (char_out g1 (ch "}") Hl1) as (k & Ek & Hk). rewrite Em in Ek.
        assert (Hg : exists gap0, gap = gap0 ++ [10%N] /\ o = out ++ gap0).
        { rewrite Eo in E. destruct gap as [|x gap _] using rev_ind.
          - exfalso. rewrite app_nil_r in E. subst out. pose proof (St_last _ _ _ HS) as X.
            destruct (fst (stat m (acc ++ l))) as [u|].
            + destruct X as (Hp & o' & X). assert (Y : last_char (o ++ [10%N]) = Some 10%N) by now apply last_char_app.
              rewrite X, last_char_app in Y by now apply plain_ne. injection Y as Y.
              destruct (tvalue_dec_semi u) as [->|Eu]; [discriminate|]. pose proof (plain_last u Hp Eu) as (Z & _).
              now apply Z.
            + destruct o; discriminate.
          - rewrite app_assoc in E. apply app_inj_tail in E. destruct E as [<- ->]. eauto. }
        destruct Hg as (gap0 & -> & ->). unfold blanks in Hb. apply Forall_app in Hb. destruct Hb as [Hb _].
        apply put_raw with (out := out) (f := f) (gap := gap0 ++ repeat 32%N k); auto.
        -- apply blanks_app; auto. apply blanks_spaces.
        -- intros Hi. apply Hn. apply in_or_app. right. now left.
        -- exact Logic.I.
        -- intros u _ _. apply before_close. now left.
        -- congruence.
        -- discriminate.
        -- rewrite Ek. unfold g1. cbn [with_newline with_out g_out]. rewrite <- !app_assoc. reflexivity.
    + pose proof (char_out g (ch "}") Hl) as (k & Ek & Hk). rewrite Em in Ek.
      apply put_raw with (out := out) (f := f) (gap := gap ++ repeat 32%N k); auto.
      -- auto using blanks_app, blanks_spaces.
      -- intros Hi. apply in_app_or in Hi. destruct Hi as [Hi|Hi]; auto. now apply spaces_no_line in Hi.
      -- exact Logic.I.
      -- intros u _ _. apply before_close. now left.
      -- congruence.
      -- discriminate.
      -- rewrite Ek, Eo, <- !app_assoc. reflexivity.
Qed.

(** ** Every sequence of calls *)

Lemma two_states g acc v tail : Inv g acc -> plain v ->
  apart m (fst (stat m acc)) (snd (stat m acc)) [T v] = true -> snug (fstat acc) [T v] = true ->
  exists g1, Inv g1 (acc ++ [T v]) /\ g_out (do_string m (spell v ++ tail) g) = g_out g1 ++ tail.
Proof.
  intros H Hp Ha HC. destruct (put_string g acc v tail H Hp) as (k & E & Hk & Hk0).
  exists (with_out (g_out g ++ repeat 32%N k ++ spell v) g). split.
  - apply put with (g := g) (k := k); auto; [apply line_ok_app, H|now apply snug_one].
  - rewrite E. cbn [with_out g_out]. now rewrite <- !app_assoc.
Qed.

Lemma line_ok_string s g : line_ok g -> line_ok (do_string m s g).
Proof. apply (line_ok_exec1 m (Str s)). Qed.

Lemma spaces_exec g acc c : Inv g acc -> (exists k, g_out (exec1 m c g) = g_out g ++ repeat 32%N k /\ (m = true -> k = 0)) ->
  Inv (exec1 m c g) acc.
Proof. intros H (k & E & Hk). apply inv_more with (g := g) (k := k); auto. apply line_ok_exec1, H. Qed.

Lemma raw_not_plain c cs : plain_item (raw (c :: cs)) -> word_char c = true.
Proof. intros (_ & H & _). cbn [forallb] in H. apply andb_true_iff in H. tauto. Qed.

Theorem reads_exec cs l : reads m cs l -> forall g acc, Inv g acc -> Forall plain_item l ->
  apart m (fst (stat m acc)) (snd (stat m acc)) l = true -> snug (fstat acc) l = true -> Inv (exec m cs g) (acc ++ l).
Proof.
  induction 1 as [|cs l ds k H1 IH1 H2 IH2|v| |p c Hc|s|h e s cs Hcs|c Hc| |u v Hb|u v|u| | | | | | | | |cs l H IH|cs l H IH];
    intros g acc HI HF HA HG.
  - now rewrite app_nil_r.
  - rewrite exec_app, app_assoc. apply apart_app2 in HA. apply snug_app2 in HG. apply Forall_app in HF. apply IH2; try tauto. apply IH1; tauto.
  - cbn [exec exec1]. inversion HF as [|? ? Hp _]; subst. cbn in Hp.
    destruct (put_string g acc v [] HI Hp) as (k & E & Hk & Hk0). rewrite !app_nil_r in E.
    apply put with (g := g) (k := k); auto; [apply line_ok_string, HI|now apply snug_one].
  - rewrite app_nil_r. apply spaces_exec; auto. cbn [exec1]. unfold do_string.
    destruct (indent_spaces g (inv_line _ _ HI)) as (k & E & Hk & _). exists k. cbn [with_out g_out].
    unfold must_add_space_before. destruct (last_char _); rewrite app_nil_r; auto.
  - cbn [exec exec1]. now apply put_char.
  - inversion HF as [|? ? Hp _]; subst. cbn [plain_item str_item plain] in Hp.
    unfold quote_.
    assert (Hq : (ls_delimiter s < 128)%N /\ ascii_alnum (ls_delimiter s) = false).
    { destruct Hp as ([-> | ->] & _); split; reflexivity. }
    destruct (put_quoted g (ls_value s) [Str (ls_value s)] (ls_delimiter s) (Char (ls_delimiter s)) [ls_delimiter s] (inv_line _ _ HI))
      as (k & E & HL & Hk); [tauto|tauto|now left|unfold writes; left; eauto|].
    unfold str_item. apply put with (g := g) (k := k); auto; discriminate.
  - inversion HF as [|? ? Hp _]; subst. cbn [plain_item] in Hp.
    set (q := if h then ch "`" else ch "}"). set (c := if e then C_ "`" else S_ "${").
    set (o := if e then chars "`" else chars "${").
    assert (Es : spell (piece h e s) = [q] ++ s ++ o) by (destruct h, e; reflexivity).
    destruct (put_quoted g s cs q c o (inv_line _ _ HI)) as (k & E & HL & Hk); auto.
    { destruct h; reflexivity. }
    { destruct h; reflexivity. }
    { unfold writes, c, o. destruct e; [left; eauto|]. right. split; [reflexivity|]. eexists; eexists. repeat split. }
    apply put with (g := g) (k := k); auto.
    + rewrite E, Es. reflexivity.
    + destruct h, e; discriminate.
    + now apply snug_one.
  - inversion HF as [|? ? Hp _]; subst. apply raw_not_plain in Hp. congruence.
  -
    pose proof (line_ok_exec m [C_ "?"; C_ "."] g (inv_line _ _ HI)) as HL2.
    destruct (put_two g (ch "?") (ch ".") (inv_line _ _ HI)) as (k2 & E2 & Hk2).
    apply put with (g := g) (k := k2); auto; [exact Logic.I|discriminate|discriminate].
  - cbn [exec exec1]. inversion HF as [|? ? Hu HF']; subst. inversion HF' as [|? ? Hv _]; subst. cbn [plain_item] in *.
    change ([T u; T v]) with ([T u] ++ [T v]) in *. apply apart_app2 in HA. destruct HA as [HA _].
    apply snug_app2 in HG. destruct HG as [HG HG2].
    destruct (two_states g acc u (spell v) HI Hu HA HG) as (g1 & H1 & E). rewrite app_assoc.
    apply put0 with (g := g1) (k := 0); auto. { apply line_ok_string, HI. }
    { intros w Hw _ _ _. rewrite stat_snoc in Hw. cbn [step fst] in Hw. congruence. }
    now apply snug_one.
  - cbn [exec exec1]. inversion HF as [|? ? Hu HF']; subst. inversion HF' as [|? ? _ HF2]; subst.
    inversion HF2 as [|? ? Hv _]; subst. cbn [plain_item] in *.
    change ([T u; Bl; T v]) with ([T u] ++ [Bl] ++ [T v]) in *. apply apart_app2 in HA. destruct HA as [HA _].
    apply snug_app2 in HG. destruct HG as [HG HG2]. apply snug_app2 in HG2. destruct HG2 as [_ HG2]. rewrite fstat_snoc in HG2.
    destruct (two_states g acc u (32%N :: spell v) HI Hu HA HG) as (g1 & H1 & E). rewrite !app_assoc.
    assert (H2 : Inv (with_out (g_out g1 ++ [32%N]) g1) ((acc ++ [T u]) ++ [Bl])).
    { apply inv_gap with (g := g1) (more := [32%N]); auto; try discriminate.
      - apply line_ok_app, H1.
      - constructor; [now left|constructor].
      - intros [X|[]]; discriminate.
      - intros _ X. now destruct X. }
    apply put0 with (g := with_out (g_out g1 ++ [32%N]) g1) (k := 0); auto.
    + apply line_ok_string, HI.
    + rewrite E. cbn [with_out g_out repeat app]. now rewrite <- app_assoc.
    + intros w _ Hs. rewrite stat_snoc in Hs. discriminate.
    + intros _. rewrite !fstat_snoc. reflexivity.
  - cbn [exec exec1]. inversion HF as [|? ? Hu HF']; subst. cbn [plain_item] in *.
    change ([T u; Bl]) with ([T u] ++ [Bl]) in *. apply apart_app2 in HA. destruct HA as [HA _].
    apply snug_app2 in HG. destruct HG as [HG _].
    destruct (two_states g acc u [32%N] HI Hu HA HG) as (g1 & H1 & E). rewrite app_assoc.
    apply inv_gap with (g := g1) (more := [32%N]); auto; try discriminate.
    + apply line_ok_string, HI.
    + constructor; [now left|constructor].
    + intros [X|[]]; discriminate.
    + intros _ X. now destruct X.
  - (* a space *)
    cbn [exec exec1]. pose proof (line_ok_exec1 m Space g (inv_line _ _ HI)) as HL. cbn [exec1] in HL.
    unfold do_space in *. destruct (char_out g 32%N (inv_line _ _ HI)) as (k & E & Hk).
    destruct (bool_dec m true) as [Em|Em].
    + rewrite Em. apply inv_gap with (g := g) (more := nil); auto; try discriminate.
      * apply HI.
      * now rewrite app_nil_r.
      * constructor.
      * intros [X|[X _]]; congruence.
    + apply not_true_is_false in Em. rewrite Em in *.
      apply inv_gap with (g := g) (more := repeat 32%N k ++ [32%N]); auto; try discriminate.
      * apply blanks_app; [apply blanks_spaces|]. constructor; [now left|constructor].
      * intros Hi. apply in_app_or in Hi. destruct Hi as [Hi|[Hi|[]]]; [now apply spaces_no_line in Hi|discriminate].
      * intros _ X. apply app_eq_nil in X. destruct X; discriminate.
      * congruence.
  - cbn [exec exec1]. apply put_new_line; auto.
  - cbn [exec exec1]. unfold do_separation. destruct (at_block_start g); [now apply put_nothing|apply put_new_line; auto].
  - cbn [exec exec1]. unfold do_stmt_end. destruct (Nat.eqb _ _); [now apply put_nothing|apply put_new_line; auto].
  - rewrite app_nil_r. apply inv_same with (g := g); auto. apply line_ok_exec, HI.
  - rewrite app_nil_r. apply inv_same with (g := g); auto. apply line_ok_exec, HI.
  - rewrite app_nil_r. apply inv_same with (g := g); auto. apply line_ok_exec, HI.
  - rewrite app_nil_r. apply inv_same with (g := g); auto. { apply line_ok_exec, HI. } cbn [exec exec1]. now destruct (g_stack g).
  - (* a block *)
    cbn [exec exec1]. rewrite exec_app. cbn [exec exec1].
    unfold blk in *. change (P PBracketOpen :: Brk :: (if m then dropped l else l) ++ [P PBracketClose])
      with ([P PBracketOpen] ++ [Brk] ++ ((if m then dropped l else l) ++ [P PBracketClose])) in *.
    apply apart_app2 in HA. destruct HA as [HA1 HA]. apply apart_app2 in HA. destruct HA as [_ HA].
    apply apart_app2 in HA. destruct HA as [HA _].
    assert (H1 : Inv (do_start_block m g) ((acc ++ [P PBracketOpen]) ++ [Brk])).
    { pose proof (line_ok_exec1 m StartBlock g (inv_line _ _ HI)) as HL. cbn [exec1] in HL.
      unfold do_start_block in *. cbv zeta in *.
      apply inv_same with (g := do_new_line m (do_char m (ch "{") g)); auto.
      apply put_new_line; auto. apply put_char; auto. }
    rewrite !app_assoc. rewrite <- (app_assoc _ (if m then dropped l else l)). apply put_end.
    + apply IH; auto.
      * apply Forall_app in HF. destruct HF as [_ HF]. apply Forall_app in HF. destruct HF as [_ HF].
        apply Forall_app in HF. destruct HF as [HF _]. destruct m; auto.
        destruct (dropped_cases l) as [[E _]|(a & b & -> & E & _)]; [now rewrite E in HF|].
        rewrite E in HF. apply Forall_app in HF. apply Forall_app. split; [tauto|]. constructor; [exact Logic.I|tauto].
      * destruct (bool_dec m true) as [Em|Em]; [|apply not_true_is_false in Em; rewrite Em in *; exact HA].
        rewrite Em in HA. destruct (dropped_cases l) as [[E _]|(a & b & -> & E & Hi)]; [rewrite E in HA; now rewrite Em|].
        rewrite E in HA. rewrite Em. rewrite apart_app in HA |- *. apply andb_true_iff in HA. destruct HA as [HA _].
        rewrite HA. cbn [andb apart]. apply andb_true_iff. split.
        -- destruct (fst (fold_left _ a _)) as [u|]; auto. apply orb_true_iff. right. unfold together. cbn [spell punct_str].
           apply orb_true_iff. right. apply before_close. now right.
        -- clear -Hi. generalize (VPunct PSemiColon), false. induction b as [|x b IHb]; intros v0 f0; auto.
           cbn [ink existsb] in Hi. apply orb_false_iff in Hi. destruct Hi as [Hx Hi].
           destruct x; try discriminate; cbn [apart]; auto.
      * rewrite !fstat_snoc. cbn [app snug break_after resumes andb negb] in HG |- *. rewrite snug_app in HG.
        apply andb_true_iff in HG. destruct HG as [HG _]. destruct m; auto.
        destruct (dropped_cases l) as [[E _]|(a & b & -> & E & Hi)]; rewrite E in HG; auto.
        rewrite snug_app in HG |- *. apply andb_true_iff in HG. destruct HG as [HG _]. rewrite HG. cbn [andb snug resumes negb].
        clear -Hi. generalize false. induction b as [|x b IHb]; intros f0; auto.
        cbn [ink existsb] in Hi. apply orb_false_iff in Hi. destruct Hi as [Hx Hi].
        destruct x; try discriminate; cbn [snug]; auto.
    + rewrite stat_snoc. cbn [step]. rewrite stat_snoc. discriminate.
    + rewrite stat_snoc. cbn [step]. rewrite stat_snoc. discriminate.
  - (* a semicolon taken back *)
    rewrite exec_app. cbn [exec exec1]. pose proof (IH g acc HI HF HA HG) as H1. set (g1 := exec m cs g) in *.
    destruct (char_out g1 (ch ";") (inv_line _ _ H1)) as (k & E & Hk).
    set (g2 := do_char m (ch ";") g1) in *. set (g3 := match g_stack g2 with [] => _ | _ => _ end).
    assert (E3 : g_out g3 = (g_out g1 ++ repeat 32%N k) ++ [ch ";"]).
    { unfold g3. destruct (g_stack g2); cbn [g_out]; rewrite E, <- app_assoc; reflexivity. }
    assert (L3 : line_ok g3).
    { change g3 with (exec1 m Pop (exec1 m (C_ ";") g1)). apply line_ok_exec1, line_ok_exec1, H1. }
    pose proof (line_ok_exec1 m DropSemicolon g3 L3) as L4. cbn [exec1] in L4.
    rewrite (remove_last_snoc _ _ _ E3) in *. apply inv_more with (g := g1) (k := k); auto.
Qed.

(** ** Reading the text back *)

(** The value of the token a token starts with in a source. *)
Definition slashes (v w : tvalue) : Prop :=
  match v with
  | VLiteral (TLRegexp _) => w = VPunct PSlash \/ w = VPunct PSlashEqual
  | VTemplateMiddle _ | VTemplateTail _ => w = VPunct PBracketClose
  | _ => w = v
  end.

(** [shown b l ts b']: [ts] are the tokens of [l]; a token comes first on a
    line only where a line break may stand.  A regular expression and the rest of
    a template are two tokens (Source.v). *)
Inductive shown : bool -> list titem -> list token -> bool -> Prop :=
| sh_nil b : shown b [] [] b
| sh_T b v l t ts b' : t_value t = v -> special v = false -> (t_fol t = true -> b = true) -> shown false l ts b' ->
    shown b (T v :: l) (t :: ts) b'
| sh_two b v l o t ts b' : special v = true -> slashes v (t_value o) -> t_value t = v -> (t_fol o = true -> b = true) ->
    shown false l ts b' -> shown b (T v :: l) (o :: t :: ts) b'
| sh_gap b x l ts b' : (forall v, x <> T v) -> shown (b || breaks x) l ts b' -> shown b (x :: l) ts b'.

Lemma shown_app b l1 : forall b1 ts1 b2 l2 ts2, shown b l1 ts1 b1 -> shown b1 l2 ts2 b2 -> shown b (l1 ++ l2) (ts1 ++ ts2) b2.
Proof.
  intros b1 ts1 b2 l2 ts2 H. revert b2 l2 ts2. induction H; intros b2 l2 ts2 HH2; cbn [app]; auto;
    [apply sh_T|apply sh_two|apply sh_gap]; auto.
Qed.

Lemma blanks_trivia html gap : forall f after, blanks gap ->
  trivia html f gap after (f || existsb (N.eqb 10) gap)%bool.
Proof.
  induction gap as [|c gap IH]; intros f after H; cbn [existsb].
  - rewrite orb_false_r. constructor.
  - inversion H as [|? ? Hc Hb]; subst. destruct Hc as [->| ->].
    + change (32%N :: gap) with ([32%N] ++ gap). apply trivia_cons with (f1 := f); [|now apply IH].
      apply piece_space. cbv. tauto.
    + change (10%N :: gap) with ([10%N] ++ gap). apply trivia_cons with (f1 := true); [|].
      * apply piece_newline. cbv. tauto.
      * change (10 =? 10)%N with true. rewrite orb_true_r. exact (IH true after Hb).
Qed.

Lemma St_flag l out f : St m l out f -> fst (stat m l) = None -> f = true.
Proof.
  induction 1 as [|l out f gap v H IH Hb Hl Hp Hj HM HC|l out f x H IH Hx]; auto.
  - rewrite stat_snoc. discriminate.
  - rewrite stat_snoc. intros E. rewrite IH; auto. destruct x; cbn [step fst] in E; auto. discriminate.
Qed.

(** A text divided into tokens, as [source_tokens] (Source.v), without positions. *)
Inductive written_as (st : lexer_state) : bool -> str -> list (tvalue * bool) -> Prop :=
| wa_end f gap f' : trivia (html_comment_allowed st) f gap [] f' -> written_as st f gap []
| wa_token f gap s after v f' vs :
    trivia (html_comment_allowed st) f gap (s ++ after) f' -> ~ starts_comment (s ++ after) ->
    lexeme st s after v -> (f' = true -> v = VPunct PDoubleMinus -> ~ prefix (chars ">") after) ->
    written_as st false after vs -> written_as st f (gap ++ s ++ after) ((v, f') :: vs)
| wa_regexp f gap s after f' vs :
    trivia (html_comment_allowed st) f gap (s ++ after) f' -> ~ starts_comment (s ++ after) ->
    lexeme ls_regex_allowed s after (VLiteral (TLRegexp s)) ->
    written_as st false after vs ->
    written_as st f (gap ++ s ++ after) ((VPunct (slash_of s), f') :: (VLiteral (TLRegexp s), f') :: vs)
| wa_template f gap s after v f' vs :
    trivia (html_comment_allowed st) f gap (s ++ after) f' -> template_continue s v ->
    written_as st f' after vs ->
    written_as st f (gap ++ s ++ after) ((VPunct PBracketClose, f') :: (v, false) :: vs).

Lemma written_tokens D st f rest vs : inside_template st = false ->
  written_as st f rest vs -> forall pre, D = pre ++ rest ->
  exists ts, source_tokens D st pre f ts /\ map value_fol ts = vs.
Proof.
  intros Hin. induction 1 as [f gap f' Hg|f gap s after v f' vs Hg Hc Hs Hm H IH|f gap s after f' vs Hg Hc Hs H IH
    |f gap s after v f' vs Hg Hs H IH]; intros pre HD.
  - exists []. split; auto. eapply so_end; eauto.
  - destruct (IH (pre ++ gap ++ s)) as (ts & Ht & Hv).
    { rewrite HD, <- !app_assoc. reflexivity. }
    eexists (_ :: ts). split; [eapply so_token; [eapply lexed_intro; eauto|exact Ht]|].
    cbn [map value_fol t_value t_fol]. now rewrite Hv.
  - destruct (IH (pre ++ gap ++ s)) as (ts & Ht & Hv).
    { rewrite HD, <- !app_assoc. reflexivity. }
    eexists (_ :: _ :: ts). split; [eapply so_regexp; eauto|]. cbn [map value_fol t_value t_fol]. now rewrite Hv.
  - destruct (IH (pre ++ gap ++ s)) as (ts & Ht & Hv).
    { rewrite HD, <- !app_assoc. reflexivity. }
    eexists (_ :: _ :: ts). split; [eapply so_template; eauto|]. cbn [map value_fol t_value t_fol]. now rewrite Hv.
Qed.

Lemma slashes_of s : slashes (VLiteral (TLRegexp s)) (VPunct (slash_of s)).
Proof. cbn. unfold slash_of. destruct s as [|a [|c s]]; auto. destruct (N.eqb c (ch "=")); auto. Qed.
Lemma map_two (ts : list token) vs a b : map value_fol ts = vs ++ [a; b] ->
  exists ts0 o t, ts = ts0 ++ [o; t] /\ map value_fol ts0 = vs /\ value_fol o = a /\ value_fol t = b.
Proof.
  destruct ts as [|t ts _] using rev_ind; [now destruct vs|]. destruct ts as [|o ts _] using rev_ind.
  - destruct vs as [|? [|]]; discriminate.
  - change (vs ++ [a; b]) with (vs ++ [a] ++ [b]). rewrite app_assoc, !map_app. intros E.
    apply app_inj_tail in E. destruct E as [E E1]. apply app_inj_tail in E. destruct E as [E E2].
    exists ts, o, t. rewrite <- app_assoc. auto.
Qed.

Lemma special_cases v : special v = true -> (exists s, v = VLiteral (TLRegexp s)) \/ resumes v = true.
Proof. destruct v as [| | |[]| | |]; try discriminate; eauto. Qed.

Lemma St_spelled st l out f : regex_allowed st = false -> St m l out f -> forall rest vs f1,
  match fst (stat m l) with None => f1 = true | Some u => f1 = false /\ ok_after u rest end ->
  written_as st f1 rest vs ->
  exists vs', written_as st true (out ++ rest) (vs' ++ vs) /\ forall ts, map value_fol ts = vs' -> shown true l ts f.
Proof.
  intros Hst. induction 1 as [|l out f gap v H IH Hb Hl Hp Hj HM HC|l out f x H IH Hx]; intros rest vs f1 Hf Hr.
  - cbn in Hf. subst f1. exists []. split; auto. intros ts E. destruct ts; [constructor|discriminate].
  - rewrite stat_snoc in Hf. cbn [step fst] in Hf. destruct Hf as [-> Ha].
    destruct (plain_cons v Hp) as (c & s & Ec & Hlt).
    set (f0 := match fst (stat m l) with None => true | Some _ => false end).
    set (f2 := (f0 || existsb (N.eqb 10) gap)%bool).
    assert (Hf2 : f2 = true -> f = true).
    { unfold f2. intros Hi. apply orb_true_iff in Hi. destruct Hi as [Hi|Hi].
      - apply (St_flag _ _ _ H). unfold f0 in Hi. now destruct (fst (stat m l)).
      - apply Hl. apply existsb_exists in Hi. destruct Hi as (y & Hy & E). apply N.eqb_eq in E. now subst y. }
    assert (Hok : match fst (stat m l) with None => f0 = true | Some u => f0 = false /\ ok_after u (gap ++ spell v ++ rest) end).
    { unfold f0. destruct (fst (stat m l)) as [u|] eqn:Eu; auto. split; auto. right. destruct gap as [|c0 gap].
      - exists c, (s ++ rest). cbn [app]. rewrite Ec. split; [reflexivity|]. split; auto.
        specialize (Hj u eq_refl eq_refl). now rewrite Ec in Hj.
      - exists c0, (gap ++ spell v ++ rest). split; [reflexivity|]. inversion Hb as [|? ? Hc _]; subst.
        split; [destruct Hc as [->| ->]; reflexivity|]. now apply before_blank. }
    assert (Hg : forall x, trivia (html_comment_allowed st) f0 gap x f2) by (intros x; now apply blanks_trivia).
    assert (Hnc : ~ starts_comment (spell v ++ rest)) by now apply no_comment.
    destruct (special v) eqn:Esp.
    + destruct (special_cases v Esp) as [(r & ->)|Hco].
      * destruct (IH (gap ++ r ++ rest) ((VPunct (slash_of r), f2) :: (VLiteral (TLRegexp r), f2) :: vs) f0 Hok) as (vs' & Hs & Hsh).
        { eapply wa_regexp; eauto. now apply lexeme_regexp_after. }
        exists (vs' ++ [(VPunct (slash_of r), f2); (VLiteral (TLRegexp r), f2)]). cbn [spell]. rewrite <- !app_assoc. split; [exact Hs|].
        intros ts E. apply map_two in E. destruct E as (ts0 & o & t & -> & E0 & Eo & Et). unfold value_fol in Eo, Et.
        injection Eo as Eo Fo. injection Et as Et Ft. apply shown_app with (b1 := f); [now apply Hsh|].
        apply sh_two; auto; [|rewrite Fo; auto|constructor]. rewrite Eo. apply slashes_of.
      * assert (f2 = false) as E2.
        { destruct f2; auto. rewrite (HC Hco) in Hf2. now specialize (Hf2 eq_refl). }
        destruct (IH (gap ++ spell v ++ rest) ((VPunct PBracketClose, f2) :: (v, false) :: vs) f0 Hok) as (vs' & Hs & Hsh).
        { eapply wa_template; eauto; [now apply continue_after|]. now rewrite E2. }
        exists (vs' ++ [(VPunct PBracketClose, f2); (v, false)]). rewrite <- !app_assoc. split; [exact Hs|].
        intros ts E. apply map_two in E. destruct E as (ts0 & o & t & -> & E0 & Eo & Et). unfold value_fol in Eo, Et.
        injection Eo as Eo Fo. injection Et as Et Ft. apply shown_app with (b1 := f); [now apply Hsh|].
        apply sh_two; auto; [|rewrite Fo; auto|constructor]. rewrite Eo. now destruct v.
    + destruct (IH (gap ++ spell v ++ rest) ((v, f2) :: vs) f0 Hok) as (vs' & Hs & Hsh).
      { eapply wa_token; eauto.
        - now apply lexeme_after.
        - intros _ ->. now apply no_close. }
      exists (vs' ++ [(v, f2)]). rewrite <- !app_assoc. split; [exact Hs|].
      intros ts E. destruct ts as [|t ts _] using rev_ind; [now destruct vs'|].
      rewrite map_app in E. apply app_inj_tail in E. destruct E as [E1 E2]. unfold value_fol in E2. injection E2 as Ev Ef.
      apply shown_app with (b1 := f); [now apply Hsh|]. apply sh_T; auto; [rewrite Ef; auto|constructor].
  - destruct (IH rest vs f1) as (vs' & Hs & Hsh); auto.
    + rewrite stat_snoc in Hf. destruct x; auto. now destruct (Hx v).
    + exists vs'. split; auto. intros ts E. rewrite <- (app_nil_r ts). apply shown_app with (b1 := f); auto.
      apply sh_gap; auto. constructor.
Qed.

(** The text in the printer is read back as the tokens it stands for. *)
(** Also with blanks [e] after the text. *)
Theorem inv_tokens_blanks g l st e : Inv g l -> regex_allowed st = false -> inside_template st = false -> blanks e ->
  exists ts f, source_tokens (g_out g ++ e) st [] true ts /\ shown true l ts f.
Proof.
  intros [Hl (out & gap & f & Eo & HS & Hb & Hn & Hh & Hm)] Hst Hin He.
  set (f1 := match fst (stat m l) with None => true | Some _ => false end).
  pose proof (blanks_app _ _ Hb He) as Hbe. rewrite Eo, <- app_assoc. clear Hb Hn Hh Hm Eo.
  revert Hbe. generalize (gap ++ e). clear gap. intros gap Hb.
  destruct (St_spelled st l out f Hst HS gap [] f1) as (vs & Hs & Hsh).
  - unfold f1. destruct (fst (stat m l)) as [u|]; auto. split; auto. destruct gap as [|c gap]; [now left|right].
    exists c, gap. split; auto. inversion Hb as [|? ? Hc _]; subst. split; [destruct Hc as [->| ->]; reflexivity|].
    now apply before_blank.
  - econstructor. now apply blanks_trivia.
  - rewrite app_nil_r in Hs. destruct (written_tokens _ st _ _ _ Hin Hs [] eq_refl) as (ts & Ht & E).
    exists ts, f. split; auto.
Qed.

Theorem inv_tokens g l st : Inv g l -> regex_allowed st = false -> inside_template st = false ->
  exists ts f, source_tokens (g_out g) st [] true ts /\ shown true l ts f.
Proof.
  intros H1 H2 H3. rewrite <- (app_nil_r (g_out g)). apply inv_tokens_blanks; auto. constructor.
Qed.

End Inv.
