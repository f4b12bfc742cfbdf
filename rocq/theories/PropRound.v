(** * PropRound: the code printed for a tree is parsed as that tree (C34). *)

From Verif Require Import Base Tokens Lexer LexSpec LexerFacts LexProps Source Ast AstSpec Parser ParseRuns Layout Bare Written Starts
  Codegen PropCodegen Unparse PrintLex Print PrintNode PrintShape Regen GenBare PropLexer PropParser PropComplete.
Local Open Scope string_scope.
Local Open Scope list_scope.

Section Round.
Context {PF : Platform}.

Lemma inv_new m : Inv m gst_new [].
Proof.
  constructor.
  - split; [reflexivity|]. exists [], []. auto.
  - exists [], [], true. split; [reflexivity|]. split; [constructor|]. split; [constructor|]. auto.
Qed.

Lemma inv_program_end m g l : Inv m g l ->
  exists d, (d = true -> m = true) /\ Inv m (do_program_end m g) (dr d l).
Proof.
  intros H. pose proof (line_ok_program_end m g (inv_line _ _ _ H)) as HL.
  destruct (bool_dec m true) as [Em|Em].
  - unfold do_program_end in *. rewrite Em in HL |- *. cbn iota in *.
    pose proof (put_drop m g [] l Em H ltac:(discriminate)) as HD. cbn [app] in HD.
    destruct (remove_last_cases (ch ";") g) as [[E _]|(o & Eo & E)]; rewrite E in HL, HD |- *; cbn [snd] in HD.
    + exists false. split; [discriminate|]. rewrite Em in H. exact H.
    + destruct (last_char (g_out (with_out o g))) as [c|] eqn:Ec; cbv beta iota in HL |- *.
      * destruct (N.eqb c (ch ")")) eqn:Ep.
        -- exists false. split; [discriminate|]. subst m. cbn [dr].
           apply inv_same with (g := g); auto.
        -- exists true. split; auto. rewrite Em in HD. exact HD.
      * exists true. split; auto. rewrite Em in HD. exact HD.
  - apply not_true_is_false in Em. exists false. split; [discriminate|].
    unfold do_program_end. rewrite Em. rewrite Em in H. exact H.
Qed.

Lemma inv_ascii m g l : Inv m g l -> ascii_str (g_out g) = true.
Proof.
  intros [_ (out & gap & f & -> & HS & Hb & _)]. rewrite ascii_str_app, (St_ascii _ _ _ _ HS). cbn [andb].
  unfold ascii_str. apply forallb_forall. intros c Hc. unfold blanks in Hb. rewrite Forall_forall in Hb.
  apply Hb in Hc. destruct Hc as [->| ->]; reflexivity.
Qed.

(** The tokens of the tree [n] do not run together when they are printed
    (and no line break comes before the [}] of a template, which always holds of
    printed trees but is checked here). *)
Definition tokens_apart (minified : bool) (n : node) : Prop :=
  apart minified None false (items minified n) = true /\ snug true (items minified n) = true.

Lemma printed m r a cc c ts : G cc c ts (N (bare a)) -> it m cc (N (bare a)) = items m (bare a) ->
  Forall good ts -> printable m (bare a) -> tokens_apart m (bare a) ->
  Inv m (exec m (root r a) gst_new) (items m (bare a) ++ match r with RStmt => [Brk] | _ => [] end).
Proof.
  intros HG Ei Hg Hp Ha.
  destruct (G_shape m _ _ _ _ HG Hg Hp) as [Hpl _]. rewrite Ei in Hpl.
  assert (HR : reads m (gen a) (items m (bare a))).
  { rewrite <- gen_bare. apply gen_reads. intros d Hd. specialize (Hp d Hd). destruct d; try exact Logic.I.
    cbn [node_ok kind_ok] in *; destruct declarations; [discriminate Hp|discriminate]. }
  destruct Ha as [Ha Hsn].
  pose proof (reads_exec m _ _ HR gst_new [] (inv_new m) Hpl Ha Hsn) as H1. cbn [app] in H1.
  destruct r; cbn [root].
  - now rewrite app_nil_r.
  - rewrite exec_app. apply (reads_exec m [StmtEnd] [Brk]); auto.
    + constructor.
    + constructor; [exact Logic.I|constructor].
  - now rewrite app_nil_r.
Qed.

Lemma blanks_ascii e : blanks e -> ascii_str e = true.
Proof.
  intros Hb. apply forallb_forall. intros c Hc. unfold blanks in Hb. rewrite Forall_forall in Hb.
  apply Hb in Hc. destruct Hc as [->| ->]; reflexivity.
Qed.

(** The generated code may be followed by spaces and line feeds. *)
Theorem C34_followed_partial minified md ts a text e :
  G CProgram (ctx_default md) ts (N (bare a)) -> Forall (fun t => plain (t_value t)) ts ->
  printable minified (bare a) -> tokens_apart minified (bare a) ->
  generate minified RProgram a = Some text -> Forall (fun c => c = 32%N \/ c = 10%N) e ->
  exists a', accepts TProgram md (text ++ e) a' /\ bare a' = bare a.
Proof.
  intros HG Hg Hp Ha E He. pose proof (printed minified RProgram a _ _ _ HG eq_refl Hg Hp Ha) as HI.
  rewrite app_nil_r in HI. destruct (inv_program_end _ _ _ HI) as (d & Hd & HI').
  unfold generate, generated in E. destruct (g_fault _); [discriminate|]. injection E as <-.
  assert (He' : blanks e) by exact He.
  destruct (inv_tokens_blanks minified _ _ (start_state md) e HI' eq_refl eq_refl He') as (ts' & f & HT & HS).
  apply (C41_program_partial md _ ts'); auto.
  - rewrite ascii_str_app. apply andb_true_iff. split; [exact (inv_ascii _ _ _ HI')|exact (blanks_ascii _ He')].
  - destruct (G_regen minified _ _ _ _ HG Hg Hp) as [HR _]. exact (HR d true ts' f Hd HS).
Qed.

Theorem C34_program_partial minified md ts a text :
  G CProgram (ctx_default md) ts (N (bare a)) -> Forall (fun t => plain (t_value t)) ts ->
  printable minified (bare a) -> tokens_apart minified (bare a) ->
  generate minified RProgram a = Some text ->
  exists a', accepts TProgram md text a' /\ bare a' = bare a.
Proof.
  intros HG Hg Hp Ha E. rewrite <- (app_nil_r text). eapply C34_followed_partial; eauto.
Qed.

Theorem C34_statement_partial minified md ts a text :
  G (CTop None) (ctx_default md) ts (N (bare a)) -> Forall (fun t => plain (t_value t)) ts ->
  printable minified (bare a) -> tokens_apart minified (bare a) ->
  generate minified RStmt a = Some text ->
  exists a', accepts TStmt md text a' /\ bare a' = bare a.
Proof.
  intros HG Hg Hp Ha E. pose proof (printed minified RStmt a _ _ _ HG eq_refl Hg Hp Ha) as HI.
  unfold generate, generated in E. destruct (g_fault _); [discriminate|]. injection E as <-.
  destruct (inv_tokens minified _ _ (start_state md) HI eq_refl eq_refl) as (ts' & f & HT & HS).
  apply (C41_statement_partial md _ ts'); auto.
  - exact (inv_ascii _ _ _ HI).
  - destruct (G_regen minified _ _ _ _ HG Hg Hp) as [HR _].
    cbn [regen] in HR.
    assert (HS' : exists f', shown true (items minified (bare a)) ts' f').
    { clear - HS. revert HS. generalize true at 1 2. generalize (items minified (bare a)). intros l. revert ts'.
      induction l as [|x l IH]; intros ts' b H; cbn [app] in H.
      - inversion H as [| | |b0 x l ts b' Hx H']; subst.
        inversion H'; subst. eexists. constructor.
      - inversion H as [|b0 v l0 t ts b' Ev Hv Ef H'|b0 v l0 o t ts b' Hv Eo Ev Ef H'|b0 y l0 ts b' Hx H']; subst.
        + destruct (IH _ _ H') as [f' X]. exists f'. apply sh_T; auto.
        + destruct (IH _ _ H') as [f' X]. exists f'. apply sh_two; auto.
        + destruct (IH _ _ H') as [f' X]. exists f'. constructor; auto. }
    destruct HS' as [f' HS'].
    refine (HR None false true ts' f' Logic.I _ HS').
    repeat split; try discriminate; auto.
Qed.

Theorem C34_expression_partial minified md ts a text :
  G (CE 0) (with_in true (ctx_default md)) ts (N (bare a)) -> Forall (fun t => plain (t_value t)) ts ->
  printable minified (bare a) -> tokens_apart minified (bare a) ->
  generate minified RExpr a = Some text ->
  exists a', accepts TExpr md text a' /\ bare a' = bare a.
Proof.
  intros HG Hg Hp Ha E. pose proof (printed minified RExpr a _ _ _ HG eq_refl Hg Hp Ha) as HI.
  rewrite app_nil_r in HI.
  unfold generate, generated in E. destruct (g_fault _); [discriminate|]. injection E as <-.
  destruct (inv_tokens minified _ _ (start_state md) HI eq_refl eq_refl) as (ts' & f & HT & HS).
  apply (C41_expression_partial md _ ts'); auto.
  - exact (inv_ascii _ _ _ HI).
  - destruct (G_regen minified _ _ _ _ HG Hg Hp) as [HR _]. exact (HR true ts' f HS).
Qed.

(** ** Sources *)

Definition no_backslash (s : str) : Prop := ~ In 92%N s.

Lemma word_tail_same s v : word_tail s v -> no_backslash s -> v = s /\ forall c, In c s -> id_part_char c.
Proof.
  induction 1 as [|c w v Hc _ IH|e c w v He Hc _ IH]; intros Hb.
  - split; auto. intros c [].
  - destruct IH as [-> IH].
    + intros Hi. apply Hb. now right.
    + split; auto. intros d [<-|Hd]; auto.
  - exfalso. apply Hb. destruct He; now left.
Qed.

Lemma string_same q s v : string_body q s v -> no_backslash s -> v = s.
Proof.
  induction 1 as [|c s v _ _ _ _ _ IH| |]; intros Hb; auto.
  - f_equal. apply IH. intros Hi. apply Hb. now right.
  - exfalso. apply Hb. now left.
  - exfalso. apply Hb. now left.
Qed.
Lemma template_same e s v : template_body e s v -> no_backslash s -> v = s.
Proof.
  induction 1 as [|c s v _ _ _ _ IH|]; intros Hb; auto.
  - f_equal. apply IH. intros Hi. apply Hb. now right.
  - exfalso. apply Hb. now left.
Qed.

Lemma start_not_digit c : (c < 128)%N -> id_start_char c -> digit_char c = false.
Proof.
  intros Hc H. destruct (digit_char c) eqn:E; auto. exfalso. unfold digit_char, in_range in E.
  apply andb_true_iff in E. destruct E as [E1 E2]. apply N.leb_le in E1, E2.
  destruct H as [H|[H|[H|H]]].
  - unfold letter in H. cbn in H. repeat (destruct H as [<-|H]; [lia|]). destruct H.
  - subst c. cbv in E1, E2. congruence.
  - subst c. cbv in E1, E2. congruence.
  - apply id_start_ascii in H; auto. unfold in_range in H. apply orb_true_iff in H.
    destruct H as [H|H]; apply andb_true_iff in H; destruct H as [H _]; apply N.leb_le in H; lia.
Qed.

Lemma ascii_in s c : ascii_str s = true -> In c s -> (c < 128)%N.
Proof. unfold ascii_str. rewrite forallb_forall. intros H Hi. apply N.ltb_lt. now apply H. Qed.

Lemma chunk_plain s v (b : bool) : ascii_str s = true -> no_backslash s -> template_chunk s v b ->
  ascii_str v = true /\ if b then template_body (chars "${") v v else template_body (chars "`") v v.
Proof.
  intros Ha Hb H. revert Ha Hb. destruct H as [s' v' Hs|s' v' Hs]; intros Ha Hb; apply ascii_app_inv in Ha; destruct Ha as [Ha _];
    (assert (Es : v' = s') by (apply (template_same _ _ _ Hs); intros Hi; apply Hb; apply in_or_app; now left)); subst v'; auto.
Qed.
Lemma lexeme_plain st s after v : ascii_str s = true -> no_backslash s -> special v = false ->
  lexeme st s after v -> plain v.
Proof.
  intros Ha Hb Hr H. destruct H as [p after _ _ _|s v tv after Hw Hv _ _|s after Hn _|q s v after Hq Hs|s v after Hs
    |s v after Hs|s flags after Hx _ _ _].
  - exact Logic.I.
  - destruct Hw as [c w v Hc Ht|e c w v He _ _]; [|exfalso; apply Hb; destruct He; now left].
    assert (Hc' : (c < 128)%N) by (apply (ascii_in _ _ Ha); now left).
    destruct (word_tail_same _ _ Ht) as [-> Hp]; [intros Hi; apply Hb; now right|].
    destruct Hv as [(k & _ & ->)|[Hk ->]]; [exact Logic.I|]. split; [|split].
    + destruct (keyword_from_str (c :: w)) as [k|] eqn:E; auto. apply C06_keyword_roundtrip in E. now destruct (Hk k).
    + apply forallb_forall. intros d Hd. apply word_part; [now apply (ascii_in _ _ Ha)|]. destruct Hd as [<-|Hd]; auto.
      apply LexChars.id_start_part. exact Hc.
    + exists c, w. split; auto. now apply start_not_digit.
  - split; eauto.
  - assert (Es : v = s).
    { apply (string_same _ _ _ Hs). intros Hi. apply Hb. right. cbn; apply in_or_app; now left. }
    subst v. split; auto. split; auto. cbn [app] in Ha. apply (ascii_app_inv [q]) in Ha. destruct Ha as [_ Ha].
    now apply ascii_app_inv in Ha.
  - apply (chunk_plain s v false); [now apply ascii_app_inv in Ha|intros Hi; apply Hb; now right|exact Hs].
  - apply (chunk_plain s v true); [now apply ascii_app_inv in Ha|intros Hi; apply Hb; now right|exact Hs].
  - discriminate Hr.
Qed.
Lemma regexp_plain st s after : ascii_str s = true -> ~ starts_comment (s ++ after) -> lexeme st s after (VLiteral (TLRegexp s)) ->
  plain (VLiteral (TLRegexp s)).
Proof.
  intros Ha Hc H.
  assert (X : exists b flags, s = chars "/" ++ b ++ chars "/" ++ flags /\ regexp_body b /\ forall c, In c flags -> id_part_char c).
  { inversion H as [|? ? ? ? _ Hv| | | | |b flags ? _ Hb Hf _]; subst.
    - destruct Hv as [(k & _ & Hv)|[_ Hv]]; discriminate Hv.
    - eauto. }
  destruct X as (b & flags & -> & Hb & Hf). split; [exact Ha|]. exists b, flags. repeat split; auto.
  - intros ->. apply Hc. left. exists (flags ++ after). reflexivity.
  - destruct b as [|c b]; [discriminate|]. cbn [hd]. intros ->. apply Hc. right. left.
    exists ((b ++ chars "/" ++ flags) ++ after). reflexivity.
  - apply forallb_forall. intros c Hi. apply word_part; [|now apply Hf]. apply (ascii_in _ _ Ha).
    apply in_or_app. right. apply in_or_app. right. apply in_or_app. now right.
Qed.
Lemma continue_plain s v : ascii_str s = true -> no_backslash s -> template_continue s v -> plain v.
Proof.
  intros Ha Hb HC. revert Ha Hb. destruct HC as [s' v' H|s' v' H]; intros Ha Hb; apply ascii_app_inv in Ha; destruct Ha as [_ Ha].
  - apply (chunk_plain s' v' false); [exact Ha|intros Hi; apply Hb; now right|exact H].
  - apply (chunk_plain s' v' true); [exact Ha|intros Hi; apply Hb; now right|exact H].
Qed.

(** What is written for the token [t] in the (ASCII) source [D]. *)
Definition text_of (D : str) (t : token) : str :=
  firstn (sp_end (t_span t) - sp_start (t_span t)) (skipn (sp_start (t_span t)) D).
(** No backslash is written in the token, unless it is a regular expression. *)
Definition unescaped (D : str) (t : token) : Prop :=
  (exists s, t_value t = VLiteral (TLRegexp s)) \/ no_backslash (text_of D t).

Lemma text_at D (a b c : str) v f : ascii_str D = true -> D = a ++ b ++ c ->
  text_of D (mk_token v f (mk_span (rpos a) (rpos (a ++ b)))) = b.
Proof.
  intros Ha E. rewrite E in Ha. pose proof Ha as Ha'. rewrite app_assoc in Ha'.
  apply ascii_app_inv in Ha. destruct Ha as [Ha _]. apply ascii_app_inv in Ha'. destruct Ha' as [Ha' _].
  unfold text_of. cbn [t_span sp_start sp_end]. rewrite !rpos_ascii by assumption. rewrite E, skipn_app, skipn_all, Nat.sub_diag.
  cbn [skipn app]. rewrite app_length, Nat.add_comm, Nat.add_sub. rewrite firstn_app, firstn_all, Nat.sub_diag.
  cbn [firstn]. apply app_nil_r.
Qed.
Lemma text_part D t x : In x (text_of D t) -> In x D.
Proof.
  unfold text_of. intros H. rewrite <- (firstn_skipn (sp_start (t_span t)) D). apply in_or_app. right.
  revert H. generalize (skipn (sp_start (t_span t)) D). intros l H.
  rewrite <- (firstn_skipn (sp_end (t_span t) - sp_start (t_span t)) l). apply in_or_app. now left.
Qed.
Lemma tokens_plain D st pre f ts : regex_allowed st = false -> source_tokens D st pre f ts -> ascii_str D = true ->
  Forall (unescaped D) ts -> Forall (fun t => plain (t_value t)) ts.
Proof.
  intros Hr H Ha.
  assert (Hin : forall a b c, D = a ++ b ++ c -> ascii_str b = true).
  { intros a b c ->. apply ascii_app_inv in Ha. destruct Ha as [_ Ha]. now apply ascii_app_inv in Ha. }
  induction H as [pre f gap f' E Hg|pre f t pre' f' ts Hl Hts IH|pre f gap s after f1 ts ED Hg Hc Hl Hts IH|pre f gap s after v f1 ts ED Hg Hs Hts IH];
    intros Hb; [constructor| | |].
  - apply Forall_cons_iff in Hb. destruct Hb as [Hb Hbs].
    constructor; auto. destruct Hl as [gap s after v f1 _ ED Hg Hc Hs Hm].
    rewrite (app_assoc pre) in ED. assert (Hv : special v = false).
    { destruct Hs; auto; try congruence. match goal with X : word_value _ _ |- _ => destruct X as [(? & _ & ->)|[_ ->]]; reflexivity end. }
    destruct Hb as [(x & Hb)|Hb]; cbn [t_value] in *; [now subst v|].
    rewrite (app_assoc pre) in Hb. rewrite (text_at _ _ _ _ _ _ Ha ED) in Hb.
    exact (lexeme_plain _ _ _ _ (Hin _ _ _ ED) Hb Hv Hs).
  - apply Forall_cons_iff in Hb. destruct Hb as [_ Hbs]. apply Forall_cons_iff in Hbs. destruct Hbs as [_ Hbs].
    constructor; [exact Logic.I|]. constructor; auto. cbn [t_value].
    rewrite (app_assoc pre) in ED. exact (regexp_plain _ _ _ (Hin _ _ _ ED) Hc Hl).
  - apply Forall_cons_iff in Hb. destruct Hb as [_ Hbs]. apply Forall_cons_iff in Hbs. destruct Hbs as [Hb Hbs].
    constructor; [exact Logic.I|]. constructor; auto. cbn [t_value].
    rewrite (app_assoc pre) in ED. destruct Hb as [(x & Hb)|Hb]; cbn [t_value] in *; [subst v; inversion Hs|].
    rewrite (app_assoc pre) in Hb. rewrite (text_at _ _ _ _ _ _ Ha ED) in Hb. exact (continue_plain _ _ (Hin _ _ _ ED) Hb Hs).
Qed.

(** The program [D] is written by the grammar, and stands for the tree [b]. *)
Definition stands_for (md : bool) (D : str) (b : node) : Prop :=
  exists ts, source_tokens D (start_state md) [] true ts /\ G CProgram (ctx_default md) ts (N b).

(** .. with no escapes but in regular expressions. *)
Definition plainly_stands_for (md : bool) (D : str) (b : node) : Prop :=
  exists ts, source_tokens D (start_state md) [] true ts /\ Forall (unescaped D) ts /\ G CProgram (ctx_default md) ts (N b).
Lemma plainly_stands md D b : plainly_stands_for md D b -> stands_for md D b.
Proof. intros (ts & H & _ & HG). exists ts. auto. Qed.
Lemma no_escapes md D b : no_backslash D -> stands_for md D b -> plainly_stands_for md D b.
Proof.
  intros Hb (ts & H & HG). exists ts. repeat split; auto. apply Forall_forall. intros t _. right. intros Hi. apply Hb. exact (text_part _ _ _ Hi).
Qed.

Lemma stands_for_bare md D a b : ascii_str D = true -> stands_for md D b -> accepts TProgram md D a -> bare a = b.
Proof.
  intros Ha (ts & HT & HG) (f & s & Ef).
  destruct (C41_program_partial md D ts b Ha HT HG) as (x & (g & s' & Eg) & <-).
  pose proof (parse_fuel_det f g TProgram D md) as E. rewrite Ef, Eg in E.
  specialize (E ltac:(discriminate) ltac:(discriminate)). congruence.
Qed.

Lemma generate_bare m r a a' : bare a = bare a' -> generate m r a = generate m r a'.
Proof.
  intros E. unfold generate, generated. replace (root r a) with (root r a'); auto.
  assert (gen a' = gen a) by (rewrite <- (gen_bare a), <- (gen_bare a'); now rewrite E).
  destruct r; cbn [root]; congruence.
Qed.

Theorem C34_source_partial minified md D a b text :
  ascii_str D = true -> plainly_stands_for md D b ->
  printable minified b -> tokens_apart minified b ->
  accepts TProgram md D a -> generate minified RProgram a = Some text ->
  exists a', accepts TProgram md text a' /\ bare a' = bare a.
Proof.
  intros Ha HS Hp Hap Hacc E. pose proof (stands_for_bare _ _ _ _ Ha (plainly_stands _ _ _ HS) Hacc) as Eb. subst b.
  destruct HS as (ts & HT & HU & HG). eapply C34_program_partial; eauto.
  apply (tokens_plain D (start_state md) [] true ts); auto.
Qed.

(** Formatting what was formatted changes nothing. *)
Theorem C34_idempotent_partial minified md D a b text :
  ascii_str D = true -> plainly_stands_for md D b ->
  printable minified b -> tokens_apart minified b ->
  accepts TProgram md D a -> generate minified RProgram a = Some text ->
  exists a', accepts TProgram md text a' /\ generate minified RProgram a' = Some text.
Proof.
  intros Ha HS Hp Hap Hacc E. destruct (C34_source_partial _ _ _ _ _ _ Ha HS Hp Hap Hacc E) as (a' & H & Eb).
  exists a'. split; auto. now rewrite (generate_bare _ _ _ _ Eb).
Qed.

(** The minified code is the same, of the source or of its formatted form, and
    the other way round. *)
Theorem C34_modes_agree_partial minified other md D a b text :
  ascii_str D = true -> plainly_stands_for md D b ->
  printable minified b -> tokens_apart minified b ->
  accepts TProgram md D a -> generate minified RProgram a = Some text ->
  exists a', accepts TProgram md text a' /\ generate other RProgram a' = generate other RProgram a.
Proof.
  intros Ha HS Hp Hap Hacc E. destruct (C34_source_partial _ _ _ _ _ _ Ha HS Hp Hap Hacc E) as (a' & H & Eb).
  exists a'. split; auto. now apply generate_bare.
Qed.

(** ** C35: the tokens of the printed code *)

Definition values (l : list titem) : list tvalue := flat_map (fun x => match x with T v => [v] | _ => [] end) l.

(** The values of the tokens of a source, where a regular expression and the rest
    of a template count as one token (in Source.v they come with the token
    they begin with). *)
Fixpoint source_values (ts : list token) : list tvalue :=
  match ts with
  | [] => []
  | t :: rest =>
    match rest with
    | u :: us => if special (t_value u) then t_value u :: source_values us else t_value t :: source_values rest
    | [] => [t_value t]
    end
  end.

Lemma shown_ord b l ts b' : shown b l ts b' -> ord_hd ts.
Proof.
  induction 1 as [|b v l t ts b' E Hv _ _ _|b v l o t ts b' Hv Eo _ _ _ _|b x l ts b' Hx _ IH]; auto.
  - exact Logic.I.
  - cbn [ord_hd]. unfold ordinary. now rewrite E.
  - cbn [ord_hd]. unfold ordinary. unfold slashes in Eo. destruct v as [| | |[]| | |]; try discriminate Hv;
      try destruct Eo as [Eo|Eo]; now rewrite Eo.
Qed.
Lemma shown_values b l ts b' : shown b l ts b' -> source_values ts = values l.
Proof.
  induction 1 as [|b v l t ts b' E Hv _ Hs IH|b v l o t ts b' Hv Eo E _ Hs IH|b x l ts b' Hx _ IH]; auto.
  - change (values (T v :: l)) with (v :: values l). rewrite <- E, <- IH. apply shown_ord in Hs.
    destruct ts as [|u us]; [reflexivity|]. cbn [ord_hd] in Hs. unfold ordinary in Hs.
    cbn [source_values]. now rewrite Hs.
  - change (values (T v :: l)) with (v :: values l). rewrite <- E, <- IH. cbn [source_values]. now rewrite E, Hv.
  - destruct x; auto. now destruct (Hx v).
Qed.

(** The printed program consists of exactly the tokens of the tree, in both
    modes; in minified code a semicolon at the end may be left out. *)
Theorem C35_tokens_partial minified md n text :
  (forall sp k l, descendant n (SVariable sp k l) -> l <> []) ->
  (forall v, In (T v) (items minified n) -> plain v) -> tokens_apart minified n ->
  generate minified RProgram n = Some text ->
  exists ts, source_tokens text (start_state md) [] true ts /\
    (source_values ts = values (items minified n) \/
     minified = true /\ source_values ts = values (dropped (items minified n))).
Proof.
  intros Hk Hpl Ha E.
  assert (Hpl' : Forall plain_item (items minified n)).
  { apply Forall_forall. intros x Hx. destruct x; try exact Logic.I. now apply Hpl. }
  assert (HR : reads minified (gen n) (items minified n)).
  { apply gen_reads. intros d Hd. destruct d; try exact Logic.I. exact (Hk _ _ _ Hd). }
  destruct Ha as [Ha Hsn].
  pose proof (reads_exec minified _ _ HR gst_new [] (inv_new minified) Hpl' Ha Hsn) as HI. cbn [app] in HI.
  destruct (inv_program_end _ _ _ HI) as (d & Hd & HI').
  unfold generate, generated in E. cbn [root] in E. destruct (g_fault _); [discriminate|]. injection E as <-.
  destruct (inv_tokens minified _ _ (start_state md) HI' eq_refl eq_refl) as (ts' & f & HT & HS).
  exists ts'. split; auto. apply shown_values in HS. destruct d; auto.
Qed.

End Round.

(** ** An instance *)

Fixpoint all_ok (fuel : nat) (m : bool) (n : node) : bool :=
  match fuel with
  | 0 => false
  | S f => (node_ok m n && forallb (all_ok f m) (children n))%bool
  end.
Lemma all_ok_printable m n : forall f, all_ok f m n = true -> printable m n.
Proof.
  intros f H x Hd. revert f H. induction Hd as [n|n c x Hin _ IH]; intros f H; destruct f as [|f]; try discriminate H;
    cbn [all_ok] in H; apply andb_true_iff in H; destruct H as [H1 H2]; auto.
  rewrite forallb_forall in H2. exact (IH f (H2 _ Hin)).
Qed.

(** The hypotheses of the theorems hold of [written] (PropComplete), in both modes. *)
Example C34_instance : forall minified, exists a b text,
  ascii_str written = true /\ @plainly_stands_for ap false written b /\
  printable minified b /\ tokens_apart minified b /\
  @accepts ap TProgram false written a /\ @generate ap minified RProgram a = Some text /\
  exists a', @accepts ap TProgram false text a' /\ bare a' = bare a.
Proof.
  intros minified.
  destruct (parsed TProgram false written) as [a|] eqn:Ea; [|vm_compute in Ea; discriminate].
  pose proof (parsed_accepts _ _ _ _ Ea) as Hacc.
  assert (HA : ascii_str written = true) by (vm_compute; reflexivity).
  assert (HB : no_backslash written).
  { assert (X : existsb (N.eqb 92) written = false) by (vm_compute; reflexivity). intros Hi.
    assert (Y : existsb (N.eqb 92) written = true) by (apply existsb_exists; exists 92%N; auto). congruence. }
  destruct written_tree as [b HG].
  assert (HS : @stands_for ap false written b).
  { exists (toks written). split; [|exact HG]. apply tokens_source, toks_from. vm_compute. reflexivity. }
  pose proof (@stands_for_bare ap false written a b HA HS Hacc) as Eb.
  assert (HP : printable minified b).
  { apply (all_ok_printable _ _ 100). subst b. clear - Ea. vm_compute in Ea. injection Ea as <-.
    destruct minified; vm_compute; reflexivity. }
  assert (HT : tokens_apart minified b).
  { subst b. clear - Ea. vm_compute in Ea. injection Ea as <-. destruct minified; split; vm_compute; reflexivity. }
  destruct (@generate ap minified RProgram a) as [text|] eqn:Et.
  - exists a, b, text. split; [assumption|]. split; [exact (no_escapes _ _ _ HB HS)|]. repeat (split; [assumption|]).
    exact (@C34_source_partial ap minified false written a b text HA (no_escapes _ _ _ HB HS) HP HT Hacc Et).
  - exfalso. clear - Ea Et. vm_compute in Ea. injection Ea as <-. destruct minified; vm_compute in Et; discriminate.
Qed.

Definition unescaped_b (D : str) (t : token) : bool :=
  match t_value t with VLiteral (TLRegexp _) => true | _ => negb (existsb (N.eqb 92) (text_of D t)) end.
Lemma unescaped_all D ts : forallb (unescaped_b D) ts = true -> Forall (unescaped D) ts.
Proof.
  rewrite forallb_forall, Forall_forall. intros H t Ht. specialize (H t Ht). clear Ht.
  assert (X : negb (existsb (N.eqb 92) (text_of D t)) = true -> unescaped D t).
  { intros X. right. intros Hi. apply negb_true_iff in X.
    assert (Y : existsb (N.eqb 92) (text_of D t) = true) by (apply existsb_exists; exists 92%N; auto). congruence. }
  unfold unescaped_b in H. destruct (t_value t) as [| | |l| | |] eqn:E; auto. destruct l; auto. left. eauto.
Qed.

(** .. and of [written2], which has regular expressions (one with an escape) and
    templates with substitutions. *)
Example C34_instance2 : forall minified, exists a b text,
  ascii_str written2 = true /\ @plainly_stands_for ap false written2 b /\
  printable minified b /\ tokens_apart minified b /\
  @accepts ap TProgram false written2 a /\ @generate ap minified RProgram a = Some text /\
  exists a', @accepts ap TProgram false text a' /\ bare a' = bare a.
Proof.
  intros minified.
  destruct (parsed TProgram false written2) as [a|] eqn:Ea; [|vm_compute in Ea; discriminate].
  pose proof (parsed_accepts _ _ _ _ Ea) as Hacc.
  assert (HA : ascii_str written2 = true) by (vm_compute; reflexivity).
  destruct written2_tree as [b HG].
  assert (HS : @plainly_stands_for ap false written2 b).
  { exists toks2. split; [|split; [|exact HG]].
    - apply (divide_from written2 meant2 [] written2 true); [reflexivity|]. vm_compute. reflexivity.
    - apply unescaped_all. vm_compute. reflexivity. }
  pose proof (@stands_for_bare ap false written2 a b HA (plainly_stands _ _ _ HS) Hacc) as Eb.
  assert (HP : printable minified b).
  { apply (all_ok_printable _ _ 100). subst b. clear - Ea. vm_compute in Ea. injection Ea as <-.
    destruct minified; vm_compute; reflexivity. }
  assert (HT : tokens_apart minified b).
  { subst b. clear - Ea. vm_compute in Ea. injection Ea as <-. destruct minified; split; vm_compute; reflexivity. }
  destruct (@generate ap minified RProgram a) as [text|] eqn:Et.
  - exists a, b, text. repeat (split; [assumption|]).
    exact (@C34_source_partial ap minified false written2 a b text HA HS HP HT Hacc Et).
  - exfalso. clear - Ea Et. vm_compute in Ea. injection Ea as <-. destruct minified; vm_compute in Et; discriminate.
Qed.

Definition round_theorems :=
  (@C34_followed_partial, @C34_program_partial, @C34_statement_partial, @C34_expression_partial, @C34_source_partial,
   @C34_idempotent_partial, @C34_modes_agree_partial, @C35_tokens_partial, C34_instance, C34_instance2).
Print Assumptions round_theorems.
