(** * PropEmitter: rendered errors show the right place (C30, C31).

    Vocabulary: [Emitter.v] is the model of the code; [digits] ([Numeral.v]),
    [accepts]/[rejects] ([ParseRuns.v]). *)

From Verif Require Import Base Tokens Numeral Lexer PropLexer Ast Prog Parser AstSpec ParseRuns PropParser Emitter.
Local Open Scope string_scope.
Local Open Scope list_scope.

(** ** Specification *)

(** [placed D above before marked after below]: the source is these five pieces:
    the lines above, the line of the marked text cut in three (before it, the
    marked text itself, after it), and the lines below. *)
Record placed (D above before marked after below : str) : Prop := {
  placed_all : D = above ++ before ++ marked ++ after ++ below;
  placed_above : above = [] \/ exists u, above = u ++ [newline];
  placed_before : ~ In newline before;
  placed_after : ~ In newline after;
  placed_below : below = [] \/ exists u, below = newline :: u
}.

(** The lines of a text are counted by its newlines. *)
Definition newlines (s : str) : nat := count_occ N.eq_dec s newline.

(** The report for the marked text: headline, position, the line with its
    number, and a row of marks below the marked text.  The numbers are
    decimal. *)
Definition report (headline file : str) (line col : nat) (text : str) (indent marks : nat) (label : str) : str :=
  headline ++ [newline]
  ++ chars " --> " ++ file ++ chars ":" ++ show line ++ chars ":" ++ show col ++ [newline]
  ++ repeat space (length (show line) + 1) ++ chars "|" ++ [newline]
  ++ show line ++ [space] ++ chars "| " ++ text ++ [newline]
  ++ repeat space (length (show line) + 1) ++ chars "| " ++ repeat space indent ++ repeat (ch "^") marks
     ++ [space] ++ label ++ [newline].

(** The same line with every tab replaced by four spaces. *)
Fixpoint untabbed (s t : str) : Prop :=
  match s with
  | [] => t = []
  | c :: s' =>
      exists t', untabbed s' t' /\
        ((c = tab /\ t = [space; space; space; space] ++ t') \/ (c <> tab /\ t = c :: t'))
  end.

(** The line feed, tab and space of these definitions are those characters, and
    the numbers are decimal, without superfluous zeros. *)
Theorem C31_vocabulary :
  newline = 10%N /\ tab = 9%N /\ space = 32%N /\
  forall n, digits (show n) (N.of_nat n) /\ (forall r, show n = ch "0" :: r -> n = 0).
Proof.
  repeat split; [apply show_digits|]. intros r E. now apply (show_lead n (ch "0") r).
Qed.

Lemma untabbed_replace s : untabbed s (replace_tabs s).
Proof.
  induction s as [|c s IH]; [reflexivity|]. exists (replace_tabs s). split; [exact IH|].
  unfold replace_tabs. simpl. destruct (N.eqb_spec c tab); [left|right]; now split.
Qed.

Lemma boundaries D above before marked after below : placed D above before marked after below ->
  get_line_boundaries D (mk_span (blen (above ++ before)) (blen (above ++ before ++ marked))) =
  Some (mk_span (blen above) (blen (above ++ before ++ marked ++ after))).
Proof.
  intros [-> Ha Hb Hc Hd]. unfold get_line_boundaries, slice_to, slice_from. cbn [sp_start sp_end].
  assert (E1 : cut (blen (above ++ before)) (above ++ before ++ marked ++ after ++ below) =
              Some (above ++ before, marked ++ after ++ below)).
  { rewrite app_assoc. apply cut_app. }
  assert (E2 : cut (blen (above ++ before ++ marked)) (above ++ before ++ marked ++ after ++ below) =
              Some (above ++ before ++ marked, after ++ below)).
  { replace (above ++ before ++ marked ++ after ++ below) with ((above ++ before ++ marked) ++ (after ++ below))
      by now rewrite !app_assoc. apply cut_app. }
  rewrite E1, E2. cbn [option_map fst snd]. f_equal. f_equal.
  - destruct Ha as [->|(u & ->)]; cbn [app].
    + now rewrite rfind_newline_none.
    + rewrite <- app_assoc. cbn [app]. rewrite rfind_newline_app by exact Hb.
      rewrite blen_app. reflexivity.
  - destruct Hd as [->|(u & ->)].
    + rewrite app_nil_r. now rewrite find_newline_none.
    + rewrite find_newline_app by exact Hc. rewrite !blen_app. lia.
Qed.

Section Emitting.
Variable debug : token -> str.

(** ** C31 *)

(** What is written for any error whose span is the marked text. *)
Lemma emit_written file D above before marked after below e :
  placed D above before marked after below ->
  pe_span e = mk_span (blen (above ++ before)) (blen (above ++ before ++ marked)) ->
  pe_kind e <> PEndOfStream -> above ++ before ++ marked <> [] ->
  exists label,
  get_kind_description D e = Some label /\
  emit debug file D e =
  Some (report (display debug e) file (newlines (above ++ before ++ marked) + 1) (blen before + 1)
    (replace_tabs (before ++ marked ++ after))
    (blen before + 3 * count_matches tab before) (Nat.max 1 (blen marked)) label).
Proof.
  intros P S K NE. unfold emit. rewrite S. cbn [sp_start sp_end]. rewrite (boundaries _ _ _ _ _ _ P).
  destruct P as [HD Ha Hb Hc Hd].
  assert (EM : exists label, get_kind_description D e = Some label).
  { unfold get_kind_description. destruct (pe_kind e) as [| | | |? [|]| | | |]; try (eexists; reflexivity).
    rewrite S. cbn [sp_start sp_end]. rewrite HD.
    replace (above ++ before ++ marked ++ after ++ below) with ((above ++ before) ++ marked ++ (after ++ below))
      by now rewrite !app_assoc.
    replace (blen (above ++ before ++ marked)) with (blen (above ++ before) + blen marked)
      by (rewrite !blen_app; lia).
    rewrite slice_app. eexists; reflexivity. }
  destruct EM as [label EM]. exists label. split; [exact EM|].
  unfold get_line_number. cbn [sp_end].
  assert (E2 : slice_to D (blen (above ++ before ++ marked)) = Some (above ++ before ++ marked)).
  { unfold slice_to. rewrite HD.
    replace (above ++ before ++ marked ++ after ++ below) with ((above ++ before ++ marked) ++ (after ++ below))
      by now rewrite !app_assoc.
    now rewrite cut_app. }
  rewrite E2. cbn [option_map]. rewrite EM.
  assert (PL : (Nat.eqb (blen (above ++ before)) 0 && Nat.eqb (blen (above ++ before ++ marked)) 0)%bool = false).
  { apply andb_false_iff. right. apply Nat.eqb_neq. intros Z.
    pose proof (blen_ge_length (above ++ before ++ marked)) as G. rewrite Z in G.
    apply NE. now apply length_zero_iff_nil, Nat.le_0_r. }
  rewrite PL.
  assert (ED : emit_diagnostic D e label (count_matches newline (above ++ before ++ marked) + 1)
    (mk_span (blen above) (blen (above ++ before ++ marked ++ after))) =
    Some (let num := show (newlines (above ++ before ++ marked) + 1) in
      repeat space (length num + 1) ++ chars "|" ++ [newline]
      ++ num ++ [space] ++ chars "| " ++ replace_tabs (before ++ marked ++ after) ++ [newline]
      ++ repeat space (length num + 1) ++ chars "| " ++ repeat space (blen before + 3 * count_matches tab before)
      ++ repeat (ch "^") (Nat.max 1 (blen marked)) ++ [space] ++ label ++ [newline])).
  { unfold emit_diagnostic. rewrite S. cbn [sp_start sp_end].
    replace (Nat.leb _ _) with true by (symmetry; apply Nat.leb_le; rewrite !blen_app; lia).
    rewrite HD.
    replace (above ++ before ++ marked ++ after ++ below) with (above ++ (before ++ marked ++ after) ++ below)
      by now rewrite !app_assoc.
    replace (blen (above ++ before ++ marked ++ after)) with (blen above + blen (before ++ marked ++ after))
      by now rewrite !blen_app.
    rewrite slice_app.
    replace (blen (above ++ before) - blen above) with (blen before) by (rewrite blen_app; lia).
    unfold slice_to. rewrite cut_app. cbn [option_map fst]. f_equal.
    unfold pad_right. rewrite count_matches_occ. fold (newlines (above ++ before ++ marked)).
    cbv zeta. set (num := show (newlines (above ++ before ++ marked) + 1)).
    replace (length num + 1 - length [space]) with (length num) by (simpl; lia).
    replace (length num + 1 - length num) with 1 by lia.
    replace (length num + 1 - @length N []) with (length num + 1) by (simpl; lia).
    replace (blen before + count_matches tab before * 3 - @length N []) with
      (blen before + 3 * count_matches tab before) by (simpl; lia).
    replace (blen (above ++ before ++ marked) - blen (above ++ before)) with (blen marked)
      by (rewrite !blen_app; lia).
    replace (repeat space (length num + 1)) with (space :: repeat space (length num))
      by (rewrite Nat.add_1_r; reflexivity).
    replace (repeat (ch "^") (Nat.max 1 (blen marked))) with ([ch "^"] ++ repeat (ch "^") (blen marked - 1))
      by (destruct (blen marked) as [|k]; [reflexivity|]; simpl; now rewrite Nat.sub_0_r).
    cbn [app repeat length]. rewrite <- !app_assoc. reflexivity. }
  assert (EC : blen (above ++ before) - blen above + 1 = blen before + 1) by (rewrite blen_app; lia).
  cbn [sp_start sp_end]. rewrite EC, ED.
  rewrite (count_matches_occ newline). fold (newlines (above ++ before ++ marked)). unfold report.
  destruct (pe_kind e); try congruence; cbn [option_map]; f_equal; cbv zeta;
    rewrite <- ?app_assoc; reflexivity.
Qed.

(** The report for an error whose span is one piece [marked] of one line gives
    that line's number and text and the column where the piece begins, and the
    marks are below the piece.  (Missing: spans over several lines, and lines
    with characters outside ASCII before the marked text; see below.) *)
Theorem C31_report_partial file D above before marked after below e :
  placed D above before marked after below -> ~ In newline marked ->
  ascii_str before = true -> ascii_str marked = true ->
  pe_span e = mk_span (blen (above ++ before)) (blen (above ++ before ++ marked)) ->
  pe_kind e <> PEndOfStream -> above ++ before ++ marked <> [] ->
  exists shown_before shown_marked shown_after label,
    untabbed before shown_before /\ untabbed marked shown_marked /\ untabbed after shown_after /\
    emit debug file D e =
    Some (report (display debug e) file (newlines above + 1) (length before + 1)
      (shown_before ++ shown_marked ++ shown_after) (length shown_before) (Nat.max 1 (length marked)) label).
Proof.
  intros P HN A1 A2 S K NE. destruct (emit_written file _ _ _ _ _ _ _ P S K NE) as (label & _ & E).
  exists (replace_tabs before), (replace_tabs marked), (replace_tabs after), label.
  split; [apply untabbed_replace|]. split; [apply untabbed_replace|]. split; [apply untabbed_replace|].
  rewrite E, !replace_tabs_app, replace_tabs_length, (blen_ascii _ A1), (blen_ascii _ A2).
  assert (NL : newlines (above ++ before ++ marked) = newlines above).
  { unfold newlines. rewrite !count_occ_app.
    assert (count_occ N.eq_dec before newline = 0) by (apply count_occ_not_In; apply P).
    assert (count_occ N.eq_dec marked newline = 0) by (apply count_occ_not_In; exact HN). lia. }
  now rewrite NL.
Qed.

(** For every other span, over several lines or outside ASCII: all the lines it
    touches are shown, with the number of the last; the column and the marks
    count the bytes of the text before and of the marked text, whatever lines
    they are on. *)
Theorem C31_report_any file D above before marked after below e :
  placed D above before marked after below ->
  pe_span e = mk_span (blen (above ++ before)) (blen (above ++ before ++ marked)) ->
  pe_kind e <> PEndOfStream -> above ++ before ++ marked <> [] ->
  exists shown label,
    untabbed (before ++ marked ++ after) shown /\
    emit debug file D e =
    Some (report (display debug e) file (newlines above + newlines marked + 1) (blen before + 1)
      shown (blen before + 3 * count_occ N.eq_dec before tab) (Nat.max 1 (blen marked)) label).
Proof.
  intros P S K NE. destruct (emit_written file _ _ _ _ _ _ _ P S K NE) as (label & _ & E).
  exists (replace_tabs (before ++ marked ++ after)), label. split; [apply untabbed_replace|].
  rewrite E, count_matches_occ.
  assert (NL : newlines (above ++ before ++ marked) = newlines above + newlines marked).
  { unfold newlines. rewrite !count_occ_app.
    assert (count_occ N.eq_dec before newline = 0) by (apply count_occ_not_In; apply P). lia. }
  now rewrite NL.
Qed.

Lemma report_ends h file line col text indent marks : exists middle, forall label,
  report h file line col text indent marks label = h ++ [newline] ++ middle ++ [space] ++ label ++ [newline].
Proof.
  exists (chars " --> " ++ file ++ chars ":" ++ show line ++ chars ":" ++ show col ++ [newline]
  ++ repeat space (length (show line) + 1) ++ chars "|" ++ [newline]
  ++ show line ++ [space] ++ chars "| " ++ text ++ [newline]
  ++ repeat space (length (show line) + 1) ++ chars "| " ++ repeat space indent ++ repeat (ch "^") marks).
  intros label. unfold report. rewrite <- !app_assoc. reflexivity.
Qed.

(** How the messages write a word or sign of the language. *)
Definition spelt (v : tvalue) (w : str) : Prop :=
  match v with
  | VPunct p => w = chars (punct_string p)
  | VKeyword k => w = keyword_str k
  | _ => False
  end.

(** Where a token was expected the last line of the report quotes the marked
    text of the source, and names the token expected; the first line names the
    token found. *)
Theorem C31_unexpected_token file D above before marked after below e v x w :
  placed D above before marked after below ->
  pe_span e = mk_span (blen (above ++ before)) (blen (above ++ before ++ marked)) ->
  above ++ before ++ marked <> [] ->
  pe_kind e = PUnexpectedToken v (Some x) -> spelt x w ->
  exists middle,
    emit debug file D e =
    Some (display debug e ++ [newline] ++ middle ++
      chars " Unexpected token, found `" ++ marked ++ chars "`, expected `" ++ w ++ chars "`" ++ [newline]) /\
    forall u, spelt v u -> display debug e = chars "Syntax error: Unexpected token `" ++ u ++ chars "`".
Proof.
  intros P S NE K W. destruct (emit_written file _ _ _ _ _ _ _ P S ltac:(congruence) NE) as (label & EL & E).
  assert (L : label = chars "Unexpected token, found `" ++ marked ++ chars "`, expected `" ++ w ++ chars "`").
  { unfold get_kind_description in EL. rewrite K, S in EL. cbn [sp_start sp_end] in EL.
    rewrite (placed_all _ _ _ _ _ _ P) in EL.
    replace (above ++ before ++ marked ++ after ++ below) with ((above ++ before) ++ marked ++ (after ++ below)) in EL
      by now rewrite !app_assoc.
    replace (blen (above ++ before ++ marked)) with (blen (above ++ before) + blen marked) in EL
      by (rewrite !blen_app; lia).
    rewrite slice_app in EL. cbn [option_map] in EL. injection EL as <-.
    destruct x; try contradiction; cbn [spelt] in W; subst w; reflexivity. }
  subst label.
  match type of E with _ = Some (report ?h ?f ?l ?c ?t ?i ?m _) => destruct (report_ends h f l c t i m) as (middle & HM) end.
  rewrite HM in E. exists middle. split.
  - rewrite E. rewrite <- !app_assoc. reflexivity.
  - intros u Hu. unfold display. rewrite K. destruct v; try contradiction; cbn [spelt] in Hu; subst u; reflexivity.
Qed.

(** The end of the input has no position: only the file is named. *)
Theorem C31_end_of_input file D e : pe_kind e = PEndOfStream -> pe_span e = span_empty ->
  emit debug file D e =
  Some (chars "Syntax error: Unexpected end of input" ++ [newline] ++ chars " --> " ++ file ++ [newline]).
Proof.
  intros K S. unfold emit, get_line_boundaries, get_line_number, slice_to, slice_from, display.
  rewrite S, K. unfold span_empty. cbn [sp_start sp_end].
  assert (E : cut 0 D = Some ([], D)) by now destruct D. rewrite E. cbn [option_map fst snd rfind_newline].
  rewrite <- !app_assoc. reflexivity.
Qed.

(** Every range of an ASCII source is [placed]. *)
Lemma last_line s : exists above before, s = above ++ before /\ ~ In newline before /\
  (above = [] \/ exists u, above = u ++ [newline]).
Proof.
  induction s as [|c s IH] using rev_ind.
  - exists [], []. simpl. tauto.
  - destruct (N.eq_dec c newline) as [->|Hc].
    + exists (s ++ [newline]), []. rewrite app_nil_r. split; [reflexivity|]. split; [intros []|]. right. eauto.
    + destruct IH as (a & b & -> & Hb & Ha). exists a, (b ++ [c]). split; [now rewrite app_assoc|].
      split; [|exact Ha]. rewrite in_app_iff. simpl. intuition.
Qed.

Lemma first_line s : exists after below, s = after ++ below /\ ~ In newline after /\
  (below = [] \/ exists u, below = newline :: u).
Proof.
  induction s as [|c s IH].
  - exists [], []. simpl. tauto.
  - destruct (N.eq_dec c newline) as [->|Hc].
    + exists [], (newline :: s). split; [reflexivity|]. split; [intros []|]. right. eauto.
    + destruct IH as (a & b & -> & Hb & Ha). exists (c :: a), b. split; [reflexivity|].
      split; [|exact Ha]. simpl. intuition.
Qed.

Lemma range_placed D a b : ascii_str D = true -> a <= b -> b <= blen D ->
  exists above before marked after below,
    placed D above before marked after below /\
    mk_span a b = mk_span (blen (above ++ before)) (blen (above ++ before ++ marked)).
Proof.
  intros A H1 H2. destruct (cut_ascii D A b H2) as (x & y & E). apply cut_spec in E. destruct E as [-> E].
  rewrite ascii_str_app in A. apply andb_true_iff in A. destruct A as [Ax Ay].
  destruct (cut_ascii x Ax a) as (u & m & F); [lia|]. apply cut_spec in F. destruct F as [-> F].
  destruct (last_line u) as (above & before & -> & Hb & Ha).
  destruct (first_line y) as (after & below & -> & Hc & Hd).
  exists above, before, m, after, below. split.
  - constructor; auto. now rewrite !app_assoc.
  - rewrite F. rewrite app_assoc, E. reflexivity.
Qed.

(** ** C30: rendering never panics *)

Lemma emits_in_range file D e : ascii_str D = true ->
  sp_start (pe_span e) <= sp_end (pe_span e) -> sp_end (pe_span e) <= blen D ->
  exists out, emit debug file D e = Some out.
Proof.
  intros A H1 H2. destruct e as [k [a b]]. cbn [pe_span sp_start sp_end] in *.
  destruct (range_placed D a b A H1 H2) as (above & before & marked & after & below & P & S).
  assert (K : k = PEndOfStream \/ k <> PEndOfStream) by (destruct k; (now left) || (right; discriminate)).
  destruct K as [->|K].
  - unfold emit. cbn [pe_span pe_kind]. rewrite S. rewrite (boundaries _ _ _ _ _ _ P).
    unfold get_line_number, slice_to. cbn [sp_end sp_start].
    destruct P as [-> _ _ _ _].
    replace (above ++ before ++ marked ++ after ++ below) with ((above ++ before ++ marked) ++ after ++ below)
      by now rewrite !app_assoc.
    rewrite cut_app. cbn [option_map]. eauto.
  - destruct (above ++ before ++ marked) as [|c r] eqn:NE.
    + (* the span [0:0] *)
      apply app_eq_nil in NE. destruct NE as [-> NE]. apply app_eq_nil in NE. destruct NE as [-> ->].
      injection S as -> ->. unfold emit. cbn [pe_span pe_kind app blen].
      pose proof (boundaries _ _ _ _ _ _ P) as B. cbn [app blen] in B. rewrite B.
      assert (C : cut 0 D = Some ([], D)) by now destruct D.
      unfold get_line_number, slice_to. cbn [sp_end sp_start]. rewrite C. cbn [option_map fst].
      assert (EK : exists label, get_kind_description D {| pe_kind := k; pe_span := mk_span 0 0 |} = Some label).
      { unfold get_kind_description. cbn [pe_kind pe_span sp_start sp_end]. destruct k as [| | | |? [|]| | | |]; eauto.
        unfold slice, slice_to, slice_from. cbn [Nat.leb]. rewrite C. cbn [option_map fst cut]. eauto. }
      destruct EK as (label & ->).
      assert (ED : exists d, emit_diagnostic D {| pe_kind := k; pe_span := mk_span 0 0 |} label
          (count_matches newline [] + 1) (mk_span 0 (blen after)) = Some d).
      { unfold emit_diagnostic. cbn [pe_span sp_start sp_end Nat.leb Nat.sub].
        pose proof (slice_app [] after below) as SL. cbn [app blen Nat.add] in SL.
        replace D with (after ++ below) by (symmetry; apply (placed_all _ _ _ _ _ _ P)).
        rewrite SL. unfold slice_to.
        assert (C' : cut 0 after = Some ([], after)) by now destruct after.
        rewrite C'. cbn [option_map fst]. eauto. }
      destruct ED as (d & ED). rewrite ED. destruct k; try congruence; cbn [option_map]; eauto.
    + rewrite <- NE in S.
      destruct (emit_written file D above before marked after below (mk_perr k (mk_span a b)) P) as (label & _ & E);
        [exact S|exact K|rewrite NE; discriminate|]. eauto.
Qed.
End Emitting.

Section Rendering.
Context {P : Platform}.
Variable debug : token -> str.

(** Every error of an ASCII script can be rendered. *)
Theorem C30_render_scripts file tg D e : ascii_str D = true -> rejects tg false D e ->
  exists out, emit debug file D e = Some out.
Proof.
  intros A H. apply C30_script_errors in H. destruct H. now apply emits_in_range.
Qed.

(** So can every error of an ASCII module, but for one.  (Missing: that error;
    sources outside ASCII; see below.) *)
Theorem C30_render_modules_partial file tg D e : ascii_str D = true -> rejects tg true D e ->
  pe_kind e <> PSyntaxError "Expected statement" [] ->
  exists out, emit debug file D e = Some out.
Proof.
  intros A H K. apply C30_module_errors_partial in H. destruct H as (H1 & H2 & [H|H]); [contradiction|].
  now apply emits_in_range.
Qed.
(** What is printed for every rejected ASCII source, but for the end of the
    input, errors without a position ([0:0]), and the error of modules with a
    reversed span.  (Missing: that error, and sources outside ASCII.) *)
Theorem C31_rejected_partial file tg m D e : ascii_str D = true -> rejects tg m D e ->
  pe_kind e <> PEndOfStream -> pe_span e <> mk_span 0 0 ->
  (m = true -> pe_kind e <> PSyntaxError "Expected statement" []) ->
  exists above before marked after below shown label,
    placed D above before marked after below /\
    pe_span e = mk_span (length (above ++ before)) (length (above ++ before ++ marked)) /\
    untabbed (before ++ marked ++ after) shown /\
    emit debug file D e =
    Some (report (display debug e) file (newlines above + newlines marked + 1) (length before + 1)
      shown (length before + 3 * count_occ N.eq_dec before tab) (Nat.max 1 (length marked)) label).
Proof.
  intros A H K Z X.
  assert (R : sp_start (pe_span e) <= sp_end (pe_span e) /\ sp_end (pe_span e) <= blen D).
  { destruct m; [|eapply C30_script_errors; eassumption].
    apply C30_module_errors_partial in H. destruct H as (H1 & H2 & [H|H]); [now elim X|auto]. }
  destruct R as [R1 R2].
  destruct (range_placed D (sp_start (pe_span e)) (sp_end (pe_span e)) A R1 R2)
    as (above & before & marked & after & below & PL & S).
  replace (mk_span _ _) with (pe_span e) in S by now destruct (pe_span e).
  assert (NE : above ++ before ++ marked <> []).
  { intros E. apply Z. rewrite S, E. apply app_eq_nil in E. destruct E as [-> E].
    apply app_eq_nil in E. destruct E as [-> _]. reflexivity. }
  destruct (C31_report_any debug file D above before marked after below e PL S K NE) as (shown & label & U & E).
  assert (L : forall l, (exists a b, D = a ++ l ++ b) -> blen l = length l).
  { intros l (a & b & ->). rewrite !ascii_str_app, !andb_true_iff in A. apply blen_ascii. tauto. }
  rewrite (L before), (L marked) in E.
  - exists above, before, marked, after, below, shown, label. split; [exact PL|]. split; [|split; [exact U|exact E]].
    rewrite S. f_equal; apply L; rewrite (placed_all _ _ _ _ _ _ PL).
    + exists [], (marked ++ after ++ below). now rewrite <- app_assoc.
    + exists [], (after ++ below). now rewrite <- !app_assoc.
  - rewrite (placed_all _ _ _ _ _ _ PL). exists (above ++ before), (after ++ below). now rewrite <- !app_assoc.
  - rewrite (placed_all _ _ _ _ _ _ PL). exists above, (marked ++ after ++ below). reflexivity.
Qed.
End Rendering.

(** ** Examples and counterexamples *)

Definition no_debug (t : token) : str := [].

(** Rendering of the errors met in the examples. *)
Definition rendered (m : bool) (D : str) : option (option str) :=
  option_map (emit no_debug (chars "f.js") D) (failed TProgram m D).

Definition lines (l : list string) : str := flat_map (fun s => chars s ++ [newline]) l.

(** The second line is tab-indented; the marked text is [in]. *)
Example C31_instance :
  rendered false (chars "a;" ++ [newline; tab] ++ chars "if in" ++ [newline] ++ chars "b")
  = Some (Some (lines
      ["Syntax error: Unexpected token `in`";
       " --> f.js:2:5";
       "  |";
       "2 |     if in";
       "  |        ^^ Unexpected token, found `in`, expected `(`"])).
Proof. vm_compute. reflexivity. Qed.

Example C31_instance_placed :
  placed (chars "a;" ++ [newline; tab] ++ chars "if in" ++ [newline] ++ chars "b")
    (chars "a;" ++ [newline]) (tab :: chars "if ") (chars "in") [] (newline :: chars "b").
Proof.
  constructor; [reflexivity|right; now exists (chars "a;")| | |right; now exists (chars "b")];
    simpl; intuition discriminate.
Qed.

(** The error on [export let 5] cannot be rendered. *)
Theorem C30_render_reversed_refuted :
  rendered true (chars "export let 5") = Some None.
Proof. vm_compute. reflexivity. Qed.

(** Nor can the error on the source [a\é] (its span ends inside the [é]). *)
Theorem C30_render_unicode_refuted :
  rendered false (chars "a\" ++ [233%N]) = Some None.
Proof. vm_compute. reflexivity. Qed.

(** A span over two lines is reported with the number of its last line: the
    template literal starts on line 1, column 4, and is reported at line 2. *)
Theorem C31_several_lines_refuted :
  rendered false (chars "if `x" ++ [newline] ++ chars "y`")
  = Some (Some (lines
      ["Syntax error: Unexpected token `literal`";
       " --> f.js:2:4";
       "  |";
       "2 | if `x"; "y`";
       "  |    ^^^^^ Unexpected token, found `" ++ "`x"; "y`" ++ "`, expected `(`"]%string)).
Proof. vm_compute. reflexivity. Qed.

(** Columns count bytes: the [)] is the fourth character of the line ["é")],
    and it is reported, and marked, in column 5. *)
Theorem C31_unicode_column_refuted :
  rendered false ([34; 233; 34]%N ++ chars ")")
  = Some (Some (lines ["Syntax error: Unexpected token `)`"; " --> f.js:1:5"; "  |"]%string
      ++ chars "1 | " ++ [34; 233; 34]%N ++ chars ")" ++ [newline]
      ++ lines ["  |     ^ Unexpected token"]%string)).
Proof. vm_compute. reflexivity. Qed.

Definition emitter_theorems :=
  (C31_vocabulary, C31_report_partial, C31_report_any, C31_unexpected_token, C31_end_of_input, @C31_rejected_partial, @C30_render_scripts, @C30_render_modules_partial,
   C30_render_reversed_refuted, C30_render_unicode_refuted, C31_several_lines_refuted,
   C31_unicode_column_refuted).
Print Assumptions emitter_theorems.
