(** * PropParser: what [parse] does with every source (C14-C18, C30).

    Vocabulary: [ParseRuns.v] ([accepts], [rejects], [panics]), [TokChain.v]
    ([chain D [] true ts pre f]: [ts] are the tokens of the text [pre] with
    which the source [D] begins; [eos_at]: only trivia follows), [Layout.v]
    (how a tree is written); [Parser.v] is the model of the code. *)

From Verif Require Import Base Tokens PeekReader CharReader Lexer LexSpec LexChars LexerFacts LexProps PropLexer Ast Prog
  TokChain ParseState Parser Grammar Contract AllOk AstSpec ParseRuns Layout LayoutSound Nesting.
Local Open Scope string_scope.
Local Open Scope list_scope.

(** ** Examples are computed *)

Definition parsed (tg : target) (m : bool) (D : str) : option node :=
  match @parse_fuel ap 500 tg D m with ODone (Ok a) _ => Some a | _ => None end.
Definition failed (tg : target) (m : bool) (D : str) : option perr :=
  match @parse_fuel ap 500 tg D m with ODone (Err e) _ => Some e | _ => None end.

Lemma parsed_accepts tg m D a : parsed tg m D = Some a -> @accepts ap tg m D a.
Proof.
  unfold parsed, accepts. intros H. exists 500.
  destruct (@parse_fuel ap 500 tg D m) as [[b|e] s| |]; try discriminate H. injection H as ->. eauto.
Qed.
Lemma failed_rejects tg m D e : failed tg m D = Some e -> @rejects ap tg m D e.
Proof.
  unfold failed, rejects. intros H. exists 500.
  destruct (@parse_fuel ap 500 tg D m) as [[b|e'] s| |]; try discriminate H. injection H as ->. eauto.
Qed.

Section Parsing.
Context {PF : Platform}.

(** ** The outcome, for the proofs below *)

Lemma accepts_inv tg m D a : accepts tg m D a ->
  exists ts pre f, chain D [] true ts pre f /\ der D (start_sort tg) (start_ctx tg m) (I a) ts /\
    (tg = TProgram -> eos_at D pre f).
Proof.
  intros (fuel & s & H). pose proof (parse_sound D m tg (depth (blen D)) (le_n _)) as Hs.
  rewrite (parse_fuel_det (depth (blen D)) fuel) in Hs.
  - rewrite H in Hs. destruct Hs as (ts & pre & f & _ & H1 & H2 & H3). eauto 6.
  - intros E. rewrite E in Hs. exact Hs.
  - rewrite H. discriminate.
Qed.

Lemma rejects_inv tg m D e : rejects tg m D e ->
  (expected_statement D m e \/ span_ok D (pe_span e)) /\ says D m e (arrow_at D e).
Proof.
  intros (fuel & s & H). pose proof (parse_sound D m tg (depth (blen D)) (le_n _)) as Hs.
  rewrite (parse_fuel_det (depth (blen D)) fuel) in Hs.
  - rewrite H in Hs. exact Hs.
  - intros E. rewrite E in Hs. exact Hs.
  - rewrite H. discriminate.
Qed.

Lemma panics_inv tg m D : panics tg m D -> PanicOK D m.
Proof.
  intros (fuel & H). pose proof (parse_sound D m tg (depth (blen D)) (le_n _)) as Hs.
  rewrite (parse_fuel_det (depth (blen D)) fuel) in Hs.
  - rewrite H in Hs. exact Hs.
  - intros E. rewrite E in Hs. exact Hs.
  - rewrite H. discriminate.
Qed.

Lemma chain_ordered D pre f ts pre' f' : chain D pre f ts pre' f' -> ordered ts.
Proof.
  induction 1 as [|pre f t pre1 f1 ts pre2 f2 Ht Hc IH]; [split; constructor|]. apply ordered_cons.
  assert (Hc' : chain D pre f (t :: ts) pre2 f2) by (econstructor; eauto).
  destruct (chain_start _ _ _ _ _ _ Hc' t (or_introl eq_refl)) as (_ & H1 & _).
  repeat split; [exact H1| |apply IH|apply IH]. apply Forall_forall. apply (chain_lt _ _ _ _ _ _ _ Hc').
Qed.

Lemma accepts_fits tg m D a : accepts tg m D a ->
  exists ts pre f, chain D [] true ts pre f /\ (tg = TProgram -> eos_at D pre f) /\ fits 0 ts (lay a) (fin 0 ts).
Proof.
  intros H. destruct (accepts_inv _ _ _ _ H) as (ts & pre & f & Hc & Hd & He). exists ts, pre, f.
  repeat split; auto. apply der_fits in Hd.
  assert (E : lay_item (start_sort tg) (I a) = lay a) by (destruct tg; reflexivity).
  rewrite E in Hd. apply Hd. eapply chain_ordered; eauto.
Qed.

(** ** C14: parsing terminates on every input *)

(** With recursion 40 (n + 1) deep, [n] the length of the source in bytes, every
    parse returns or panics ([OFuel]: the depth was not enough), and no greater
    depth changes the outcome. *)
Theorem C14_terminates tg m D :
  exists r, r <> OFuel /\ forall fuel, 40 * blen D + 40 <= fuel -> parse_fuel fuel tg D m = r.
Proof.
  exists (parse_fuel (depth (blen D)) tg D m).
  assert (H : parse_fuel (depth (blen D)) tg D m <> OFuel).
  { intros E. pose proof (parse_sound D m tg (depth (blen D)) (le_n _)) as Hs. now rewrite E in Hs. }
  split; [exact H|]. intros fuel Hf. apply parse_fuel_mono; [exact Hf|exact H].
Qed.

(** Exactly one of: it returns a tree, it returns an error, it panics. *)
Theorem C14_outcome tg m D :
  ((exists a, accepts tg m D a) \/ (exists e, rejects tg m D e) \/ panics tg m D) /\
  (forall a b, accepts tg m D a -> accepts tg m D b -> a = b) /\
  (forall e1 e2, rejects tg m D e1 -> rejects tg m D e2 -> e1 = e2) /\
  (forall a e, accepts tg m D a -> rejects tg m D e -> False) /\
  (forall a, accepts tg m D a -> panics tg m D -> False) /\
  (forall e, rejects tg m D e -> panics tg m D -> False).
Proof.
  assert (Hd : forall f1 f2 r1 r2, parse_fuel f1 tg D m = r1 -> parse_fuel f2 tg D m = r2 ->
    r1 <> OFuel -> r2 <> OFuel -> r1 = r2).
  { intros f1 f2 r1 r2 <- <-. apply parse_fuel_det. }
  split; [|repeat split].
  - destruct (C14_terminates tg m D) as (r & Hr & H). specialize (H _ (le_n _)).
    destruct r as [[a|e] s| |]; [left|right; left|right; right|congruence].
    + exists a. eexists; eexists; eauto.
    + exists e. eexists; eexists; eauto.
    + eexists; eauto.
  - intros a b (f1 & s1 & H1) (f2 & s2 & H2). specialize (Hd _ _ _ _ H1 H2 ltac:(discriminate) ltac:(discriminate)).
    now injection Hd.
  - intros a b (f1 & s1 & H1) (f2 & s2 & H2). specialize (Hd _ _ _ _ H1 H2 ltac:(discriminate) ltac:(discriminate)).
    now injection Hd.
  - intros a b (f1 & s1 & H1) (f2 & s2 & H2). specialize (Hd _ _ _ _ H1 H2 ltac:(discriminate) ltac:(discriminate)).
    discriminate.
  - intros a (f1 & s1 & H1) (f2 & H2). specialize (Hd _ _ _ _ H1 H2 ltac:(discriminate) ltac:(discriminate)).
    discriminate.
  - intros a (f1 & s1 & H1) (f2 & H2). specialize (Hd _ _ _ _ H1 H2 ltac:(discriminate) ltac:(discriminate)).
    discriminate.
Qed.

(** ** C15: parsing panics in three cases only *)

(** Two successive tokens of (a beginning of) the source. *)
Definition adjacent (D : str) (t u : token) : Prop :=
  exists ts pre f, chain D [] true (ts ++ [t; u]) pre f.

(** A parse of ASCII text does not panic, unless the text has [async] followed,
    on a later line, by [function] (and debug assertions are on), or is a
    module with [from] followed by a literal other than a string.
    (Missing: those cases, in which it does panic; see below.) *)
Theorem C15_no_panic_partial tg m D :
  ascii_str D = true ->
  (debug_assertions = true -> forall t u, adjacent D t u ->
     t_value t = VKeyword KAsync -> t_value u = VKeyword KFunction -> t_fol u = false) ->
  (m = true -> forall t u l, adjacent D t u ->
     t_value t = VKeyword KFrom -> t_value u = VLiteral l -> exists v d, l = TLString v d) ->
  ~ panics tg m D.
Proof.
  intros Ha H1 H2 H. apply panics_inv in H. destruct H as [H|[[Hd H]|[Hm H]]].
  - congruence.
  - destruct H as (ts & u & t & (pre & f & Hc) & Hu & Ht & Hf).
    rewrite (H1 Hd u t) in Hf; [discriminate|exists ts, pre, f; exact Hc|exact Hu|exact Ht].
  - destruct H as (ts & t & l & (pre & f & Hc) & (ts' & u & -> & Hu) & Ht & Hl).
    destruct (H2 Hm u t l) as (v & d & ->); [|exact Hu|exact Ht|].
    + exists ts', pre, f. rewrite <- app_assoc in Hc. exact Hc.
    + now destruct (Hl v d).
Qed.

(** In terms of the text: ASCII, no escaped characters in names, and the words
    [from] (in modules) and [async] (when debug assertions are on) do not occur. *)
Theorem C15_no_panic_text tg m D :
  ascii_str D = true -> existsb (N.eqb (ch "\")) D = false ->
  (debug_assertions = true -> ~ exists u v, D = u ++ chars "async" ++ v) ->
  (m = true -> ~ exists u v, D = u ++ chars "from" ++ v) ->
  ~ panics tg m D.
Proof.
  intros Ha Hb H1 H2.
  assert (Hbs : ~ In (ch "\") D).
  { intros Hin. assert (existsb (N.eqb (ch "\")) D = true); [|congruence].
    apply existsb_exists. exists (ch "\"). split; [exact Hin|]. apply N.eqb_refl. }
  assert (Hkw : forall t u k, adjacent D t u -> t_value t = VKeyword k -> exists x y, D = x ++ keyword_str k ++ y).
  { intros t u k (ts & pre & f & Hc) Hk. apply chain_split in Hc. destruct Hc as (p1 & f1 & _ & Hc).
    inversion Hc as [|? ? ? p2 f2 ? ? ? Ht _]; subst.
    inversion Ht as [html st gap s after v g b ED Htr Hco Hl Hb1 Hb2 Et|html gap s after v g b ED Htr Hl Hb1 Et];
      subst; cbn in Hk; subst v.
    - inversion Hl as [|s0 v0 tv a Hw Hv Hx1 Hx2 E1 E2 E3| | | | |]; subst.
      destruct Hv as [(k' & -> & E)|[_ E]]; [|discriminate E]. injection E as <-.
      assert (Hs : ~ In (ch "\") s).
      { intros Hin. apply Hbs. rewrite !in_app_iff. tauto. }
      assert (Ht2 : forall w v, word_tail w v -> ~ In (ch "\") w -> v = w).
      { clear. induction 1 as [|c w v _ _ IH|e c w v He _ _ IH]; intros Hn; auto.
        - f_equal. apply IH. intros H. apply Hn. now right.
        - exfalso. apply Hn. apply in_or_app. left. destruct He; now left. }
      assert (Es : keyword_str k = s).
      { revert Hs. clear -Hw Ht2. revert Hw. generalize (keyword_str k). intros v Hw. destruct Hw as [c w v _ Hw|e c w v He _ Hw]; intros Hn.
        - f_equal. apply Ht2; [exact Hw|]. intros H. apply Hn. now right.
        - exfalso. apply Hn. apply in_or_app. left. destruct He; now left. }
      rewrite Es. exists (p1 ++ gap), after. rewrite <- app_assoc. reflexivity.
    - inversion Hl. }
  apply C15_no_panic_partial; auto.
  - intros Hd t u Hadj Ht _. destruct (H1 Hd). destruct (Hkw _ _ _ Hadj Ht) as (x & y & E). exists x, y. exact E.
  - intros Hm t u l Hadj Ht _. destruct (H2 Hm). destruct (Hkw _ _ _ Hadj Ht) as (x & y & E). exists x, y. exact E.
Qed.

(** ** C16: an accepted program is the whole source *)

Theorem C16_whole_source m D a : accepts TProgram m D a ->
  exists ts pre f, chain D [] true ts pre f /\ fits 0 ts (lay a) (fin 0 ts) /\
    exists html rest f', D = pre ++ rest /\ trivia html f rest [] f'.
Proof.
  intros H. destruct (accepts_fits _ _ _ _ H) as (ts & pre & f & Hc & He & Hf).
  exists ts, pre, f. repeat split; auto. apply He. reflexivity.
Qed.

(** ** C17: spans *)

(** Every node with a span of its own covers exactly a run of successive
    tokens of the source: it starts where the first one starts and ends where
    the last one ends. *)
Theorem C17_span_exact tg m D a x :
  accepts tg m D a -> descendant a x -> has_span x = true ->
  exists t1 tx t2 pre f, chain D [] true (t1 ++ tx ++ t2) pre f /\ tx <> [] /\
    sp_start (node_span x) = tstart (hd (mk_token (VPunct PDot) false (mk_span 0 0)) tx) /\
    sp_end (node_span x) = tend (last tx (mk_token (VPunct PDot) false (mk_span 0 0))).
Proof.
  intros H Hd Hs. destruct (accepts_fits _ _ _ _ H) as (ts & pre & f & Hc & _ & Hf).
  destruct (span_exact _ _ _ (chain_ordered _ _ _ _ _ _ Hc) Hf x Hd Hs) as (t1 & tx & t2 & -> & Hne & E).
  exists t1, tx, t2, pre, f. repeat split; auto; rewrite E; cbn [span_of sp_start sp_end].
  - destruct tx; [congruence|reflexivity].
  - destruct (exists_last Hne) as (l & t & ->). rewrite tfin_snoc, last_last. reflexivity.
Qed.

(** So it is not empty and lies in the source, *)
Theorem C17_span_bounds tg m D a x :
  accepts tg m D a -> descendant a x -> has_span x = true ->
  sp_start (node_span x) < sp_end (node_span x) <= blen D.
Proof.
  intros H Hd Hs. destruct (accepts_fits _ _ _ _ H) as (ts & pre & f & Hc & _ & Hf).
  destruct (span_exact _ _ _ (chain_ordered _ _ _ _ _ _ Hc) Hf x Hd Hs) as (t1 & tx & t2 & -> & Hne & E).
  rewrite E. split.
  - apply ordered_span; [|exact Hne]. apply chain_ordered in Hc. apply ordered_app in Hc. destruct Hc as [_ Hc].
    now apply ordered_app in Hc.
  - cbn. destruct (exists_last Hne) as (l & t & ->). rewrite tfin_snoc.
    apply (is_log_bounds D (t1 ++ (l ++ [t]) ++ t2) t); [exists pre, f; exact Hc|].
    rewrite !in_app_iff. simpl. tauto.
Qed.

(** the spans of the nodes inside a node are inside its span, *)
Theorem C17_span_nested tg m D a x y :
  accepts tg m D a -> descendant a x -> descendant x y -> has_span x = true -> has_span y = true ->
  sp_start (node_span x) <= sp_start (node_span y) /\ sp_end (node_span y) <= sp_end (node_span x).
Proof.
  intros H. destruct (accepts_fits _ _ _ _ H) as (ts & pre & f & Hc & _ & Hf).
  apply (span_nested _ _ _ (chain_ordered _ _ _ _ _ _ Hc) Hf).
Qed.

(** and of two children of a node the first, with everything in it, ends before
    the second begins. *)
Theorem C17_siblings tg m D a n c1 x c2 y c3 x' y' :
  accepts tg m D a -> descendant a n -> children n = c1 ++ x :: c2 ++ y :: c3 ->
  descendant x x' -> descendant y y' -> has_span x' = true -> has_span y' = true ->
  sp_end (node_span x') <= sp_start (node_span y').
Proof.
  intros H. destruct (accepts_fits _ _ _ _ H) as (ts & pre & f & Hc & _ & Hf).
  apply (siblings_ordered _ _ _ (chain_ordered _ _ _ _ _ _ Hc) Hf).
Qed.

(** ** C18: no token is lost or invented *)

(** The tokens of an accepted program are its tree, written out: in order,
    with only semicolons and trailing commas optional.  (Missing: two places
    where the tree itself is not the one written; see below.) *)
Theorem C18_tokens_of_tree_partial m D a : accepts TProgram m D a ->
  exists ts pre f, chain D [] true ts pre f /\ eos_at D pre f /\ fits 0 ts (lay a) (fin 0 ts).
Proof.
  intros H. destruct (accepts_fits _ _ _ _ H) as (ts & pre & f & Hc & He & Hf).
  exists ts, pre, f. repeat split; auto.
Qed.

(** ** C30: error positions *)

(** In scripts every error's span is a range of the source. *)
Theorem C30_script_errors tg D e : rejects tg false D e ->
  sp_start (pe_span e) <= sp_end (pe_span e) /\ sp_end (pe_span e) <= blen D.
Proof. intros H. apply rejects_inv in H. destruct H as [[(H & _)|H] _]; [discriminate|exact H]. Qed.

(** In modules too, but for one error.  (Missing: that error, which has its
    ends swapped; see below.) *)
Theorem C30_module_errors_partial tg D e : rejects tg true D e ->
  sp_start (pe_span e) <= blen D /\ sp_end (pe_span e) <= blen D /\
  (pe_kind e = PSyntaxError "Expected statement" [] \/ sp_start (pe_span e) <= sp_end (pe_span e)).
Proof.
  intros H. apply rejects_inv in H. destruct H as [[(_ & H1 & H2 & H3)|[H1 H2]] _].
  - repeat split; [lia|lia|now left].
  - repeat split; [lia|lia|now right].
Qed.

End Parsing.

(** ** Examples and counterexamples *)

Definition nl_ : str := [10%N].

(** A program with most constructs. *)
Definition sample : str := chars
  "'use strict'; var a = 1, [b, , ...c] = x; function* g(p, {q = 2}) { yield* p; } class A extends B { constructor() { super(...c); } static async m() { await super.n`t${a}u`; } get z() { return a ? b : c } } for (const k of g()) { if (k) break; else continue; } (x, y) => ({ x, [y]: -x ** 2 }); [a.b, {c: d = 1}] = e; try { throw /r[/]/g } catch { }".

Definition is_some {A} (o : option A) : bool := match o with Some _ => true | None => false end.

Lemma some_accepts tg m D : is_some (parsed tg m D) = true -> exists a, @accepts ap tg m D a.
Proof.
  destruct (parsed tg m D) as [a|] eqn:E; [|discriminate]. intros _. exists a. now apply parsed_accepts.
Qed.
Lemma some_rejects tg m D : is_some (failed tg m D) = true -> exists e, @rejects ap tg m D e.
Proof.
  destruct (failed tg m D) as [e|] eqn:E; [|discriminate]. intros _. exists e. now apply failed_rejects.
Qed.

(** C14-C18: there are accepted sources, rejected ones, and ones that panic. *)
Example accepted_sample : exists a, @accepts ap TProgram false sample a.
Proof. apply some_accepts. vm_compute. reflexivity. Qed.
Example rejected_sample : exists e, @rejects ap TProgram false (chars "var a = ;") e.
Proof. apply some_rejects. vm_compute. reflexivity. Qed.

(** C15: the three cases do panic. *)
Theorem C15_no_panic_refuted :
  @panics (ascii_platform true) TProgram false (chars "async" ++ nl_ ++ chars "function f() {}") /\
  @panics ap TProgram true (chars "import a from 5") /\
  @panics ap TExpr false (160%N :: chars "/a/").
Proof. repeat split; exists 500; vm_compute; reflexivity. Qed.

(** C15: an instance. *)
Example C15_instance : ~ @panics ap TProgram true (chars "export default class extends a.b { c() { `${d}` } }").
Proof.
  apply C15_no_panic_text; try reflexivity; [discriminate|].
  intros _ (u & v & E). apply (f_equal (existsb (fun c => N.eqb c (ch "m")))) in E.
  rewrite existsb_app in E. cbn in E. rewrite orb_true_r in E. discriminate E.
Qed.

(** C16: [parse::<Expr>] and [parse::<Stmt>] ignore what follows. *)
Theorem C16_trailing_tokens_refuted :
  @accepts ap TExpr false (chars "a b") (EIdentRef (mk_ident (mk_span 0 1) (chars "a"))) /\
  @accepts ap TStmt false (chars "; ]") (SEmpty (mk_span 0 1)).
Proof. split; apply parsed_accepts; vm_compute; reflexivity. Qed.

(** C17: nodes of the sample, deep down. *)
Fixpoint nodes (d : nat) (n : node) : list node :=
  match d with 0 => [n] | S d' => n :: flat_map (nodes d') (children n) end.
Lemma nodes_descendant d n x : In x (nodes d n) -> descendant n x.
Proof.
  revert n. induction d as [|d IH]; intros n; cbn [nodes].
  - intros [->|[]]. constructor.
  - intros [->|H]; [constructor|]. apply in_flat_map in H. destruct H as (c & Hc & Hx).
    eapply desc_child; eauto.
Qed.

Definition shows (tg : target) (m : bool) (D : str) (b : node -> bool) : bool :=
  match parsed tg m D with Some a => existsb b (nodes 40 a) | None => false end.
Lemma shows_descendant tg m D b : shows tg m D b = true ->
  exists a x, @accepts ap tg m D a /\ descendant a x /\ b x = true.
Proof.
  unfold shows. destruct (parsed tg m D) as [a|] eqn:E; [|discriminate]. intros H.
  apply existsb_exists in H. destruct H as (x & Hx & Hb). exists a, x.
  split; [now apply parsed_accepts|]. split; [eapply nodes_descendant; eauto|exact Hb].
Qed.

Example C17_instance : exists a x, @accepts ap TProgram false sample a /\ descendant a x /\
  match x with EAwait sp _ => Nat.ltb 100 (sp_start sp) | _ => false end = true.
Proof. apply shows_descendant. vm_compute. reflexivity. Qed.

(** C17: the [static] of a class element is not in the span of the method. *)
Example C17_static : exists a x, @accepts ap TProgram false (chars "class A { static m(){} }") a /\ descendant a x /\
  match x with Method sp _ _ _ _ _ _ true => Nat.eqb (sp_start sp) 17 | _ => false end = true.
Proof. apply shows_descendant. vm_compute. reflexivity. Qed.

(** C18: an array assignment pattern has a hole for every comma, and commas
    between its elements may be missing. *)
Theorem C18_array_assignment_refuted :
  (exists a x, @accepts ap TExpr false (chars "[a, b] = c") a /\ descendant a x /\
     match x with AsgArray _ [Some _; None; Some _] None => true | _ => false end = true) /\
  (exists a x, @accepts ap TProgram false (chars "var [a, b] = c") a /\ descendant a x /\
     match x with BindArray _ [Some _; Some _] None => true | _ => false end = true) /\
  (exists a x, @accepts ap TExpr false (chars "[{a = 1} b] = c") a /\ descendant a x /\
     match x with AsgArray _ [Some _; Some _] None => true | _ => false end = true).
Proof. repeat split; apply shows_descendant; vm_compute; reflexivity. Qed.

(** C18: a method in a generator is marked as a generator, without a [*]. *)
Theorem C18_method_flags_refuted :
  exists a x, @accepts ap TProgram false (chars "function* g() { ({ m() {} }) }") a /\ descendant a x /\
     match x with Method _ _ MKMethod _ _ true _ _ => true | _ => false end = true.
Proof. apply shows_descendant. vm_compute. reflexivity. Qed.

(** C30: the error for [export let] without a declaration is not a range. *)
Theorem C30_module_errors_refuted :
  exists e, @rejects ap TProgram true (chars "export let 5") e /\ pe_span e = mk_span 7 6.
Proof.
  destruct (failed TProgram true (chars "export let 5")) as [e|] eqn:E; [|vm_compute in E; discriminate E].
  exists e. split; [now apply failed_rejects|]. vm_compute in E. injection E as <-. reflexivity.
Qed.

(** One check for all theorems of this file. *)
Definition parser_theorems :=
  (@C14_terminates,
   @C14_outcome,
   @C15_no_panic_partial,
   @C15_no_panic_text,
   @C16_whole_source,
   @C17_span_exact,
   @C17_span_bounds,
   @C17_span_nested,
   @C17_siblings,
   @C18_tokens_of_tree_partial,
   @C30_script_errors,
   @C30_module_errors_partial,
   C15_no_panic_refuted,
   C16_trailing_tokens_refuted,
   C18_array_assignment_refuted,
   C18_method_flags_refuted,
   C30_module_errors_refuted).
Print Assumptions parser_theorems.
