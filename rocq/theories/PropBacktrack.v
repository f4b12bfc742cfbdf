(** * PropBacktrack: going back and trying again (C36). *)

From Verif Require Import Base Tokens CharReader Lexer LexSpec LexChars LexerFacts LexProps PropLexer Ast Prog TokChain
  ParseState Parser AllOk AstSpec ParseRuns Layout LayoutSound PropParser.
Local Open Scope string_scope.
Local Open Scope list_scope.

(** Nothing in [D] is read differently in different lexer states: no slash,
    backtick or dollar sign, and no html-like comment. *)
Definition plain (D : str) : Prop :=
  ~ In (ch "/") D /\ ~ In (ch "`") D /\ ~ In (ch "$") D /\ ~ occurs (chars "<!") D /\ ~ occurs (chars "-->") D.

Lemma occurs_app p a s b : occurs p s -> occurs p (a ++ s ++ b).
Proof. intros (x & y & ->). exists (a ++ x), (y ++ b). now rewrite <- !app_assoc. Qed.

Lemma plain_app a s b : plain (a ++ s ++ b) -> plain s.
Proof.
  intros (H1 & H2 & H3 & H4 & H5). unfold plain.
  repeat split; [intros H; apply H1|intros H; apply H2|intros H; apply H3|intros H; apply H4|intros H; apply H5];
    try (apply in_or_app; right; apply in_or_app; now left); now apply occurs_app.
Qed.

Section Plain.
Context {PF : Platform}.

Lemma piece_plain html html' f s after f' : plain s -> piece html f s after f' -> piece html' f s after f'.
Proof.
  intros (H1 & _ & _ & H4 & H5) H.
  assert (Hop : forall op r, line_comment_open html f op -> s = op ++ r -> False).
  { intros op r Ho ->. destruct Ho.
    - apply H1. now left.
    - apply H4. exists [], r. reflexivity.
    - apply H5. exists [], r. reflexivity. }
  destruct H as [f c after H|f c after H|f op body c after Ho|f op body Ho|f body after f' Hb Hf].
  - now constructor.
  - now constructor.
  - exfalso. eapply Hop; eauto.
  - exfalso. eapply Hop; eauto.
  - exfalso. apply H1. now left.
Qed.

Lemma trivia_plain html html' f s after f' : plain s -> trivia html f s after f' -> trivia html' f s after f'.
Proof.
  intros Hp H. induction H as [|f s1 s2 after f1 f2 H1 _ IH]; [constructor|].
  assert (P1 : plain s1) by (apply (plain_app [] s1 s2); exact Hp).
  assert (P2 : plain s2) by (apply (plain_app s1 s2 []); rewrite app_nil_r; exact Hp).
  econstructor; [eapply piece_plain; eauto|auto].
Qed.

Lemma lexeme_plain st st' s after v : plain s -> lexeme st s after v -> lexeme st' s after v.
Proof.
  intros (H1 & _) H. destruct H; try (econstructor; eauto; fail).
  - apply lexeme_punct; auto. intros _. split; intros ->; apply H1; now left.
  - exfalso. apply H1. now left.
Qed.

Lemma chunk_plain s v b : template_chunk s v b -> ~ In (ch "`") s -> ~ In (ch "$") s -> False.
Proof. destruct 1; intros Hb Hd; [apply Hb|apply Hd]; apply in_or_app; right; now left. Qed.

Definition same (t u : token) : Prop := t_value t = t_value u /\ t_span t = t_span u.

Lemma fits_same p ts l q : fits p ts l q -> forall us, Forall2 same ts us -> fits p us l q.
Proof.
  assert (E : forall t u, same t u -> tend t = tend u /\ tstart t = tstart u).
  { intros t u [_ H]. unfold tend, tstart. now rewrite H. }
  assert (S : forall s t u, same t u -> symbol s t -> symbol s u).
  { intros s t u [H _]. unfold symbol. now rewrite H. }
  assert (N : forall i t u, same t u -> named i t -> named i u).
  { intros i t u [H1 H2]. unfold named. now rewrite H1, H2. }
  induction 1; intros us Hu; try (constructor; auto; fail).
  - inversion Hu; subst. constructor.
  - inversion Hu as [|? u ? us' Ht]; subst. destruct (E _ _ Ht) as [E1 E2]. rewrite E1 in IHfits. apply fits_sym; eauto.
  - inversion Hu as [|? u ? us' Ht]; subst. destruct (E _ _ Ht) as [E1 E2]. rewrite E1 in IHfits. apply fits_opt; eauto.
  - inversion Hu as [|? u ? us' Ht]; subst. destruct (E _ _ Ht) as [E1 E2]. rewrite E1 in IHfits. apply fits_rep; eauto.
  - inversion Hu as [|? u ? us' Ht]; subst. destruct (E _ _ Ht) as [E1 E2]. rewrite E1 in IHfits. apply fits_id; eauto.
  - inversion Hu as [|? u ? us' Ht]; subst. destruct (E _ _ Ht) as [E1 E2]. rewrite E1 in IHfits. apply fits_idopt; eauto.
  - inversion Hu as [|? u ? us' Ht]; subst. destruct (E _ _ Ht) as [E1 E2]. apply fits_idopt_none; auto. congruence.
  - inversion Hu as [|? u ? us' Ht]; subst. destruct (E _ _ Ht) as [E1 E2]. rewrite E1 in IHfits. apply fits_val; auto. now destruct Ht.
  - inversion Hu as [|? u ? us' Ht]; subst. destruct (E _ _ Ht) as [E1 E2]. apply fits_begin; auto. congruence.
Qed.

Lemma chain_plain D st pre f ts pre' f' : plain D -> inside_template st = false ->
  chain D pre f ts pre' f' -> eos_at D pre' f' ->
  exists us, tokens_from D st pre f us /\ Forall2 same ts us.
Proof.
  intros Hp Hin. induction 1 as [pre f|pre f t pre1 f1 ts pre2 f2 Ht _ IH]; intros He.
  - destruct He as (html & rest & f' & E & Ht). exists []. split; [|constructor]. econstructor; [exact E|].
    eapply trivia_plain; [|exact Ht]. apply (plain_app pre rest []). rewrite app_nil_r, <- E. exact Hp.
  - destruct (IH He) as (us & Hus & HF).
    destruct Ht as [html st0 gap s after v g b ED Htr Hc Hl Hb1 Hb2|html gap s after v g b ED Htr Hl Hb].
    + eexists (_ :: us). split; [|constructor; [|exact HF]].
      * eapply tf_token; [|exact Hus].
        eapply (lexed_intro D st pre f gap s after v g); auto.
        -- eapply trivia_plain; [|exact Htr]. apply (plain_app pre gap (s ++ after)). rewrite <- ED. exact Hp.
        -- eapply lexeme_plain; [|exact Hl]. apply (plain_app (pre ++ gap) s after).
           rewrite <- app_assoc, <- ED. exact Hp.
        -- intros _ -> (x & ->). destruct Hp as (_ & _ & _ & _ & H5). apply H5.
           inversion Hl; subst.
           ++ exists (pre ++ gap), x. rewrite <- ?app_assoc. reflexivity.
           ++ match goal with H : word_value _ _ |- _ => destruct H as [(? & _ & E)|[_ E]]; discriminate E end.
      * split; reflexivity.
    + exfalso. assert (Ps : plain s).
      { apply (plain_app (pre ++ gap) s after). rewrite <- app_assoc, <- ED. exact Hp. }
      destruct Ps as (_ & P2 & P3 & _).
      destruct Hl as [s v Hch|s v Hch]; eapply chunk_plain; try exact Hch; intros H; [apply P2|apply P3|apply P2|apply P3]; now right.
Qed.

(** ** C36: backtracking is transparent *)

(** If nothing depends on the lexer's state, an accepted program's tree is
    written with exactly the tokens that the lexer, used by itself from
    beginning to end, gives.  (Missing: sources with a slash, template or
    html-like comment.) *)
Theorem C36_straight_tokens_partial m D a st :
  plain D -> inside_template st = false -> accepts TProgram m D a ->
  exists ts L, read_all (start D st) = (Ok ts, L) /\ fits 0 ts (lay a) (fin 0 ts).
Proof.
  intros Hp Hin H. destruct (accepts_fits _ _ _ _ H) as (ts & pre & f & Hc & He & Hf).
  destruct (chain_plain D st _ _ _ _ _ Hp Hin Hc (He eq_refl)) as (us & Hus & HF).
  apply C03_read_all_exact in Hus; [|exact Hin]. destruct Hus as (L & HL).
  exists us, L. split; [exact HL|].
  assert (E : fin 0 us = fin 0 ts).
  { unfold fin. f_equal. clear -HF. induction HF as [|t u ts us [_ H] _ IH]; [reflexivity|].
    cbn. f_equal; [unfold tend; now rewrite H|exact IH]. }
  rewrite E. eapply fits_same; eauto.
Qed.

End Plain.

(** An instance with arrow functions and assignment patterns, where the parser
    goes back. *)
Example C36_instance :
  plain (chars "(a, [b, c] = d) => ({ e }); [f, { g: h }] = (i);") /\
  exists a, @accepts ap TProgram false (chars "(a, [b, c] = d) => ({ e }); [f, { g: h }] = (i);") a.
Proof.
  split; [|apply some_accepts; vm_compute; reflexivity].
  assert (O : forall p s, (fix go (s : str) : bool :=
      match s with [] => match p with [] => true | _ => false end
      | _ :: s' => str_eqb p (firstn (length p) s) || go s' end)%bool s = false -> ~ occurs p s).
  { intros p s H (u & v & ->). induction u as [|c u IH]; cbn [app] in *.
    - destruct p as [|x p]; [destruct v; discriminate H|]. cbn [app] in H.
      apply orb_false_elim in H. destruct H as [H _].
      change (x :: p ++ v) with ((x :: p) ++ v) in H. rewrite firstn_app, Nat.sub_diag, firstn_all, app_nil_r in H.
      rewrite (proj2 (str_eqb_eq _ _) eq_refl) in H. discriminate.
    - apply orb_false_elim in H. destruct H as [_ H]. auto. }
  assert (I' : forall c s, existsb (N.eqb c) s = false -> ~ In c s).
  { intros c s H Hin. assert (existsb (N.eqb c) s = true); [|congruence]. apply existsb_exists. exists c. split; [exact Hin|apply N.eqb_refl]. }
  repeat split; try (apply I'; reflexivity); apply O; reflexivity.
Qed.

(** C36: trying an expression first leaves the lexer ready for a regular
    expression, so that a line which by itself is [/b[/] and an error is read
    as the end of a regular expression. *)
Theorem C36_transparent_refuted :
  (exists a, @accepts ap TProgram false
     (chars "for ((function(){a" ++ nl_ ++ chars "/b[/" ++ nl_ ++ chars "]/;}).x of y);") a) /\
  (exists e, @rejects ap TProgram false
     (chars "(function(){a" ++ nl_ ++ chars "/b[/" ++ nl_ ++ chars "]/;}).x;") e).
Proof. split; [apply some_accepts|apply some_rejects]; vm_compute; reflexivity. Qed.

(** One check for all theorems of this file. *)
Definition backtrack_theorems :=
  (@C36_straight_tokens_partial,
   C36_transparent_refuted).
Print Assumptions backtrack_theorems.
