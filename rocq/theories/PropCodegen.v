(** * PropCodegen: what holds of the generated code of every tree. *)

From Verif Require Import Base Tokens Lexer LexSpec TokChain PropLexer Ast Prog Parser AstSpec Layout Nesting ParseRuns
  PropParser Traverse Bare Codegen.
Local Open Scope string_scope.
Local Open Scope list_scope.

Section Props.
Context {PF : Platform}.

(** ** C38: generating code never fails *)

Lemma blen_app a b : blen (a ++ b) = blen a + blen b.
Proof. induction a as [|x a IH]; cbn [blen fold_right app] in *; auto. unfold blen in *. simpl in *. lia. Qed.

(** The line index lies in the output, right behind a line feed if not at its start. *)
Definition line_ok (g : gst) : Prop :=
  g_fault g = false /\
  exists a b, g_out g = a ++ b /\ g_newline g = blen a /\ (a = [] \/ exists a', a = a' ++ [10%N]).

Lemma line_ok_le g : line_ok g -> g_newline g <= gpos g.
Proof. intros (_ & a & b & E & -> & _). unfold gpos. rewrite E, blen_app. lia. Qed.

Lemma line_ok_ctx g g' : g_out g' = g_out g -> g_newline g' = g_newline g -> g_fault g' = g_fault g ->
  line_ok g -> line_ok g'.
Proof. unfold line_ok. now intros -> -> ->. Qed.

Lemma line_ok_app g x : line_ok g -> line_ok (with_out (g_out g ++ x) g).
Proof.
  intros (F & a & b & E & En & H). split; [exact F|]. exists a, (b ++ x). cbn [g_out with_out g_newline].
  rewrite E, <- app_assoc. auto.
Qed.

Lemma line_ok_check g : line_ok g -> line_ok (col_check g).
Proof.
  intros H. pose proof (line_ok_le _ H) as L. destruct H as (F & H). split; [|exact H].
  cbn [col_check g_fault]. rewrite F. apply Nat.ltb_ge. exact L.
Qed.

Lemma line_ok_indent m g : line_ok g -> line_ok (do_indent m g).
Proof.
  intros H. unfold do_indent. destruct m; auto. apply line_ok_check in H. cbv zeta.
  destruct (negb _); auto. now apply line_ok_app.
Qed.

Lemma line_ok_char m c g : line_ok g -> line_ok (do_char m c g).
Proof. intros H. unfold do_char. apply line_ok_app, line_ok_indent, H. Qed.

Lemma line_ok_new_line m g : line_ok g -> line_ok (do_new_line m g).
Proof.
  intros H. unfold do_new_line. destruct m; auto. pose proof (line_ok_char false 10%N g H) as (F & H1).
  split; [exact F|]. unfold do_char, gpos. cbn [g_out with_out with_newline g_newline].
  set (o := g_out (do_indent false g)). exists (o ++ [10%N]), [].
  split; [now rewrite app_nil_r|]. split; eauto.
Qed.

Lemma remove_last_out c g b g' : remove_last c g = (b, g') ->
  (b = false /\ g' = g /\ (forall o, g_out g <> o ++ [c])) \/ (b = true /\ g_out g = g_out g' ++ [c] /\ g' = with_out (g_out g') g).
Proof.
  unfold remove_last. destruct (rev (g_out g)) as [|x r] eqn:E.
  - intros [= <- <-]. left. repeat split; auto. intros o Eo. rewrite Eo, rev_app_distr in E. discriminate.
  - destruct (N.eqb_spec x c); intros [= <- <-].
    2:{ left. repeat split; auto. intros o Eo. rewrite Eo, rev_app_distr in E. injection E as -> _. congruence. }
    subst. right.
    cbn [with_out g_out]. split; auto. split; auto.
    rewrite <- (rev_involutive (g_out g)), E. reflexivity.
Qed.

Lemma line_ok_drop c g : (c < 128)%N -> c <> 10%N -> line_ok g -> line_ok (snd (remove_last c g)).
Proof.
  intros Hc Hn H. destruct (remove_last c g) as [b g'] eqn:E. cbn [snd].
  destruct (remove_last_out _ _ _ _ E) as [(_ & -> & _)|(_ & Eo & Eg)]; auto.
  destruct H as (F & a & w & Ew & En & Ha). rewrite Eg. split; [exact F|]. cbn [with_out g_out g_newline].
  exists a. rewrite Eo in Ew. rewrite En.
  destruct w as [|x w _] using rev_ind.
  - rewrite app_nil_r in Ew. destruct Ha as [->|(a' & ->)].
    + destruct (g_out g'); discriminate.
    + apply app_inj_tail in Ew. destruct Ew. congruence.
  - rewrite app_assoc in Ew. apply app_inj_tail in Ew. destruct Ew as [-> _]. eauto.
Qed.

Lemma line_ok_exec1 m c g : line_ok g -> line_ok (exec1 m c g).
Proof.
  intros H. destruct c; cbn [exec1].
  - now apply line_ok_char.
  - unfold do_string. now apply line_ok_app, line_ok_indent.
  - unfold do_space. destruct m; auto. now apply line_ok_char.
  - now apply line_ok_new_line.
  - unfold do_start_block. apply line_ok_ctx with (g := do_new_line m (do_char m (ch "{") g)); auto.
    now apply line_ok_new_line, line_ok_char.
  - unfold do_end_block. apply line_ok_char.
    assert (X : line_ok (if (at_block_start g && negb m)%bool
           then let '(b, g1) := remove_last 10%N g in if b then with_newline 0 g1 else g1 else g)).
    { destruct (_ && _)%bool; auto. destruct (remove_last 10%N g) as [b g1] eqn:E.
      destruct (remove_last_out _ _ _ _ E) as [(-> & -> & _)|(-> & Eo & Eg)]; auto.
      destruct H as (F & _). rewrite Eg. split; [exact F|]. exists [], (g_out g1). auto. }
    destruct m; auto. apply line_ok_drop; auto; cbv; congruence.
  - unfold do_separation. destruct (at_block_start g); auto. now apply line_ok_new_line.
  - unfold do_stmt_end. destruct (Nat.eqb _ _); auto. now apply line_ok_new_line.
  - apply line_ok_drop; auto; cbv; congruence.
  - now apply line_ok_ctx with (g := g).
  - apply line_ok_check in H. now apply line_ok_ctx with (g := col_check g).
  - now apply line_ok_ctx with (g := g).
  - destruct (g_stack g) eqn:Es; auto.
Qed.

Lemma line_ok_exec m l : forall g, line_ok g -> line_ok (exec m l g).
Proof. induction l as [|c l IH]; cbn [exec]; intros g H; auto using line_ok_exec1. Qed.

Lemma line_ok_program_end m g : line_ok g -> line_ok (do_program_end m g).
Proof.
  intros H. unfold do_program_end. destruct m; auto.
  assert (X : line_ok (snd (remove_last (ch ";") g))) by (apply line_ok_drop; auto; cbv; congruence).
  destruct (remove_last (ch ";") g) as [b g1]. cbn [snd] in X. destruct b; auto.
  destruct (last_char (g_out g1)) as [c|]; auto. destruct (N.eqb c (ch ")")); auto using line_ok_char.
Qed.

Lemma generated_line_ok m r n : line_ok (generated m r n).
Proof.
  assert (X : line_ok (exec m (root r n) gst_new)).
  { apply line_ok_exec. split; auto. exists [], []. auto. }
  unfold generated. destruct r; auto using line_ok_program_end.
Qed.

(** C38: code is generated for every tree, in both modes. *)
Theorem C38_generator_total : forall minified r n, exists text, generate minified r n = Some text.
Proof.
  intros m r n. unfold generate. destruct (generated_line_ok m r n) as (-> & _). eauto.
Qed.

(** ** C39: minified code is the other code with blanks and semicolons left out *)

(** [thinner m p]: [m] is [p] without some of its spaces, line feeds and
    semicolons, and with some of its line feeds as spaces. *)
Inductive thinner : str -> str -> Prop :=
| thin_nil : thinner [] []
| thin_keep c m p : thinner m p -> thinner (c :: m) (c :: p)
| thin_skip c m p : In c [32; 10; 59]%N -> thinner m p -> thinner m (c :: p)
| thin_line m p : thinner m p -> thinner (32%N :: m) (10%N :: p).

Definition blank (c : N) : Prop := c = 32%N \/ c = 10%N.
Definition filler (c : N) : Prop := In c [32; 10; 59]%N.
Definition ends_blank (w : str) : Prop := w = [] \/ exists w' b, w = w' ++ [b] /\ blank b.

Definition join_ok (m : str) (c : N) : Prop :=
  alphanumeric c = true -> forall o x, m = o ++ [x] -> alphanumeric x = false.

Section Cover.
Variable K : Prop.

(** The relation kept by the printer: also, what was left out right before a
    semicolon or at the end ends with a blank; and, in case [K], nothing is left
    out between two letters or digits. *)
Inductive core : str -> str -> Prop :=
| core_nil : core [] []
| core_snoc m p w c c' :
    core m p -> Forall filler w -> (c = 59%N -> ends_blank w) ->
    (K -> w <> [] -> join_ok m c) -> (c' = c \/ (c = 32%N /\ c' = 10%N)) -> core (m ++ [c]) (p ++ w ++ [c']).

Definition wcov (m p : str) : Prop := exists p1 w, p = p1 ++ w /\ core m p1 /\ Forall filler w.
Definition cov (m p : str) : Prop :=
  exists p1 w, p = p1 ++ w /\ core m p1 /\ Forall filler w /\ ends_blank w.

Lemma cov_wcov m p : cov m p -> wcov m p.
Proof. intros (p1 & w & H & H1 & H2 & _). exists p1, w. auto. Qed.

Lemma blank_filler w : Forall blank w -> Forall filler w.
Proof. apply Forall_impl. intros c [->| ->]; cbv; auto. Qed.

Lemma ends_blank_app w b : ends_blank w -> Forall blank b -> ends_blank (w ++ b).
Proof.
  intros H Hb. destruct b as [|x b _] using rev_ind; [now rewrite app_nil_r|].
  right. exists (w ++ b), x. rewrite app_assoc. split; auto.
  apply Forall_app in Hb. destruct Hb as [_ Hb]. now inversion Hb.
Qed.

Lemma cov_blank m p b : cov m p -> Forall blank b -> cov m (p ++ b).
Proof.
  intros (p1 & w & -> & H1 & H2 & H3) Hb. exists p1, (w ++ b). rewrite app_assoc. repeat split; auto.
  - apply Forall_app. split; auto using blank_filler.
  - now apply ends_blank_app.
Qed.

Lemma wcov_snoc m p c : wcov m p -> c <> 59%N -> alphanumeric c = false -> cov (m ++ [c]) (p ++ [c]).
Proof.
  intros (p1 & w & -> & H1 & H2) Hc Ha. exists ((p1 ++ w) ++ [c]), []. rewrite app_nil_r.
  split; auto. split; [|split; [constructor|now left]].
  rewrite <- app_assoc. constructor; auto; try congruence; intros _ _ Ha'; congruence.
Qed.

Lemma cov_cons m p c : cov m p -> (K -> join_ok m c) -> core (m ++ [c]) (p ++ [c]).
Proof.
  intros (p1 & w & -> & H1 & H2 & H3) Hj. rewrite <- app_assoc. constructor; auto.
Qed.

Lemma core_cov m p : core m p -> cov m p.
Proof. intros H. exists p, []. rewrite app_nil_r. repeat split; auto. now left. Qed.

Lemma core_app s : forall m p, core m p -> core (m ++ s) (p ++ s).
Proof.
  induction s as [|c s IH]; intros m p H; [now rewrite !app_nil_r|].
  change (c :: s) with ([c] ++ s). rewrite !app_assoc. apply IH.
  change (p ++ [c]) with (p ++ [] ++ [c]). constructor; auto; [now left|congruence].
Qed.

Lemma cov_snoc m p c : cov m p -> (K -> join_ok m c) -> cov (m ++ [c]) (p ++ [c]).
Proof. intros H Hj. now apply core_cov, cov_cons. Qed.

Lemma cov_app m p s : cov m p -> (K -> forall c s', s = c :: s' -> join_ok m c) -> cov (m ++ s) (p ++ s).
Proof.
  intros H Hj. destruct s as [|c s]; [now rewrite !app_nil_r|].
  change (c :: s) with ([c] ++ s). rewrite !app_assoc. apply core_cov, core_app, cov_cons; eauto.
Qed.

Lemma core_snoc_inv m c p : core (m ++ [c]) p ->
  exists p0 w c', p = p0 ++ w ++ [c'] /\ core m p0 /\ Forall filler w /\ (c = 59%N -> ends_blank w) /\
    (c' = c \/ (c = 32%N /\ c' = 10%N)).
Proof.
  intros H. remember (m ++ [c]) as m1 eqn:E. destruct H as [|m0 p0 w c0 c' H0 H1 H2 HK H3].
  - now destruct m.
  - apply app_inj_tail in E. destruct E as [-> ->]. exists p0, w, c'. auto.
Qed.

Lemma core_nil_inv p : core [] p -> p = [].
Proof.
  intros H. remember [] as m eqn:E. destruct H as [|m0]; auto. now destruct m0.
Qed.

(** The minified output may lose a last semicolon the other one keeps if
    something stands between that and the end. *)
Lemma cov_loses m p : cov (m ++ [59%N]) p -> (forall o, p <> o ++ [59%N]) -> cov m p.
Proof.
  intros (p1 & w & -> & H1 & H2 & H3) Hp. apply core_snoc_inv in H1.
  destruct H1 as (p0 & w0 & c' & -> & H4 & H5 & H6 & [->|[Hx _]]); [|discriminate].
  exists p0, (w0 ++ [59%N] ++ w). rewrite <- !app_assoc. split; auto. split; auto. split.
  - apply Forall_app. split; auto. constructor; [cbv; auto|auto].
  - destruct H3 as [->|(w' & x & -> & Hx)].
    + exfalso. apply (Hp (p0 ++ w0)). now rewrite app_nil_r, app_assoc.
    + right. exists (w0 ++ [59%N] ++ w'), x. rewrite <- !app_assoc. auto.
Qed.

Lemma cov_loses_both m p : cov (m ++ [59%N]) (p ++ [59%N]) -> cov m p.
Proof.
  intros (p1 & w & E & H1 & H2 & H3). apply core_snoc_inv in H1.
  destruct H1 as (p0 & w0 & c' & -> & H4 & H5 & H6 & [->|[Hx _]]); [|discriminate].
  destruct H3 as [->|(w' & x & -> & Hx)].
  - rewrite app_nil_r, app_assoc in E. apply app_inj_tail in E. destruct E as [-> _].
    exists p0, w0. auto.
  - rewrite app_assoc in E. apply app_inj_tail in E. destruct E as [_ <-]. destruct Hx; discriminate.
Qed.

Lemma cov_last m p : cov m (p ++ [59%N]) -> exists m0, m = m0 ++ [59%N].
Proof.
  intros (p1 & w & E & H1 & H2 & H3). destruct H3 as [->|(w' & x & -> & Hx)].
  - rewrite app_nil_r in E. subst p1. destruct m as [|c m _] using rev_ind.
    + apply core_nil_inv in H1. now destruct p.
    + apply core_snoc_inv in H1. destruct H1 as (p0 & w0 & c' & E & H4 & H5 & H6 & Hc).
      rewrite app_assoc in E. apply app_inj_tail in E. destruct E as [_ <-].
      destruct Hc as [<-|[_ Hx]]; [eauto|discriminate].
  - rewrite app_assoc in E. apply app_inj_tail in E. destruct E as [_ <-]. destruct Hx; discriminate.
Qed.

Lemma cov_drop gm gp : cov (g_out gm) (g_out gp) ->
  cov (g_out (snd (remove_last (ch ";") gm))) (g_out (snd (remove_last (ch ";") gp))).
Proof.
  intros H.
  destruct (remove_last (ch ";") gm) as [b g1] eqn:R1, (remove_last (ch ";") gp) as [b' g2] eqn:R2. cbn [snd].
  apply remove_last_out in R1. apply remove_last_out in R2. change (ch ";") with 59%N in *.
  destruct R1 as [(-> & -> & N1)|(-> & E1 & _)], R2 as [(-> & -> & N2)|(-> & E2 & _)]; auto.
  - rewrite E2 in H. apply cov_last in H. destruct H as (m0 & H). now apply N1 in H.
  - rewrite E1 in H. now apply cov_loses.
  - rewrite E1, E2 in H. now apply cov_loses_both.
Qed.

Lemma wcov_loses m p : wcov (m ++ [59%N]) p -> wcov m p.
Proof.
  intros (p1 & w & -> & H1 & H2). apply core_snoc_inv in H1.
  destruct H1 as (p0 & w0 & c' & -> & H4 & H5 & H6 & [->|[Hx _]]); [|discriminate].
  exists p0, (w0 ++ [59%N] ++ w). rewrite <- !app_assoc. split; auto. split; auto.
  apply Forall_app. split; auto. constructor; [cbv; auto|auto].
Qed.

Lemma wcov_drop gm p : wcov (g_out gm) p -> wcov (g_out (snd (remove_last (ch ";") gm))) p.
Proof.
  intros H. destruct (remove_last (ch ";") gm) as [b g1] eqn:R1. cbn [snd].
  apply remove_last_out in R1. change (ch ";") with 59%N in *.
  destruct R1 as [(-> & -> & _)|(-> & E1 & _)]; auto. rewrite E1 in H. now apply wcov_loses.
Qed.

(** The other output may lose a last line feed that is left out anyway, or after
    which the minified one gets another character. *)
Lemma cov_loses_line m p : cov m (p ++ [10%N]) -> (forall o, m <> o ++ [32%N]) ->
  (forall o, m <> o ++ [10%N]) -> wcov m p.
Proof.
  intros (p1 & w & E & H1 & H2 & H3) Hm Hm'. destruct H3 as [->|(w' & x & -> & Hx)].
  - exfalso. rewrite app_nil_r in E. subst p1. destruct m as [|c m _] using rev_ind.
    + apply core_nil_inv in H1. now destruct p.
    + apply core_snoc_inv in H1. destruct H1 as (p0 & w0 & c' & E & H4 & H5 & H6 & Hc).
      rewrite app_assoc in E. apply app_inj_tail in E. destruct E as [_ <-].
      destruct Hc as [<-|[-> _]]; [now apply (Hm' m)|now apply (Hm m)].
  - rewrite app_assoc in E. apply app_inj_tail in E. destruct E as [-> _]. exists p1, w'.
    repeat split; auto. apply Forall_app in H2. tauto.
Qed.


(** [m] does not end with a space or line feed and semicolons. *)
Definition nb (m : str) : Prop := forall o x k, blank x -> m <> o ++ [x] ++ repeat 59%N k.

Lemma nb_snoc m c : c <> 59%N -> ~ blank c -> nb (m ++ [c]).
Proof.
  intros H1 H2 o x k Hx E. destruct k as [|k].
  - cbn [repeat app] in E. apply app_inj_tail in E. destruct E. subst. contradiction.
  - replace (S k) with (k + 1) in E by lia. rewrite repeat_app, !app_assoc in E. cbn [repeat] in E.
    apply app_inj_tail in E. destruct E. congruence.
Qed.

Lemma nb_semi m : nb m -> nb (m ++ [59%N]).
Proof.
  intros H o x k Hx E. destruct k as [|k].
  - cbn [repeat app] in E. apply app_inj_tail in E. destruct E as [_ <-]. destruct Hx; discriminate.
  - replace (S k) with (k + 1) in E by lia. rewrite repeat_app, !app_assoc in E. cbn [repeat] in E.
    apply app_inj_tail in E. destruct E as [E _]. apply (H o x k Hx). now rewrite <- app_assoc in E.
Qed.

Lemma nb_drop m : nb (m ++ [59%N]) -> nb m.
Proof.
  intros H o x k Hx E. apply (H o x (k + 1) Hx). rewrite E, repeat_app, <- !app_assoc. reflexivity.
Qed.

Definition semis (b : str) : Prop := Forall (fun c => c = 59%N) b.

(** The last block of the other output began after a line feed left out. *)
Definition block_ok (m p : str) (k : nat) : Prop :=
  exists a b, p = a ++ b /\ k = blen a /\
    (a = [] \/ (exists a' x, a = a' ++ [x] /\ x <> 10%N /\ x <> 59%N) \/ ((exists a', a = a' ++ [10%N]) /\ (semis b -> nb m))).

Definition rel (gm gp : gst) : Prop :=
  cov (g_out gm) (g_out gp) /\ block_ok (g_out gm) (g_out gp) (g_block gp).

Lemma block_ok_blank m p k b : block_ok m p k -> Forall blank b -> block_ok m (p ++ b) k.
Proof.
  intros (a & w & -> & -> & H) Hb. exists a, (w ++ b). rewrite app_assoc. repeat split; auto.
  destruct H as [->|[H|[H0 H]]]; auto. destruct b as [|x b]; [rewrite app_nil_r; auto|].
  right. right. split; auto. intros Hs. apply Forall_app in Hs. destruct Hs as [_ Hs]. inversion Hs as [|? ? Hx]; inversion Hb as [|? ? Hy]; subst.
  destruct Hy; discriminate.
Qed.

Lemma block_ok_snoc m p k c : block_ok m p k -> block_ok (m ++ [c]) (p ++ [c]) k.
Proof.
  intros (a & w & -> & -> & H). exists a, (w ++ [c]). rewrite app_assoc. repeat split; auto.
  destruct H as [->|[H|[H0 H]]]; auto. right. right. split; auto. intros Hs. apply Forall_app in Hs. destruct Hs as [Hs Hc].
  inversion Hc; subst. now apply nb_semi, H.
Qed.

Lemma block_ok_app s : forall m p k, block_ok m p k -> block_ok (m ++ s) (p ++ s) k.
Proof.
  induction s as [|c s IH]; intros m p k H; [now rewrite !app_nil_r|].
  change (c :: s) with ([c] ++ s). rewrite !app_assoc. apply IH. now apply block_ok_snoc.
Qed.

Definition same_block (g g' : gst) : Prop := g_block g' = g_block g.

Lemma indent_out g : exists k, let b := repeat 32%N k in Forall blank b /\ g_out (do_indent false g) = g_out g ++ b /\
  g_block (do_indent false g) = g_block g.
Proof.
  unfold do_indent. cbv zeta. destruct (negb _).
  - exists 0. cbn [repeat]. now rewrite app_nil_r.
  - exists (indentation (g_ctx (col_check g))). split; [|split; reflexivity]. apply Forall_forall. intros x Hx. apply repeat_spec in Hx. now left.
Qed.

Lemma rel_blank gm gp b gm' gp' : rel gm gp -> Forall blank b ->
  g_out gm' = g_out gm -> g_out gp' = g_out gp ++ b -> g_block gp' = g_block gp -> rel gm' gp'.
Proof.
  intros [H1 H2] Hb Em Ep Eb. unfold rel. rewrite Em, Ep, Eb. split.
  - now apply cov_blank. - now apply block_ok_blank.
Qed.

Lemma rel_char gm gp c : rel gm gp -> (K -> alphanumeric c = false) -> rel (do_char true c gm) (do_char false c gp).
Proof.
  intros H Hj. unfold do_char. destruct (indent_out gp) as (k & Hb & E & Eb). set (b := repeat 32%N k) in *.
  assert (X : rel gm (do_indent false gp)) by (eapply rel_blank; eauto).
  destruct X as [X1 X2]. unfold do_indent at 1 2. split; cbn [with_out g_out g_block].
  - apply cov_snoc; auto. intros HK Ha. rewrite (Hj HK) in Ha. discriminate.
  - now apply block_ok_snoc.
Qed.

Lemma rel_new_line gm gp : rel gm gp -> rel (do_new_line true gm) (do_new_line false gp).
Proof.
  intros H. unfold do_new_line, do_char. destruct (indent_out gp) as (k & Hb & E & Eb). set (b := repeat 32%N k) in *.
  eapply rel_blank with (b := b ++ [10%N]); [exact H| |reflexivity| |].
  - apply Forall_app. split; auto. constructor; [now right|constructor].
  - cbn [with_newline with_out g_out]. rewrite E. now rewrite <- app_assoc.
  - cbn [with_newline with_out g_block]. exact Eb.
Qed.

Lemma rel_newline_r gm gp : rel gm gp -> rel gm (do_new_line false gp).
Proof. apply rel_new_line. Qed.

Lemma last_char_spec o c : last_char o = Some c <-> exists o', o = o' ++ [c].
Proof.
  unfold last_char. destruct (rev o) as [|x r] eqn:E.
  - split; [discriminate|]. intros (o' & ->). rewrite rev_app_distr in E. discriminate.
  - split.
    + intros [= <-]. exists (rev r). rewrite <- (rev_involutive o), E. reflexivity.
    + intros (o' & ->). rewrite rev_app_distr in E. now injection E as -> _.
Qed.

Lemma blank_not_alnum c : blank c -> alphanumeric c = false.
Proof. intros [->| ->]; rewrite alphanumeric_table by lia; reflexivity. Qed.

Lemma semi_not_alnum : alphanumeric 59%N = false.
Proof. rewrite alphanumeric_table by lia. reflexivity. Qed.

Lemma rel_string gm gp s : rel gm gp -> rel (do_string true s gm) (do_string false s gp).
Proof.
  intros H. unfold do_string. destruct (indent_out gp) as (k & Hb & E & Eb). set (b := repeat 32%N k) in *.
  assert (X : rel gm (do_indent false gp)) by (eapply rel_blank; eauto).
  unfold do_indent at 1 2 3. set (gq := do_indent false gp) in *. clearbody gq. clear - X.
  destruct X as [X1 X2]. unfold rel. cbn [with_out g_out g_block].
  set (am := must_add_space_before (g_out gm) s). set (ap := must_add_space_before (g_out gq) s).
  assert (Y : am = ap \/ (am = true /\ ap = false)).
  { destruct am eqn:A, ap eqn:B; auto. exfalso. subst am ap. unfold must_add_space_before in *.
    destruct (last_char (g_out gq)) as [c'|] eqn:Lq; [|discriminate].
    destruct s as [|d s]; [discriminate|]. apply andb_prop in B. destruct B as [B1 B2].
    rewrite B2 in A. apply last_char_spec in Lq. destruct Lq as (o' & Lq). rewrite Lq in X1.
    destruct X1 as (p1 & w & E & H1 & H2 & H3). destruct H3 as [->|(w' & x & -> & Hx)].
    - rewrite app_nil_r in E. subst p1. destruct (g_out gm) as [|c m _] using rev_ind.
      + apply core_nil_inv in H1. now destruct o'.
      + apply core_snoc_inv in H1. destruct H1 as (p0 & w0 & c2 & E & H4 & H5 & H6 & Hc).
        rewrite app_assoc in E. apply app_inj_tail in E. destruct E as [_ <-].
        replace (last_char (m ++ [c])) with (Some c) in A by (symmetry; apply last_char_spec; eauto).
        rewrite andb_true_r in A. destruct Hc as [<-|[-> ->]]; [congruence|]. rewrite blank_not_alnum in B1 by now right. discriminate.
    - rewrite app_assoc in E. apply app_inj_tail in E. destruct E as [_ <-].
      rewrite blank_not_alnum in B1 by auto. discriminate. }
  destruct Y as [Y|[Ea Eb]].
  - split; [|rewrite Y; now apply block_ok_app].
    rewrite <- Y. apply cov_app; auto. intros HK c s' E Ha o x Em. destruct am eqn:A.
    + cbn [app] in E. injection E as <- _. rewrite blank_not_alnum in Ha by now left. discriminate.
    + cbn [app] in E. subst s. subst am. unfold must_add_space_before in A.
      replace (last_char (g_out gm)) with (Some x) in A by (symmetry; apply last_char_spec; eauto).
      now rewrite Ha, andb_true_r in A.
  - rewrite Ea, Eb. subst am ap. unfold must_add_space_before in Ea, Eb.
    destruct (last_char (g_out gm)) as [c|] eqn:Lm; [|discriminate].
    destruct s as [|d s]; [discriminate|]. apply andb_prop in Ea. destruct Ea as [A1 A2]. cbn [app].
    split.
    + change (32%N :: d :: s) with ([32%N] ++ d :: s). rewrite app_assoc. apply core_cov, core_app.
      apply last_char_spec in Lm. destruct Lm as (m0 & Lm).
      destruct X1 as (p1 & w & E & H1 & H2 & H3). destruct H3 as [->|(w' & x & -> & Hx)].
      * exfalso. rewrite Lm in H1. apply core_snoc_inv in H1.
        destruct H1 as (p0 & w0 & c2 & -> & H4 & H5 & H6 & Hc).
        assert (c2 = c) as ->.
        { destruct Hc as [->|[-> _]]; auto. rewrite blank_not_alnum in A1 by now left. discriminate. }
        rewrite E, app_nil_r, app_assoc in Eb.
        replace (last_char ((p0 ++ w0) ++ [c])) with (Some c) in Eb by (symmetry; apply last_char_spec; eauto).
        rewrite A1, A2 in Eb. discriminate.
      * rewrite E. constructor; auto; [apply Forall_app in H2; tauto|discriminate| |].
        -- intros _ _ Ha. rewrite blank_not_alnum in Ha by now left. discriminate.
        -- destruct Hx as [->| ->]; auto.
    + destruct X2 as (a & w & -> & -> & H). exists a, (w ++ d :: s). rewrite app_assoc. repeat split; auto.
      destruct H as [->|[H|[H0 H]]]; auto. right. right. split; auto. intros Hs. apply Forall_app in Hs. destruct Hs as [_ Hs].
      inversion Hs; subst. rewrite semi_not_alnum in A2. discriminate.
Qed.

Lemma rel_same gm gp gm' gp' : rel gm gp -> g_out gm' = g_out gm -> g_out gp' = g_out gp ->
  g_block gp' = g_block gp -> rel gm' gp'.
Proof. unfold rel. now intros H -> -> ->. Qed.

Lemma block_ok_drop gm gp k : cov (g_out gm) (g_out gp) -> block_ok (g_out gm) (g_out gp) k ->
  block_ok (g_out (snd (remove_last (ch ";") gm))) (g_out (snd (remove_last (ch ";") gp))) k.
Proof.
  intros Hc (a & b & Ep & Ek & H).
  destruct (remove_last (ch ";") gm) as [b1 g1] eqn:R1, (remove_last (ch ";") gp) as [b2 g2] eqn:R2. cbn [snd].
  apply remove_last_out in R1. apply remove_last_out in R2. change (ch ";") with 59%N in *.
  assert (Hn : nb (g_out gm) -> nb (g_out g1)).
  { destruct R1 as [(_ & -> & _)|(_ & E & _)]; auto. rewrite E. apply nb_drop. }
  destruct R2 as [(_ & -> & _)|(_ & E & _)].
  - exists a, b. repeat split; auto. destruct H as [H|[H|[H0 H]]]; auto. right. right. auto.
  - rewrite Ep in E. destruct b as [|x b _] using rev_ind.
    + exfalso. rewrite app_nil_r in E. subst a.
      destruct H as [H|[(a' & x & H & _ & Hx)|[(a' & H) _]]]; [now destruct (g_out g2)|apply app_inj_tail in H; destruct H; congruence..].
    + rewrite app_assoc in E. apply app_inj_tail in E. destruct E as [<- ->].
      exists a, b. repeat split; auto. destruct H as [H|[H|[H0 H]]]; auto. right. right. split; auto. intros Hs.
      apply Hn, H. apply Forall_app. split; auto.
Qed.

Lemma rel_end_block gm gp : rel gm gp -> rel (do_end_block true gm) (do_end_block false gp).
Proof.
  intros [H1 H2]. unfold do_end_block. rewrite andb_false_r, andb_true_r.
  set (gq := if at_block_start gp then _ else gp).
  assert (X : wcov (g_out gm) (g_out gq) /\
    exists a b, g_out gq ++ [125%N] = a ++ b /\ g_block gq = blen a /\
      (a = [] \/ (exists a' x, a = a' ++ [x] /\ x <> 10%N /\ x <> 59%N) \/ ((exists a', a = a' ++ [10%N]) /\ ~ semis b))).
  { destruct (at_block_start gp) eqn:Eb.
    - subst gq. destruct (remove_last 10%N gp) as [r g1] eqn:R. apply remove_last_out in R.
      unfold at_block_start in Eb. apply Nat.eqb_eq in Eb. destruct H2 as (a & b & Ep & Ek & H).
      assert (b = []) as ->.
      { destruct b as [|x b]; auto. rewrite Ek in Eb. unfold gpos in Eb. rewrite Ep, blen_app in Eb.
        cbn [blen] in Eb. pose proof (len8_pos x). lia. }
      rewrite app_nil_r in Ep.
      destruct R as [(-> & -> & N)|(-> & Eo & Eg)].
      + split; [now apply cov_wcov|]. exists a, [125%N]. rewrite Ep. repeat split; auto.
        destruct H as [H|[H|[H0 H]]]; auto. right. right. split; auto. intros Hs. inversion Hs; discriminate.
      + cbn [with_newline g_out g_block]. rewrite Ep in Eo.
        destruct H as [->|[(a' & x & -> & Hx & _)|[_ H]]].
        * now destruct (g_out g1).
        * apply app_inj_tail in Eo. destruct Eo. congruence.
        * specialize (H (Forall_nil _)). split.
          -- rewrite Ep, Eo in H1. apply cov_loses_line in H1; auto; intros o Ho.
             ++ apply (H o 32%N 0); [now left|exact Ho].
             ++ apply (H o 10%N 0); [now right|exact Ho].
          -- exists (g_out g1 ++ [125%N]), []. rewrite app_nil_r. split; auto. split.
             ++ rewrite Eg. cbn [with_out g_block]. rewrite Ek, Eo, !blen_app. reflexivity.
             ++ right. left. exists (g_out g1), 125%N. repeat split; discriminate.
    - subst gq. split; [now apply cov_wcov|]. destruct H2 as (a & b & -> & Ek & H).
      exists a, (b ++ [125%N]). rewrite app_assoc. repeat split; auto.
      destruct H as [H|[H|[H0 H]]]; auto. right. right. split; auto. intros Hs.
      apply Forall_app in Hs. destruct Hs as [_ Hs]. inversion Hs; discriminate. }
  destruct X as [X1 X2]. clearbody gq. clear H1 H2. apply wcov_drop in X1.
  set (gn := snd (remove_last (ch ";") gm)) in *. clearbody gn.
  unfold do_char. destruct (indent_out gq) as (k & Hb & E & Eb). unfold do_indent at 1 2.
  unfold rel. cbn [with_out g_out g_block]. rewrite E, Eb. set (b := repeat 32%N k) in *. split.
  - apply wcov_snoc; [|discriminate|rewrite alphanumeric_table by reflexivity; reflexivity]. destruct X1 as (p1 & w & -> & Y1 & Y2). exists p1, (w ++ b).
    rewrite app_assoc. repeat split; auto. apply Forall_app. split; auto using blank_filler.
  - destruct X2 as (a & w & Ew & -> & H). change (ch "}") with 125%N.
    (* the text before the closing brace, with the indentation *)
    destruct w as [|x w _] using rev_ind.
    + rewrite app_nil_r in Ew.
      destruct k as [|k]; subst b; cbn [repeat].
      * rewrite app_nil_r. exists a, []. rewrite app_nil_r. repeat split; auto.
        right. left. exists (g_out gq), 125%N. repeat split; auto; discriminate.
      * exists (g_out gq ++ [32%N]), (repeat 32%N k ++ [125%N]). rewrite <- !app_assoc. repeat split; auto.
        -- rewrite <- Ew, !blen_app. reflexivity.
        -- right. left. exists (g_out gq), 32%N. repeat split; auto; discriminate.
    + rewrite app_assoc in Ew. apply app_inj_tail in Ew. destruct Ew as [-> <-].
      exists a, (w ++ b ++ [125%N]). rewrite !app_assoc. repeat split; auto.
      destruct H as [H|[H|[H0 H]]]; auto. right. right. split; auto. intros Hs.
      unfold semis in Hs. rewrite !Forall_app in Hs. destruct Hs as [_ Hs]. inversion Hs; discriminate.
Qed.

Definition quiet (c : cmd) : Prop := match c with Char x => K -> alphanumeric x = false | _ => True end.

Lemma rel_exec1 c gm gp : quiet c -> rel gm gp -> rel (exec1 true c gm) (exec1 false c gp).
Proof.
  intros Hq H. destruct c; cbn [exec1].
  - now apply rel_char.
  - now apply rel_string.
  - unfold do_space. destruct (indent_out gp) as (k & Hb & E & Eb).
    eapply rel_blank with (b := repeat 32%N k ++ [32%N]); eauto.
    + apply Forall_app. split; auto. constructor; [now left|constructor].
    + unfold do_char. cbn [with_out g_out]. rewrite E. now rewrite <- app_assoc.
  - now apply rel_new_line.
  - unfold do_start_block. assert (X : rel (do_char true (ch "{") gm) (do_char false (ch "{") gp)).
    { apply rel_char; auto. intros _. rewrite alphanumeric_table by reflexivity. reflexivity. }
    apply rel_new_line in X. destruct X as [X1 X2]. split; cbn [with_block g_out g_block]; auto.
    exists (g_out (do_new_line false (do_char false (ch "{") gp))), []. rewrite app_nil_r. repeat split; auto.
    right. right. split.
    + unfold do_new_line. cbn [with_newline g_out]. unfold do_char at 1. cbn [with_out g_out]. eauto.
    + intros _. unfold do_new_line, do_char, do_indent. cbn [with_out g_out]. apply nb_snoc; [discriminate|].
      intros [X|X]; discriminate.
  - now apply rel_end_block.
  - unfold do_separation. set (x := at_block_start gm). set (y := at_block_start gp). clearbody x y.
    assert (X : rel (if x then gm else do_new_line true gm) gp) by now destruct x.
    destruct y; auto. now apply rel_newline_r.
  - unfold do_stmt_end. set (x := Nat.eqb _ _). set (y := Nat.eqb (g_newline gp) _). clearbody x y.
    assert (X : rel (if x then gm else do_new_line true gm) gp) by now destruct x.
    destruct y; auto. now apply rel_newline_r.
  - destruct H as [H1 H2]. split; [now apply cov_drop|].
    replace (g_block (snd (remove_last (ch ";") gp))) with (g_block gp); [now apply block_ok_drop|].
    unfold remove_last. destruct (rev (g_out gp)); auto. now destruct (N.eqb _ _).
  - now apply rel_same with (gm := gm) (gp := gp).
  - now apply rel_same with (gm := gm) (gp := gp).
  - now apply rel_same with (gm := gm) (gp := gp).
  - apply rel_same with (gm := gm) (gp := gp); auto; [destruct (g_stack gm)|destruct (g_stack gp)..]; auto.
Qed.

Lemma rel_exec l : Forall quiet l -> forall gm gp, rel gm gp -> rel (exec true l gm) (exec false l gp).
Proof. induction 1; cbn [exec]; intros gm gp HR; auto using rel_exec1. Qed.

Lemma rel_new : rel gst_new gst_new.
Proof.
  split.
  - exists [], []. repeat split; [constructor|constructor|now left].
  - exists [], []. auto.
Qed.

Lemma wcov_end g p : wcov (g_out g) p -> wcov (g_out (do_program_end true g)) p.
Proof.
  intros X. unfold do_program_end. destruct (remove_last (ch ";") _) as [b g1] eqn:R. apply remove_last_out in R.
  change (ch ";") with 59%N in *. destruct R as [(-> & -> & _)|(-> & E & Eg)]; auto.
  destruct (last_char (g_out g1)) as [c|].
  - destruct (N.eqb c (ch ")")).
    + unfold do_char, do_indent. cbn [with_out g_out]. now rewrite <- E.
    + rewrite E in X. now apply wcov_loses in X.
  - rewrite E in X. now apply wcov_loses in X.
Qed.

Lemma generated_wcov r n : Forall quiet (root r n) ->
  wcov (g_out (generated true r n)) (g_out (generated false r n)).
Proof.
  intros Hq. pose proof (rel_exec _ Hq _ _ rel_new) as [X _]. apply cov_wcov in X.
  unfold generated. destruct r; auto. now apply wcov_end.
Qed.


Lemma thinner_app m p m' p' : thinner m p -> thinner m' p' -> thinner (m ++ m') (p ++ p').
Proof. induction 1; intros; cbn [app]; auto using thin_keep, thin_skip, thin_line. Qed.

Lemma thinner_filler w : Forall filler w -> thinner [] w.
Proof. induction 1; constructor; auto. Qed.

Lemma core_thinner m p : core m p -> thinner m p.
Proof.
  induction 1 as [|m p w c c' H IH Hw _ _ Hc]; [constructor|].
  apply thinner_app; auto. change [c] with ([] ++ [c]). apply thinner_app; [now apply thinner_filler|].
  destruct Hc as [->|[-> ->]]; [apply thin_keep|apply thin_line]; constructor.
Qed.

Lemma wcov_thinner m p : wcov m p -> thinner m p.
Proof.
  intros (p1 & w & -> & H1 & H2). rewrite <- (app_nil_r m). apply thinner_app; auto using core_thinner, thinner_filler.
Qed.

End Cover.

(** C39: for every tree, the minified code is the code of the other mode with
    only spaces, line breaks and semicolons left out. *)
Theorem C39_minified_thinner : forall r n m p,
  generate true r n = Some m -> generate false r n = Some p -> thinner m p.
Proof.
  intros r n m p. unfold generate. destruct (g_fault _); [discriminate|]. destruct (g_fault _); [discriminate|].
  intros [= <-] [= <-]. apply (wcov_thinner False). apply generated_wcov.
  apply Forall_forall. intros [] _; cbn; auto. intros [].
Qed.

(** In particular it is never longer. *)
Corollary C39_minified_not_longer : forall r n m p,
  generate true r n = Some m -> generate false r n = Some p -> length m <= length p.
Proof.
  intros r n m p Hm Hp. pose proof (C39_minified_thinner _ _ _ _ Hm Hp) as H. clear Hm Hp.
  induction H; cbn [length]; lia.
Qed.

(** And what is left without these characters is the same. *)
Definition solid (s : str) : str := filter (fun c => negb (existsb (N.eqb c) [32; 10; 59]%N)) s.

Corollary C39_same_solid : forall r n m p,
  generate true r n = Some m -> generate false r n = Some p -> solid m = solid p.
Proof.
  intros r n m p Hm Hp. pose proof (C39_minified_thinner _ _ _ _ Hm Hp) as H. clear Hm Hp.
  induction H as [|c m p H IH|c m p Hc H IH|m p H IH]; auto.
  - unfold solid in *. cbn [filter]. destruct (negb _); congruence.
  - destruct Hc as [<-|[<-|[<-|[]]]]; exact IH.
Qed.


(** ** C35: words are not run together *)

(** The words of a text: its longest runs of letters and digits. *)
Definition scan1 (st : list str * str) (c : N) : list str * str :=
  let '(ws, w) := st in
  if alphanumeric c then (ws, w ++ [c]) else (match w with [] => ws | _ => ws ++ [w] end, []).
Definition scan (s : str) : list str * str := fold_left scan1 s ([], []).
Definition words (s : str) : list str :=
  let '(ws, w) := scan s in match w with [] => ws | _ => ws ++ [w] end.

Lemma scan_app a b : scan (a ++ b) = fold_left scan1 b (scan a).
Proof. apply fold_left_app. Qed.

Lemma filler_not_alnum c : filler c -> alphanumeric c = false.
Proof. intros [<-|[<-|[<-|[]]]]; rewrite alphanumeric_table by lia; reflexivity. Qed.

Lemma scan_filler w : Forall filler w -> forall ws u,
  fold_left scan1 w (ws, u) = match w with [] => (ws, u) | _ => (match u with [] => ws | _ => ws ++ [u] end, []) end.
Proof.
  induction 1 as [|c w Hc Hw IH]; intros ws u; [reflexivity|]. cbn [fold_left scan1].
  rewrite (filler_not_alnum _ Hc), IH. now destruct w.
Qed.

(** A word in progress ends with the last character. *)
Lemma scan_cur s : snd (scan s) <> [] -> exists o x, s = o ++ [x] /\ alphanumeric x = true.
Proof.
  destruct s as [|x o _] using rev_ind; [now intros []|]. rewrite scan_app. cbn [fold_left].
  destruct (scan o) as [ws u]. cbn [scan1]. destruct (alphanumeric x) eqn:E; [eauto|now intros []].
Qed.

Lemma core_scan m p : core True m p -> scan m = scan p.
Proof.
  induction 1 as [|m p w c c' H IH Hw _ Hj Hc]; [reflexivity|].
  rewrite !scan_app, <- IH. clear IH.
  assert (E : forall st, scan1 st c' = scan1 st c).
  { destruct Hc as [->|[-> ->]]; auto. intros [ws u]. cbn [scan1].
    rewrite (blank_not_alnum 10%N), (blank_not_alnum 32%N) by (unfold blank; auto). reflexivity. }
  rewrite fold_left_app. cbn [fold_left]. rewrite E. destruct (scan m) as [ws u] eqn:Es.
  rewrite (scan_filler w Hw). destruct w as [|x w]; [reflexivity|].
  specialize (Hj Logic.I). unfold join_ok in Hj. cbn [scan1].
  destruct u as [|y u]; [reflexivity|]. destruct (alphanumeric c); [|reflexivity]. exfalso.
  destruct (scan_cur m) as (o & v & -> & Hv); [now rewrite Es|].
  rewrite (Hj ltac:(discriminate) eq_refl o v eq_refl) in Hv. discriminate.
Qed.

Lemma wcov_words m p : wcov True m p -> words m = words p.
Proof.
  intros (p1 & w & -> & H1 & H2). unfold words. rewrite scan_app, <- (core_scan _ _ H1).
  destruct (scan m) as [ws u]. rewrite (scan_filler w H2). destruct w; [reflexivity|]. now destruct u.
Qed.

(** The string literals of a node. *)
Definition strings_of (n : node) : list lit_string :=
  match n with
  | LitString s | NameString s | SImport _ _ _ _ s | XNamed _ _ (Some s) | XNamespace _ _ s => [s]
  | Body _ ds _ | Script _ ds _ | Module _ ds _ => ds
  | _ => []
  end.

Definition q_ (c : cmd) : Prop := match c with Char x => alphanumeric x = false | _ => True end.
Definition quote_ok (s : lit_string) : Prop := alphanumeric (ls_delimiter s) = false.

Lemma q_flat {A} (f : A -> list cmd) l : (forall a, In a l -> Forall q_ (f a)) -> Forall q_ (flat_map f l).
Proof.
  induction l as [|a l IH]; intros H; cbn [flat_map]; [constructor|]. apply Forall_app. split; [apply H; now left|].
  apply IH. intros b Hb. apply H. now right.
Qed.

Lemma q_comma l : Forall (Forall q_) l -> Forall q_ (comma_separated l).
Proof.
  induction 1 as [|x l Hx Hl IH]; [constructor|]. cbn [comma_separated]. destruct l; [exact Hx|].
  apply Forall_app. split; auto. repeat constructor; auto. cbn. rewrite alphanumeric_table; reflexivity.
Qed.

Lemma q_ascii s : alphanumeric (ch s) = false -> q_ (C_ s).
Proof. auto. Qed.

Ltac qc := cbn [q_]; match goal with |- alphanumeric ?c = false => rewrite (alphanumeric_table c) by reflexivity; reflexivity end.

Lemma q_quote s : quote_ok s -> Forall q_ (quote_ s).
Proof. intros H. repeat constructor; auto. Qed.

Lemma q_directives ds : (forall s, In s ds -> quote_ok s) -> Forall q_ (directives_ ds).
Proof.
  intros H. apply q_flat. intros s Hs. apply Forall_app. split; [now apply q_quote, H|].
  repeat constructor. qc.
Qed.

Lemma q_map (l : list node) : (forall c, In c l -> Forall q_ (gen c)) -> Forall (Forall q_) (map gen l).
Proof. intros H. apply Forall_map, Forall_forall. exact H. Qed.

Lemma q_names o : Forall q_ (names_ o).
Proof. destruct o; repeat constructor. Qed.

Lemma q_array_binding l : Forall (fun o => match o with Some x => Forall q_ x | None => True end) l ->
  Forall q_ (array_binding_elements l).
Proof.
  induction 1 as [|o l Ho Hl IH]; [constructor|]. cbn [array_binding_elements].
  destruct o as [x|], l; auto; try (apply Forall_app; split; auto); repeat constructor; auto; qc.
Qed.

Lemma q_declarations l : Forall (fun x => Forall q_ (fst x)) l -> Forall q_ (declarations_ l).
Proof.
  induction 1 as [|[x b] l Hx Hl IH]; [constructor|]. cbn [declarations_ fst] in *.
  destruct l; (apply Forall_app; split; auto); repeat constructor; auto; try qc. destruct b; exact Logic.I.
Qed.

Lemma q_prefix (b : bool) x : Forall q_ x -> Forall q_ (if b then x else []).
Proof. destruct b; auto. Qed.

Ltac qstep :=
  match goal with
  | |- Forall q_ [] => constructor
  | |- Forall q_ (_ ++ _) => apply Forall_app; split
  | |- Forall q_ (Char _ :: _) => constructor; [try qc|]
  | |- Forall q_ (_ :: _) => constructor; [exact Logic.I|]
  | |- Forall q_ (comma_separated _) => apply q_comma
  | |- Forall q_ (parenthesize _ _ _ _) => unfold parenthesize
  | |- Forall q_ (comma_separated_with_rest _ _) => unfold comma_separated_with_rest
  | |- Forall q_ (initializer_ _) => unfold initializer_
  | |- Forall q_ (indented _) => unfold indented
  | |- Forall q_ (name_ _) => unfold name_
  | |- Forall q_ (names_ _) => apply q_names
  | |- Forall q_ (maybe_as_alias _) => unfold maybe_as_alias
  | |- Forall q_ (class_ _ _ _) => unfold class_
  | |- Forall q_ (function_ _ _ _ _ _) => unfold function_
  | |- Forall q_ (quote_ _) => apply q_quote
  | |- Forall q_ (directives_ _) => apply q_directives
  | |- Forall q_ (declarations_ _) => apply q_declarations
  | |- Forall q_ (array_binding_elements _) => apply q_array_binding
  | |- Forall q_ (flat_map _ _) => apply q_flat; intros
  | |- Forall (Forall q_) (map gen _) => apply q_map; intros
  | |- Forall q_ match ?o with _ => _ end => destruct o eqn:?
  | |- Forall q_ (if ?o then _ else _) => destruct o eqn:?
  end.

Lemma gen_q n : (forall x s, descendant n x -> In s (strings_of x) -> quote_ok s) -> Forall q_ (gen n).
Proof.
  induction n as [n IH] using node_children_ind2. intros Hs.
  assert (Hc : forall c, In c (children n) -> Forall q_ (gen c)).
  { intros c Hc. apply IH; [now left|]. intros x s Hx. apply Hs. eapply desc_child; eauto. }
  assert (Hc2 : forall c d, In c (children n) -> In d (children c) -> Forall q_ (gen d)).
  { intros c d Hc1 Hd. apply IH; [right; eauto|]. intros x s Hx. apply Hs. eapply desc_child; eauto. eapply desc_child; eauto. }
  assert (Hm : forall s, In s (strings_of n) -> quote_ok s) by (intros s; apply Hs; constructor).
  clear IH Hs.
  destruct n; cbn [gen]; cbn [children opt_list strings_of] in Hc, Hc2, Hm.
  all: repeat qstep.
  all: repeat match goal with H : option_map gen ?o = Some _ |- _ =>
    is_var o; destruct o; [cbn [option_map] in H; injection H as <-|discriminate] end.
  all: try (apply Hc; rewrite ?in_app_iff; cbn; auto 7; fail).
  all: try (apply Hm; cbn; auto; fail).
  - apply (Hc2 (FormalParameters sp0 bindings rest)); [now left|]. cbn. apply in_app_iff. auto.
  - apply in_map_iff in H. destruct H as (y & <- & Hy). apply Hc. apply in_app_iff. auto.
  - apply Forall_forall. intros o Ho. apply in_map_iff in Ho. destruct Ho as ([y|] & <- & Hy); cbn; auto.
    apply Hc. apply in_app_iff. left. clear - Hy. induction elements as [|[z|] l IH]; cbn in *; [easy| |].
    + destruct Hy as [[= ->]|Hy]; auto.
    + destruct Hy as [Hy|Hy]; [discriminate|auto].
  - apply Hc. right. apply in_app_iff. right. now left.
  - apply Forall_map, Forall_forall. intros d Hd. cbn. auto.
  - apply in_map_iff in H. destruct H as (y & <- & Hy). apply Hc. apply in_app_iff. auto.
  - apply (Hc2 _ n0_1 (or_introl eq_refl)). now left.
  - apply (Hc2 _ n0_2 (or_introl eq_refl)). cbn; auto.
  - apply (Hc2 _ n0_1 (or_introl eq_refl)). now left.
  - apply (Hc2 _ n0_2 (or_introl eq_refl)). cbn; auto.
Qed.

(** C35 (partial): minified code has the same words as the code of the other
    mode: leaving out blanks never joins two of them.  (Missing: other tokens,
    see the refutation.) *)
Theorem C35_words_kept_partial : forall r n m p,
  (forall x s, descendant n x -> In s (strings_of x) -> alphanumeric (ls_delimiter s) = false) ->
  generate true r n = Some m -> generate false r n = Some p -> words m = words p.
Proof.
  intros r n m p Hs. unfold generate. destruct (g_fault _); [discriminate|]. destruct (g_fault _); [discriminate|].
  intros [= <-] [= <-]. apply wcov_words, generated_wcov.
  assert (X : Forall q_ (gen n)) by (apply gen_q; exact Hs).
  assert (Y : Forall q_ (root r n)).
  { destruct r; auto. cbn [root]. apply Forall_app. split; auto. repeat constructor. }
  eapply Forall_impl; [|exact Y]. intros [] H; cbn in *; auto.
Qed.

End Props.

(** The string literals of an accepted source stand in quotes. *)
Lemma fits_val_in p ts l q v : fits p ts l q -> In (Val v) l -> exists t, In t ts /\ t_value t = v.
Proof.
  intros H. induction H; intros Hin; cbn [In] in *.
  all: try (destruct Hin; fail).
  all: try (destruct Hin as [Hin|Hin]; [try discriminate|]).
  all: try (destruct (IHfits Hin) as (x & Hx & Ev); exists x; auto; fail).
  all: try (destruct (IHfits (or_intror Hin)) as (x & Hx & Ev); exists x; auto; fail).
  injection Hin as <-. eauto.
Qed.

Lemma strings_lay n l s : lays n l -> In s (strings_of n) -> In (str_mark s) l.
Proof.
  assert (D : forall ds, In s ds -> In (str_mark s) (directives ds)).
  { intros ds H. unfold directives. apply in_flat_map. exists s. cbn. auto. }
  intros [->|H].
  - destruct n; cbn [strings_of lay]; try (intros []; fail); intros Hin; unfold bracket.
    all: try (destruct Hin as [->|[]]; cbn; rewrite ?in_app_iff; cbn; tauto).
    all: try (right; cbn; rewrite ?in_app_iff; auto; fail).
    + destruct from as [s'|]; [|easy]. destruct Hin as [->|[]]. cbn. rewrite ?in_app_iff. cbn. tauto.
    + destruct directives; [easy|]. right. apply in_app_iff. left. apply in_app_iff. left. auto.
    + destruct directives; [easy|]. right. apply in_app_iff. left. apply in_app_iff. left. auto.
  - destruct n; try contradiction; cbn [strings_of]; intros [].
Qed.

Lemma chain_quoted `{PF : Platform} D pre f ts pre' f' t v d : chain D pre f ts pre' f' -> In t ts ->
  t_value t = VLiteral (TLString v d) -> d = 34%N \/ d = 39%N.
Proof.
  intros Hc Ht Ev. induction Hc as [|pre f t0 pre1 f1 ts pre2 f2 Ht0 Hc IH]; [easy|].
  destruct Ht as [->|Ht]; [|auto].
  destruct Ht0 as [html st gap s0 after v' f1' b E Ht Hn Hl _ _|html gap s0 after v' f1' b E Ht Hl _];
    cbn [t_value] in Ev; subst v'; inversion Hl; subst; auto.
  all: match goal with H : word_value _ _ |- _ => unfold word_value in H; destruct H as [(?&_&?)|[_ ?]]; discriminate | H : template_continue _ _ |- _ => inversion H | _ => idtac end.
Qed.

Lemma accepts_quoted `{PF : Platform} tg m D a x s : accepts tg m D a -> descendant a x -> In s (strings_of x) ->
  ls_delimiter s = 34%N \/ ls_delimiter s = 39%N.
Proof.
  intros H Hd Hs. destruct (accepts_fits _ _ _ _ H) as (ts & pre & f & Hc & _ & Hf).
  destruct (descendant_infix _ _ Hd (lay a) (or_introl eq_refl)) as (u & lx & v & Hx & E).
  pose proof (strings_lay _ _ _ Hx Hs) as Hin.
  assert (Hin' : In (str_mark s) (lay a)) by (rewrite E, !in_app_iff; auto).
  destruct (fits_val_in _ _ _ _ _ Hf Hin') as (t & Ht & Ev). eapply chain_quoted; eauto.
Qed.

(** C35 (partial), of accepted sources. *)
Theorem C35_accepted_words_kept_partial `{PF : Platform} tg md D a r m p :
  accepts tg md D a -> generate true r a = Some m -> generate false r a = Some p -> words m = words p.
Proof.
  intros H. apply C35_words_kept_partial. intros x s Hx Hs.
  pose proof (accepts_quoted _ _ _ _ _ _ H Hx Hs) as [->| ->]; rewrite alphanumeric_table by lia; reflexivity.
Qed.

(** The generated code of an accepted source, accepted again. *)
Definition reparses (m minified : bool) (a : node) : Prop :=
  exists text b, @generate ap minified RProgram a = Some text /\ @accepts ap TProgram m text b /\ bare b = bare a.

(** The code generated from [D], and what becomes of it. *)
Definition regenerated (m minified : bool) (D : str) : option str :=
  match parsed TProgram m D with Some a => @generate ap minified RProgram a | None => None end.

Lemma not_reparses m minified D text :
  regenerated m minified D = Some text ->
  (forall a b, parsed TProgram m D = Some a -> parsed TProgram m text = Some b -> bare b <> bare a) ->
  @parse_fuel ap 500 TProgram text m <> OFuel ->
  exists a, @accepts ap TProgram m D a /\ ~ reparses m minified a.
Proof.
  unfold regenerated. destruct (parsed TProgram m D) as [a|] eqn:E; [|discriminate]. intros G F Hf.
  pose proof (parsed_accepts _ _ _ _ E) as Ha. exists a. split; auto. intros (text' & b & G' & Hb & Hab).
  rewrite G in G'. injection G' as <-. destruct Hb as (f1 & s1 & H1).
  assert (X : parsed TProgram m text = Some b).
  { unfold parsed. rewrite <- (parse_fuel_det f1 500); auto; rewrite H1; auto. discriminate. }
  now apply (F a b eq_refl X).
Qed.

Lemma not_reparses_rejected m minified D text :
  regenerated m minified D = Some text -> is_some (failed TProgram m text) = true ->
  exists a, @accepts ap TProgram m D a /\ ~ reparses m minified a.
Proof.
  intros G F. unfold failed in F. apply (not_reparses m minified D text G).
  - intros a b _ Hb. unfold parsed in Hb.
    destruct (@parse_fuel ap 500 TProgram text m) as [[?|?] ?| |]; discriminate.
  - now destruct (@parse_fuel ap 500 TProgram text m) as [[?|?] ?| |].
Qed.

(** C34: the code generated from an accepted source is not always accepted, and
    not always as the same tree: an assignment to a pattern loses the pattern
    (in both modes), an [if] with an empty statement loses that, [- -a] becomes
    [--a]. *)
Theorem C34_round_trip_refuted :
  (exists D a, @accepts ap TProgram false D a /\ ~ reparses false true a) /\
  (exists D a, @accepts ap TProgram false D a /\ ~ reparses false false a).
Proof.
  split; exists (chars "[a] = b").
  - apply (not_reparses_rejected _ _ _ (chars "=b")); vm_compute; reflexivity.
  - apply (not_reparses_rejected _ _ _ (chars " = b;" ++ [10%N])); vm_compute; reflexivity.
Qed.

Example C34_empty_statement :
  exists a, @accepts ap TProgram false (chars "{ if (a); }") a /\ ~ reparses false true a.
Proof. apply (not_reparses_rejected _ _ _ (chars "{if(a)}")); vm_compute; reflexivity. Qed.

Example C34_minus_minus :
  exists a, @accepts ap TProgram false (chars "- -a") a /\ ~ reparses false false a.
Proof.
  apply (not_reparses _ _ _ (chars "--a;" ++ [10%N])); [vm_compute; reflexivity| |vm_compute; discriminate].
  intros a b Ha Hb. vm_compute in Ha, Hb. injection Ha as <-. injection Hb as <-. discriminate.
Qed.

(** C35: two tokens written without a blank between them are read as one. *)
Theorem C35_tokens_apart_refuted :
  regenerated false true (chars "var $a;") = Some (chars "var$a") /\
  (exists a, @accepts ap TProgram false (chars "var $a;") a /\ ~ reparses false true a) /\
  regenerated false true (chars "a + +b;") = Some (chars "a++b") /\
  (exists a, @accepts ap TProgram false (chars "a + +b;") a /\ ~ reparses false true a) /\
  regenerated false false (chars "class $ {}") = Some (chars "class$ {}" ++ [10%N]) /\
  (exists a, @accepts ap TProgram false (chars "class $ {}") a /\ ~ reparses false false a).
Proof.
  split; [vm_compute; reflexivity|]. split.
  { apply (not_reparses _ _ _ (chars "var$a")); [vm_compute; reflexivity| |vm_compute; discriminate].
    intros a b Ha Hb. vm_compute in Ha, Hb. injection Ha as <-. injection Hb as <-. discriminate. }
  split; [vm_compute; reflexivity|]. split.
  { apply (not_reparses _ _ _ (chars "a++b")); [vm_compute; reflexivity| |vm_compute; discriminate].
    intros a b Ha Hb. vm_compute in Ha, Hb. first [discriminate | injection Ha as <-; injection Hb as <-; discriminate]. }
  split; [vm_compute; reflexivity|].
  apply (not_reparses _ _ _ (chars "class$ {}" ++ [10%N])); [vm_compute; reflexivity| |vm_compute; discriminate].
  intros a b Ha Hb. vm_compute in Ha, Hb. first [discriminate | injection Ha as <-; injection Hb as <-; discriminate].
Qed.

(** The same with regular expressions: a division before one becomes a comment,
    and a word after one becomes its flags. *)
Theorem C35_regexps_apart_refuted :
  regenerated false true (chars "a / /x/;") = Some (chars "a//x/") /\
  (exists a, @accepts ap TProgram false (chars "a / /x/;") a /\ ~ reparses false true a) /\
  regenerated false true (chars "/a/ in b;") = Some (chars "/a/in b") /\
  (exists a, @accepts ap TProgram false (chars "/a/ in b;") a /\ ~ reparses false true a).
Proof.
  split; [vm_compute; reflexivity|]. split.
  { apply (not_reparses _ _ _ (chars "a//x/")); [vm_compute; reflexivity| |vm_compute; discriminate].
    intros a b Ha Hb. vm_compute in Ha, Hb. first [discriminate | injection Ha as <-; injection Hb as <-; discriminate]. }
  split; [vm_compute; reflexivity|].
  apply (not_reparses _ _ _ (chars "/a/in b")); [vm_compute; reflexivity| |vm_compute; discriminate].
  intros a b Ha Hb. vm_compute in Ha, Hb. first [discriminate | injection Ha as <-; injection Hb as <-; discriminate].
Qed.

(** C35, C38, C39: an instance. *)
Example codegen_instance :
  regenerated false true (chars "function f(a) { return typeof a in b }") =
    Some (chars "function f(a){return typeof a in b}") /\
  @words ap (chars "return typeof a in b") = [chars "return"; chars "typeof"; chars "a"; chars "in"; chars "b"].
Proof. split; vm_compute; reflexivity. Qed.
