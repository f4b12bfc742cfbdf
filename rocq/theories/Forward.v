(** * Forward: running the parser on a known sequence of tokens.

    [wpt p ts Q]: the program [p], started where the tokens [ts] are still to
    be read, finishes with a result and remaining tokens that satisfy [Q]. *)

From Verif Require Import Base Tokens PeekReader CharReader Lexer LexSpec LexChars LexerFacts Ast Prog TokChain
  ParseState Parser ParseRuns Source Stream.
Local Open Scope string_scope.
Local Open Scope list_scope.
Local Open Scope prog_scope.

Section Forward.
Context {PF : Platform}.
Variable D : str.
Variable st : lexer_state.
Variable full : list token.

Definition setting : Prop :=
  inside_template st = false /\ regex_allowed st = false /\ ascii_str D = true /\ source_tokens D st [] true full.

Hypothesis HS : setting.

Definition sfx (ts : list token) : Prop := exists a, full = a ++ ts.

Definition ex {A : Set} (p : prg A) (s : pst) (r : result A perr) (s' : pst) : Prop :=
  exists f, exec (run body f) p s = ODone r s'.

Definition wpt {A : Set} (p : prg A) (ts : list token) (Q : result A perr -> list token -> Prop) : Prop :=
  sfx ts -> forall s, at_ D st ts s ->
  exists r s' ts', ex p s r s' /\ at_ D st ts' s' /\ sfx ts' /\ Q r ts'.

Lemma sfx_tl t ts : sfx (t :: ts) -> sfx ts.
Proof. intros [a E]. exists (a ++ [t]). rewrite E. now rewrite <- app_assoc. Qed.

Lemma sfx_app a ts : sfx (a ++ ts) -> sfx ts.
Proof. intros [b E]. exists (b ++ a). rewrite E. now rewrite <- app_assoc. Qed.

Lemma sfx_from ts : sfx ts -> from_start D st ts.
Proof. intros [a E]. destruct HS as (Hi & Hr & Ha & H). eapply from_start_suffix; eassumption. Qed.

(** Only some tokens can come before a special one. *)
Lemma sfx_ord t ts : sfx (t :: ts) -> (opener (t_value t) = true -> ord_hd ts) -> ord_hd ts.
Proof.
  intros [a E] Ht. destruct ts as [|u ts]; [exact Logic.I|]. cbn [ord_hd] in *. unfold ordinary in *.
  destruct (special (t_value u)) eqn:Eu; [|reflexivity]. destruct HS as (Hi & Hr & Ha & H).
  assert (Ho : opener (t_value t) = true) by (eapply opener_before; eassumption). now apply Ht in Ho.
Qed.

Lemma wpt_sfx {A : Set} (p : prg A) ts Q : (sfx ts -> wpt p ts Q) -> wpt p ts Q.
Proof. intros H Hs. now apply H. Qed.

(** ** Execution *)

Lemma exec_more {A : Set} f1 f2 (p : prg A) s r s' : f1 <= f2 ->
  exec (run body f1) p s = ODone r s' -> exec (run body f2) p s = ODone r s'.
Proof.
  intros Hle H. rewrite <- H. apply exec_mono; [|congruence]. intros. now apply run_mono.
Qed.

Lemma ex_op {A B : Set} (o : op B) (k : B -> prg A) s b s1 r s' :
  step o s = SDone b s1 -> ex (k b) s1 r s' -> ex (Op o k) s r s'.
Proof. intros H [f Hf]. exists f. cbn [exec]. now rewrite H. Qed.

Lemma ex_call {A B : Set} (n : nt B) (k : result B perr -> prg A) s r0 s1 r s' :
  ex (body B n) s r0 s1 -> ex (k r0) s1 r s' -> ex (Call n k) s r s'.
Proof.
  intros [f1 H1] [f2 H2]. exists (S (f1 + f2)). cbn [exec].
  change (run body (S (f1 + f2)) B n s) with (exec (run body (f1 + f2)) (body B n) s).
  rewrite (exec_more f1 (f1 + f2) _ _ _ _ ltac:(lia) H1). eapply exec_more; [|exact H2]. lia.
Qed.

Lemma ex_call_inv {A B : Set} (n : nt B) (k : result B perr -> prg A) s r s' :
  ex (Call n k) s r s' -> exists r0 s1, ex (body B n) s r0 s1 /\ ex (k r0) s1 r s'.
Proof.
  intros [f H]. cbn [exec] in H. destruct f as [|f]; cbn [run] in H; [discriminate|].
  destruct (exec (run body f) (body B n) s) as [r0 s1| |] eqn:E; try discriminate.
  exists r0, s1. split; [now exists f|]. exists (S f). exact H.
Qed.

Lemma ex_bind {A B : Set} (m : prg A) (f : A -> prg B) : forall s r s1 r' s',
  ex m s r s1 ->
  ex (match r with Ok a => f a | Err e => Ret (Err e) end) s1 r' s' ->
  ex (pbind m f) s r' s'.
Proof.
  induction m as [r0| |B' o k IH|B' n k IH]; intros s r s1 r' s' H1 H2.
  - destruct H1 as [x Hx]. cbn in Hx. injection Hx as -> ->. destruct r; exact H2.
  - destruct H1 as [x Hx]. discriminate.
  - destruct H1 as [x Hx]. cbn [exec] in Hx. destruct (step o s) as [b s2| |] eqn:E; try discriminate.
    cbn [pbind]. eapply ex_op; [exact E|]. eapply IH; [exists x; exact Hx|exact H2].
  - apply ex_call_inv in H1. destruct H1 as (r0 & s2 & Ha & Hb). cbn [pbind].
    eapply ex_call; [exact Ha|]. eapply IH; eauto.
Qed.

(** ** Rules *)

Lemma wpt_ret {A : Set} (r : result A perr) ts (Q : result A perr -> list token -> Prop) :
  Q r ts -> wpt (Ret r) ts Q.
Proof. intros H Hs s Ha. exists r, s, ts. split; [now exists 0|auto]. Qed.

Lemma wpt_conseq {A : Set} (p : prg A) ts (Q Q' : result A perr -> list token -> Prop) :
  wpt p ts Q -> (forall r ts', Q r ts' -> Q' r ts') -> wpt p ts Q'.
Proof.
  intros H HQ Hs s Ha. destruct (H Hs s Ha) as (r & s' & ts' & ? & ? & ? & ?).
  exists r, s', ts'. auto.
Qed.

Lemma wpt_bind {A B : Set} (m : prg A) (f : A -> prg B) ts (Q : result B perr -> list token -> Prop) :
  wpt m ts (fun r ts' => wpt (match r with Ok a => f a | Err e => Ret (Err e) end) ts' Q) ->
  wpt (pbind m f) ts Q.
Proof.
  intros H Hs s Ha. destruct (H Hs s Ha) as (r & s1 & ts1 & H1 & H2 & H3 & H4).
  destruct (H4 H3 s1 H2) as (r' & s' & ts' & H5 & H6 & H7 & H8).
  exists r', s', ts'. split; [|auto]. eapply ex_bind; eauto.
Qed.

Lemma wpt_op_cur {A : Set} (k : rtoken -> prg A) ts Q : wpt (k (stok ts)) ts Q -> wpt (Op OCurrent k) ts Q.
Proof.
  intros H Hs s Ha. destruct (H Hs s Ha) as (r & s' & ts' & H1 & H2 & H3 & H4).
  exists r, s', ts'. split; [|auto]. eapply ex_op; [reflexivity|]. now rewrite (at_cur D st ts s Ha).
Qed.

(** May the token after the first be looked at? *)
Definition clear (ts : list token) : Prop :=
  match ts with t :: us => opener (t_value t) = true -> ord_hd us | [] => True end.
Lemma clear_ord ts : sfx ts -> clear ts -> ord_hd (tl ts).
Proof. destruct ts as [|t ts]; [intros; exact Logic.I|]. intros Hs Hc. exact (sfx_ord _ _ Hs Hc). Qed.

Lemma wpt_op_peek {A : Set} (k : rtoken -> prg A) ts Q : clear ts -> wpt (k (stok (tl ts))) ts Q -> wpt (Op OPeek k) ts Q.
Proof.
  intros Hc H Hs s Ha. destruct (H Hs s Ha) as (r & s' & ts' & H1 & H2 & H3 & H4).
  exists r, s', ts'. split; [|auto]. eapply ex_op; [reflexivity|]. now rewrite (at_nxt D st ts s (clear_ord _ Hs Hc) Ha).
Qed.
Lemma wpt_op_peek_any {A : Set} (k : rtoken -> prg A) ts Q :
  (forall r, (clear ts -> r = stok (tl ts)) -> wpt (k r) ts Q) -> wpt (Op OPeek k) ts Q.
Proof.
  intros H Hs s Ha.
  assert (Hn : clear ts -> nxt s = stok (tl ts)). { intros Hc. apply (at_nxt D st ts s (clear_ord _ Hs Hc) Ha). }
  destruct (H (nxt s) Hn Hs s Ha) as (r & s' & ts' & H1 & H2 & H3 & H4).
  exists r, s', ts'. split; [|auto]. eapply ex_op; [reflexivity|]. exact H1.
Qed.

Lemma wpt_op_pos {A : Set} (k : nat -> prg A) ts Q : (forall n, wpt (k n) ts Q) -> wpt (Op OPosition k) ts Q.
Proof.
  intros H Hs s Ha. destruct (H (pos s) Hs s Ha) as (r & s' & ts' & H1 & H2 & H3 & H4).
  exists r, s', ts'. split; [|auto]. eapply ex_op; [reflexivity|exact H1].
Qed.

Lemma wpt_op_consume {A : Set} (k : rtoken -> prg A) t ts Q :
  clear (t :: ts) -> wpt (k (Ok t)) ts Q -> wpt (Op OConsume k) (t :: ts) Q.
Proof.
  intros Hc H Hs s Ha. pose proof (clear_ord _ Hs Hc) as Ho. destruct HS as (Hi & Hr & Hasc & _).
  destruct (at_consume D st Hi Hr Hasc t ts s Ho Ha) as (s1 & E & Ha1 & _).
  destruct (H (sfx_tl _ _ Hs) s1 Ha1) as (r & s' & ts' & H1 & H2 & H3 & H4).
  exists r, s', ts'. split; [|auto]. eapply ex_op; eauto.
Qed.

Lemma wpt_op_rewind {A : Set} (k : unit -> prg A) t b ts Q :
  ordinary t -> sfx (t :: b) -> wpt (k tt) (t :: b) Q -> wpt (Op (ORewind t) k) ts Q.
Proof.
  intros Ho Hb H Hs s Ha. pose proof HS as (Hi & Hr & Hasc & _).
  destruct (at_rewind D st Hi Hr Hasc ts s t b Ha Ho (sfx_from _ Hb)) as (s1 & E & Ha1 & _).
  destruct (H Hb s1 Ha1) as (r & s' & ts' & H1 & H2 & H3 & H4).
  exists r, s', ts'. split; [|auto]. eapply ex_op; eauto.
Qed.

Lemma wpt_op_reread {A : Set} (k : unit -> prg A) st0 t ts Q :
  inside_template st0 = false -> ordinary t -> opener (t_value t) = false ->
  wpt (k tt) (t :: ts) Q -> wpt (Op (OReread st0) k) (t :: ts) Q.
Proof.
  intros Hi0 Ho Hv H Hs s Ha. pose proof HS as (Hi & Hr & Hasc & _).
  assert (Ho1 : ord_hd ts). { apply (sfx_ord _ _ Hs). congruence. }
  assert (Hv1 : slashy (t_value t) = false). { destruct (t_value t) as [| |[]| | | |]; first [reflexivity|discriminate Hv]. }
  destruct (at_reread D st Hi Hr Hasc t ts s st0 Ha (sfx_from _ Hs) Hi0 Ho Ho1 Hv1) as (s1 & E & Ha1 & _).
  destruct (H Hs s1 Ha1) as (r & s' & ts' & H1 & H2 & H3 & H4).
  exists r, s', ts'. split; [|auto]. eapply ex_op; eauto.
Qed.

(** A regular expression, or the rest of a template. *)
Lemma wpt_op_open {A : Set} (k : unit -> prg A) st0 t u ts Q :
  ordinary t -> opens st0 (t_value u) ->
  wpt (k tt) (u :: ts) Q -> wpt (Op (OReread st0) k) (t :: u :: ts) Q.
Proof.
  intros Ho Hv H Hs s Ha. pose proof HS as (Hi & Hr & Hasc & _).
  destruct (at_open D st Hi Hr Hasc t u ts s st0 Ha (sfx_from _ Hs) Ho Hv) as (s1 & E & Ha1).
  destruct (H (sfx_tl _ _ Hs) s1 Ha1) as (r & s' & ts' & H1 & H2 & H3 & H4).
  exists r, s', ts'. split; [|auto]. eapply ex_op; eauto.
Qed.

Lemma wpt_op_call {A B : Set} (n : nt B) (k : result B perr -> prg A) ts Q :
  wpt (body B n) ts (fun r ts1 => wpt (k r) ts1 Q) -> wpt (Call n k) ts Q.
Proof.
  intros H Hs s Ha. destruct (H Hs s Ha) as (r0 & s1 & ts1 & H1 & H2 & H3 & H4).
  destruct (H4 H3 s1 H2) as (r & s' & ts' & H5 & H6 & H7 & H8).
  exists r, s', ts'. split; [|auto]. eapply ex_call; eauto.
Qed.

(** ** The combinators of the parser *)

Definition hdo (ts : list token) : option token := hd_error ts.

Lemma rok_stok ts : rok (stok ts) = hdo ts.
Proof. now destruct ts. Qed.

Section Rules.
Context {A : Set}.
Implicit Types (Q : result A perr -> list token -> Prop) (ts : list token).

Lemma wpt_pret a ts Q : Q (Ok a) ts -> wpt (pret a) ts Q.
Proof. apply wpt_ret. Qed.
Lemma wpt_perror e ts Q : Q (Err e) ts -> wpt (perror e) ts Q.
Proof. apply wpt_ret. Qed.
Lemma wpt_tail n ts Q : wpt (body A n) ts Q -> wpt (pcall n) ts Q.
Proof. intros H. apply wpt_op_call. eapply wpt_conseq; [exact H|]. intros. now apply wpt_ret. Qed.

Lemma wpt_b_pret {B : Set} (b : B) (k : B -> prg A) ts Q : wpt (k b) ts Q -> wpt (pbind (pret b) k) ts Q.
Proof. intros H. exact H. Qed.
Lemma wpt_b_perror {B : Set} e (k : B -> prg A) ts Q : Q (Err e) ts -> wpt (pbind (perror e) k) ts Q.
Proof. intros H. now apply wpt_ret. Qed.

Lemma wpt_b_assoc {B C : Set} (m : prg B) (f : B -> prg C) (k : C -> prg A) ts Q :
  wpt (pbind m (fun x => pbind (f x) k)) ts Q -> wpt (pbind (pbind m f) k) ts Q.
Proof.
  revert ts. induction m as [[b|e]| |B' o g IH|B' n g IH]; intros ts H; cbn [pbind] in *; auto.
  - intros Hs s Ha. destruct (H Hs s Ha) as (r & s' & ts' & [x Hx] & H2 & H3 & H4). exists r, s', ts'. split; [|auto].
    clear H H2 H3 H4. cbn [exec] in Hx. destruct (step o s) as [b s1| |] eqn:E; try discriminate.
    eapply ex_op; [exact E|]. exists x. revert Hx. generalize (g b). clear. intros p. revert s1.
    induction p as [[b|e]| |B' o g IH|B' n g IH]; intros s H; cbn [pbind exec] in *; auto.
    + destruct (step o s); auto.
    + destruct (run body x B' n s); auto.
  - intros Hs s Ha. destruct (H Hs s Ha) as (r & s' & ts' & Hx & H2 & H3 & H4). exists r, s', ts'. split; [|auto].
    apply ex_call_inv in Hx. destruct Hx as (r0 & s1 & Ha1 & [x Hx]). eapply ex_call; [exact Ha1|].
    exists x. revert Hx. generalize (g r0). clear. intros p. revert s1.
    induction p as [[b|e]| |B' o g IH|B' n g IH]; intros s H; cbn [pbind exec] in *; auto.
    + destruct (step o s); auto.
    + destruct (run body x B' n s); auto.
Qed.

Lemma wpt_b_call {B : Set} (n : nt B) (k : B -> prg A) ts Q :
  wpt (body B n) ts (fun r ts1 => wpt (match r with Ok a => k a | Err e => Ret (Err e) end) ts1 Q) ->
  wpt (pbind (pcall n) k) ts Q.
Proof.
  intros H. apply wpt_op_call. eapply wpt_conseq; [exact H|]. cbv beta. intros [x|e] ts1 H1; exact H1.
Qed.

Lemma wpt_b_try {B : Set} (n : nt B) (k : result B perr -> prg A) ts Q :
  wpt (body B n) ts (fun r ts1 => wpt (k r) ts1 Q) -> wpt (pbind (ptry n) k) ts Q.
Proof. intros H. apply wpt_op_call. exact H. Qed.

Lemma wpt_b_cur (k : rtoken -> prg A) ts Q : wpt (k (stok ts)) ts Q -> wpt (pbind cur_raw k) ts Q.
Proof. intros H. apply wpt_op_cur. exact H. Qed.

Lemma wpt_b_current (k : token -> prg A) t ts Q : wpt (k t) (t :: ts) Q -> wpt (pbind current k) (t :: ts) Q.
Proof. intros H. apply wpt_op_cur. exact H. Qed.

Lemma wpt_b_consume (k : token -> prg A) t ts Q : clear (t :: ts) -> wpt (k t) ts Q -> wpt (pbind consume k) (t :: ts) Q.
Proof. intros Hc H. apply wpt_op_consume; [exact Hc|exact H]. Qed.
Lemma wpt_b_consume_unwrap (k : token -> prg A) t ts Q : clear (t :: ts) -> wpt (k t) ts Q -> wpt (pbind consume_unwrap k) (t :: ts) Q.
Proof. intros Hc H. apply wpt_op_consume; [exact Hc|exact H]. Qed.

Lemma wpt_b_peek (k : option token -> prg A) ts Q : clear ts -> wpt (k (hdo (tl ts))) ts Q -> wpt (pbind peek k) ts Q.
Proof. intros Hc H. apply wpt_op_peek; [exact Hc|]. cbn [pbind pret]. rewrite rok_stok. exact H. Qed.

Lemma wpt_b_is_end (k : bool -> prg A) ts Q :
  wpt (k (match ts with [] => true | _ => false end)) ts Q -> wpt (pbind is_end k) ts Q.
Proof. intros H. apply wpt_op_cur. destruct ts; exact H. Qed.

Lemma wpt_b_position (k : nat -> prg A) ts Q : (forall n, wpt (k n) ts Q) -> wpt (pbind position k) ts Q.
Proof.
  intros H. apply wpt_op_cur. destruct ts as [|t ts]; cbn [stok].
  - apply wpt_op_pos. intros n. apply (H n).
  - apply (H (tstart t)).
Qed.

Lemma wpt_b_position_at (k : nat -> prg A) t ts Q : wpt (k (tstart t)) (t :: ts) Q -> wpt (pbind position k) (t :: ts) Q.
Proof. intros H. apply wpt_op_cur. exact H. Qed.

Lemma wpt_b_span_from start (k : span -> prg A) ts Q :
  (forall sp, sp_start sp = start -> wpt (k sp) ts Q) -> wpt (pbind (span_from start) k) ts Q.
Proof. intros H. apply wpt_op_pos. intros n. apply (H (mk_span start n)). reflexivity. Qed.

Lemma wpt_b_current_matches v (k : bool -> prg A) ts Q :
  wpt (k (value_is v (hdo ts))) ts Q -> wpt (pbind (current_matches v) k) ts Q.
Proof. intros H. apply wpt_op_cur. cbn [pbind pret]. rewrite rok_stok. exact H. Qed.

Lemma wpt_b_peek_matches v (k : bool -> prg A) ts Q :
  clear ts -> wpt (k (value_is v (hdo (tl ts)))) ts Q -> wpt (pbind (peek_matches v) k) ts Q.
Proof. intros Hc H. apply wpt_op_peek; [exact Hc|]. cbn [pbind pret]. rewrite rok_stok. exact H. Qed.

Lemma wpt_b_string (k : bool -> prg A) ts Q :
  wpt (k (is_string_literal (hdo ts))) ts Q -> wpt (pbind current_matches_string_literal k) ts Q.
Proof. intros H. apply wpt_op_cur. cbn [pbind pret]. rewrite rok_stok. exact H. Qed.

Lemma wpt_b_name_or_literal w (k : bool -> prg A) t ts Q :
  wpt (k match t_value t with
         | VIdentifier s => str_eqb w s
         | VLiteral (TLString s _) => str_eqb w s
         | _ => false
         end) (t :: ts) Q -> wpt (pbind (current_matches_identifier_or_literal w) k) (t :: ts) Q.
Proof. intros H. apply wpt_op_cur. exact H. Qed.

Lemma wpt_b_first_on_line (k : bool -> prg A) ts Q :
  wpt (k (opt_fol (hdo ts))) ts Q -> wpt (pbind first_on_line k) ts Q.
Proof. intros H. apply wpt_op_cur. cbn [pbind pret]. rewrite rok_stok. exact H. Qed.

Lemma wpt_b_new_line (k : bool -> prg A) ts Q :
  clear ts -> wpt (k (opt_fol (hdo (tl ts)))) ts Q -> wpt (pbind followed_by_new_line k) ts Q.
Proof. intros Hc H. apply wpt_op_peek; [exact Hc|]. cbn [pbind pret]. rewrite rok_stok. exact H. Qed.

Lemma wpt_b_is_identifier c (k : bool -> prg A) ts Q :
  wpt (k (is_identifier_token (hdo ts) (keyword_context c))) ts Q -> wpt (pbind (is_identifier c) k) ts Q.
Proof. intros H. apply wpt_op_cur. cbn [pbind pret]. rewrite rok_stok. exact H. Qed.

Lemma wpt_b_is_name (k : bool -> prg A) ts Q :
  wpt (k (is_name_token (hdo ts))) ts Q -> wpt (pbind is_identifier_name k) ts Q.
Proof. intros H. apply wpt_op_cur. cbn [pbind pret]. rewrite rok_stok. exact H. Qed.

Lemma wpt_b_assert v (k : token -> prg A) t ts Q :
  t_value t = v -> clear (t :: ts) -> wpt (k t) ts Q -> wpt (pbind (consume_assert v) k) (t :: ts) Q.
Proof.
  intros E Hc H. apply wpt_b_assoc. apply wpt_b_consume; [exact Hc|]. destruct (tvalue_eq_dec (t_value t) v); [exact H|contradiction].
Qed.

Lemma value_is_true v t : t_value t = v -> value_is v (Some t) = true.
Proof. intros E. cbn. now destruct (tvalue_eq_dec (t_value t) v). Qed.
Lemma value_is_false v t : t_value t <> v -> value_is v (Some t) = false.
Proof. intros E. cbn. now destruct (tvalue_eq_dec (t_value t) v). Qed.

Lemma wpt_b_maybe_yes v (k : bool -> prg A) t ts Q :
  t_value t = v -> clear (t :: ts) -> wpt (k true) ts Q -> wpt (pbind (maybe_consume v) k) (t :: ts) Q.
Proof.
  intros E Hc H. unfold maybe_consume. apply wpt_b_assoc. apply wpt_b_current_matches. cbn [hdo hd_error].
  rewrite (value_is_true _ _ E). apply wpt_b_assoc. apply wpt_b_consume; [exact Hc|]. exact H.
Qed.

Lemma wpt_b_maybe_no v (k : bool -> prg A) ts Q :
  value_is v (hdo ts) = false -> wpt (k false) ts Q -> wpt (pbind (maybe_consume v) k) ts Q.
Proof.
  intros E H. unfold maybe_consume. apply wpt_b_assoc. apply wpt_b_current_matches. rewrite E. exact H.
Qed.

Lemma wpt_b_rewind t b (k : unit -> prg A) ts Q :
  ordinary t -> sfx (t :: b) -> wpt (k tt) (t :: b) Q -> wpt (pbind (pop (ORewind t)) k) ts Q.
Proof. intros H0 H1 H. eapply wpt_op_rewind; [exact H0|exact H1|]. exact H. Qed.

Lemma wpt_b_reread st0 (k : unit -> prg A) t ts Q :
  inside_template st0 = false -> ordinary t -> opener (t_value t) = false ->
  wpt (k tt) (t :: ts) Q -> wpt (pbind (pop (OReread st0)) k) (t :: ts) Q.
Proof. intros H1 H2 H3 H. apply wpt_op_reread; auto. Qed.

Lemma wpt_b_open st0 (k : unit -> prg A) t u ts Q :
  ordinary t -> opens st0 (t_value u) ->
  wpt (k tt) (u :: ts) Q -> wpt (pbind (pop (OReread st0)) k) (t :: u :: ts) Q.
Proof. intros H2 H3 H. apply wpt_op_open; auto. Qed.

(** The next token, if it may be looked at. *)
Lemma wpt_b_peek_any (k : option token -> prg A) ts Q :
  (forall r, (clear ts -> r = hdo (tl ts)) -> wpt (k r) ts Q) -> wpt (pbind peek k) ts Q.
Proof. intros H. apply wpt_op_peek_any. intros r Hr. cbn [pbind pret]. apply H. intros Hc. now rewrite (Hr Hc), rok_stok. Qed.
Lemma wpt_b_peek_matches_any v (k : bool -> prg A) ts Q :
  (forall r, (clear ts -> r = value_is v (hdo (tl ts))) -> wpt (k r) ts Q) -> wpt (pbind (peek_matches v) k) ts Q.
Proof. intros H. apply wpt_op_peek_any. intros r Hr. cbn [pbind pret]. apply H. intros Hc. now rewrite (Hr Hc), rok_stok. Qed.
Lemma wpt_b_new_line_any (k : bool -> prg A) ts Q :
  (forall r, (clear ts -> r = opt_fol (hdo (tl ts))) -> wpt (k r) ts Q) -> wpt (pbind followed_by_new_line k) ts Q.
Proof. intros H. apply wpt_op_peek_any. intros r Hr. cbn [pbind pret]. apply H. intros Hc. now rewrite (Hr Hc), rok_stok. Qed.

Lemma wpt_b_ofres {B : Set} (b : B) (k : B -> prg A) r ts Q :
  r = Ok b -> wpt (k b) ts Q -> wpt (pbind (ofres r) k) ts Q.
Proof. intros ->. auto. Qed.

Lemma wpt_b_then_no {B : Set} (m : prg B) (k : option B -> prg A) ts Q :
  wpt (k None) ts Q -> wpt (pbind (then_try false m) k) ts Q.
Proof. auto. Qed.
Lemma wpt_b_then_yes {B : Set} (m : prg B) (k : option B -> prg A) ts Q :
  wpt (pbind m (fun a => k (Some a))) ts Q -> wpt (pbind (then_try true m) k) ts Q.
Proof. intros H. apply wpt_b_assoc. exact H. Qed.

(** Ends of lists and statements. *)
Lemma wpt_b_delim_comma close (k : unit -> prg A) t ts Q :
  t_value t = VPunct PComma -> wpt (k tt) ts Q -> wpt (pbind (consume_list_delimiter close) k) (t :: ts) Q.
Proof.
  intros E H. unfold consume_list_delimiter. apply wpt_b_assoc. apply wpt_b_maybe_yes; [exact E|intros X; rewrite E in X; discriminate X|]. exact H.
Qed.
Lemma wpt_b_delim_close close (k : unit -> prg A) t ts Q :
  t_value t = close -> close <> VPunct PComma -> wpt (k tt) (t :: ts) Q ->
  wpt (pbind (consume_list_delimiter close) k) (t :: ts) Q.
Proof.
  intros E E2 H. unfold consume_list_delimiter. apply wpt_b_assoc. apply wpt_b_maybe_no.
  - cbn [hdo hd_error]. apply value_is_false. congruence.
  - apply wpt_b_assoc. apply wpt_b_current_matches. cbn [hdo hd_error]. rewrite (value_is_true _ _ E). exact H.
Qed.

Definition can_end (ts : list token) : bool :=
  match ts with [] => true | t :: _ => (value_is (VPunct PBracketClose) (Some t) || t_fol t)%bool end.

Lemma wpt_b_can_insert (k : bool -> prg A) ts Q :
  wpt (k (can_end ts)) ts Q -> wpt (pbind can_insert_semicolon k) ts Q.
Proof. intros H. apply wpt_op_cur. destruct ts; exact H. Qed.

Lemma wpt_b_stmt_ended (k : bool -> prg A) ts Q :
  wpt (k (value_is (VPunct PSemiColon) (hdo ts) || can_end ts)%bool) ts Q -> wpt (pbind stmt_ended k) ts Q.
Proof.
  intros H. unfold stmt_ended. apply wpt_b_assoc. apply wpt_b_cur. destruct ts as [|t ts]; cbn [stok hdo hd_error] in *.
  - exact H.
  - destruct (value_is (VPunct PSemiColon) (Some t)); [exact H|]. apply wpt_b_can_insert. exact H.
Qed.

Lemma wpt_b_optional_semicolon_yes (k : unit -> prg A) t ts Q :
  t_value t = VPunct PSemiColon -> wpt (k tt) ts Q -> wpt (pbind consume_optional_semicolon k) (t :: ts) Q.
Proof.
  intros E H. unfold consume_optional_semicolon. apply wpt_b_assoc. apply wpt_b_maybe_yes; [exact E|intros X; rewrite E in X; discriminate X|]. exact H.
Qed.
Lemma wpt_b_optional_semicolon_no (k : unit -> prg A) ts Q :
  value_is (VPunct PSemiColon) (hdo ts) = false -> can_end ts = true ->
  wpt (k tt) ts Q -> wpt (pbind consume_optional_semicolon k) ts Q.
Proof.
  intros E E2 H. unfold consume_optional_semicolon. apply wpt_b_assoc. apply wpt_b_maybe_no; [exact E|].
  apply wpt_b_assoc. apply wpt_b_can_insert. rewrite E2. exact H.
Qed.

End Rules.

(** A call that succeeds, leaving [rest], with a value of which [P] holds. *)
Definition okq {A : Set} (P : A -> Prop) (rest : list token) : result A perr -> list token -> Prop :=
  fun r ts => ts = rest /\ exists a, r = Ok a /\ P a.

Lemma wpt_b_ok {A B : Set} (n : nt B) (P : B -> Prop) rest (k : B -> prg A) ts Q :
  wpt (body B n) ts (okq P rest) -> (forall x, P x -> wpt (k x) rest Q) -> wpt (pbind (pcall n) k) ts Q.
Proof.
  intros H Hk. apply wpt_b_call. eapply wpt_conseq; [exact H|]. intros r ts1 (-> & a & -> & Ha). now apply Hk.
Qed.

Lemma wpt_b_ok_try {A B : Set} (n : nt B) (P : B -> Prop) rest (k : result B perr -> prg A) ts Q :
  wpt (body B n) ts (okq P rest) -> (forall x, P x -> wpt (k (Ok x)) rest Q) -> wpt (pbind (ptry n) k) ts Q.
Proof.
  intros H Hk. apply wpt_b_try. eapply wpt_conseq; [exact H|]. intros r ts1 (-> & a & -> & Ha). now apply Hk.
Qed.

End Forward.
