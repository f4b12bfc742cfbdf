(** * Hoare: rules for parser programs. *)

From Verif Require Import Base Tokens PeekReader CharReader Lexer LexSpec LexerFacts LexProps Ast Prog
  TokChain ParseState Parser Grammar Contract.
Local Open Scope string_scope.
Local Open Scope list_scope.

Section Hoare.
Context {PF : Platform}.
Variable D : str.
Variable m : bool.

Notation Back := (Back D).
Notation Reach := (Reach D).
Notation ErrPost := (ErrPost D m).
Notation PanicOK := (PanicOK D m).
Notation wp := (wp D m).
Notation Pre := (Pre D m).
Notation Post := (Post D m).
Notation OkPost := (OkPost D).
Notation clean := (clean D).
Notation span_ok := (span_ok D).

(** ** Reaching *)

Lemma Back_refl s : clean s -> Back s [] s.
Proof.
  intros H. repeat split; auto. now rewrite app_nil_r. intros t Ht. exists t. split; auto. apply hd_rel_refl.
Qed.

Lemma Reach_refl s : clean s -> Reach s [] s.
Proof. intros H. split; [now apply Back_refl|]. split; congruence. Qed.

Lemma Back_trans s0 a s1 b s2 : Back s0 a s1 -> Back s1 b s2 -> Back s0 (a ++ b) s2.
Proof.
  intros (C0 & C1 & L1 & H1) (_ & C2 & L2 & H2). repeat split; auto.
  - rewrite L2, L1, app_assoc. reflexivity.
  - destruct a as [|t a]; simpl in *; auto. destruct b as [|u b].
    + intros t Ht. destruct (H2 t Ht) as (t1 & E1 & R1). destruct (H1 t1 E1) as (t0 & E0 & R0).
      exists t0. split; auto. eapply hd_rel_trans; eauto.
    + destruct H2 as (t1 & E1 & R1). destruct (H1 t1 E1) as (t0 & E0 & R0).
      exists t0. split; auto. eapply hd_rel_trans; eauto.
Qed.

Lemma Reach_Back s0 a s : Reach s0 a s -> Back s0 a s.
Proof. intros [H _]. exact H. Qed.

Lemma Back_Reach s0 a s1 b s2 : Back s0 a s1 -> Reach s1 b s2 -> b <> [] -> Reach s0 (a ++ b) s2.
Proof.
  intros H1 (H2 & _ & H4) Hb. split; [eapply Back_trans; eauto|]. split.
  - intros E. apply app_eq_nil in E. tauto.
  - intros _. rewrite tfin_app by auto. auto.
Qed.

Lemma Reach_trans s0 a s1 b s2 : Reach s0 a s1 -> Reach s1 b s2 -> Reach s0 (a ++ b) s2.
Proof.
  intros H1 H2. destruct b as [|t b].
  - destruct H2 as (_ & E & _). rewrite (E eq_refl), app_nil_r. exact H1.
  - eapply Back_Reach; eauto; [now apply Reach_Back|discriminate].
Qed.

Lemma Back_clean s0 a s : Back s0 a s -> clean s.
Proof. intros (_ & H & _). exact H. Qed.
Lemma Back_clean0 s0 a s : Back s0 a s -> clean s0.
Proof. intros (H & _). exact H. Qed.
Lemma Reach_clean s0 a s : Reach s0 a s -> clean s.
Proof. intros [H _]. eapply Back_clean; eauto. Qed.

Lemma Back_log s0 a s : Back s0 a s -> is_log D (log s0 ++ a).
Proof. intros (_ & H & E & _). rewrite <- E. now apply clean_log. Qed.

Lemma Back_hd s0 t a s : Back s0 (t :: a) s -> exists t0, cur s0 = Ok t0 /\ hd_rel t0 t.
Proof. intros (_ & _ & _ & H). exact H. Qed.

Lemma Back_posof s0 a s : Back s0 a s -> a <> [] -> posof s0 = tsta a.
Proof.
  intros H Ha. destruct a as [|t a]; [congruence|]. apply Back_hd in H. destruct H as (t0 & E & R & _).
  unfold posof. rewrite E. exact R.
Qed.

Lemma Reach_posof s0 a s : Reach s0 a s -> a <> [] -> posof s0 = tsta a.
Proof. intros [H _]. now apply Back_posof with (s := s). Qed.

Lemma Reach_pos s0 a s : Reach s0 a s -> a <> [] -> pos s = tfin a.
Proof. intros (_ & _ & H). exact H. Qed.

Lemma Reach_span s0 a s : Reach s0 a s -> a <> [] -> mk_span (posof s0) (pos s) = span_of a.
Proof.
  intros H Ha. rewrite (Reach_posof _ _ _ H Ha), (Reach_pos _ _ _ H Ha). reflexivity.
Qed.

Lemma Reach_Left s0 a s : Reach s0 a s -> a <> [] -> Left s (posof s0) a.
Proof.
  intros H Ha. split; [auto|]. split; [now apply Reach_posof with (s := s)|]. split.
  - now apply Reach_pos with (s0 := s0).
  - exists (log s0). apply H.
Qed.

Lemma Left_step s start te ts s' : Left s start te -> Reach s ts s' -> Left s' start (te ++ ts).
Proof.
  intros (H1 & H2 & H3 & l & H4) H. destruct ts as [|t ts].
  - destruct H as (_ & E & _). rewrite (E eq_refl), app_nil_r. repeat split; eauto.
  - split; [destruct te; discriminate|]. split; [rewrite tsta_app by auto; auto|]. split.
    + rewrite tfin_app by discriminate. eapply Reach_pos; eauto. discriminate.
    + exists l. destruct H as ((_ & _ & E & _) & _). rewrite E, H4, app_assoc. reflexivity.
Qed.

Lemma Left_span s start te : Left s start te -> mk_span start (pos s) = span_of te.
Proof. intros (H1 & -> & -> & _). reflexivity. Qed.

Lemma Left_span_step s start te ts s' :
  Left s start te -> Reach s ts s' -> mk_span start (pos s') = span_of (te ++ ts).
Proof. intros H H'. apply Left_span. eapply Left_step; eauto. Qed.

Lemma Reach_cur_stable s0 t a s t0 :
  Reach s0 (t :: a) s -> cur s0 = Ok t0 -> ~ unstable (t_value t0) -> t = t0.
Proof.
  intros [H _] E Hs. apply Back_hd in H. destruct H as (t1 & E1 & R). rewrite E in E1. injection E1 as <-.
  now apply hd_rel_stable in R.
Qed.

(** ** Bounds *)

Lemma seg_tok s0 a s t : Back s0 a s -> In t a -> tstart t < tend t /\ tend t <= blen D.
Proof.
  intros H Ht. apply Back_log in H. eapply is_log_bounds; eauto. apply in_or_app; auto.
Qed.

Lemma cur_tok s t : clean s -> cur s = Ok t -> tstart t < tend t /\ tend t <= blen D.
Proof.
  intros H E. eapply is_log_bounds; [eapply clean_cur_log; eauto|]. apply in_or_app; simpl; auto.
Qed.

Lemma span_ok_tok t : tstart t < tend t /\ tend t <= blen D -> span_ok (t_span t).
Proof. unfold Contract.span_ok, tstart, tend. lia. Qed.

Lemma Back_bounds s0 a s : Back s0 a s -> a <> [] ->
  tsta a < tfin a /\ tfin a <= blen D.
Proof.
  intros H Ha. apply Back_log in H. rewrite <- (app_nil_r a) in H. apply is_log_sub in H; auto. tauto.
Qed.

Lemma span_ok_of s0 a s : Back s0 a s -> a <> [] -> span_ok (span_of a).
Proof. intros H Ha. destruct (Back_bounds _ _ _ H Ha). unfold Contract.span_ok, span_of. cbn. lia. Qed.

Lemma Back_mid s0 a s b s' : Back s0 a s -> Back s b s' -> a <> [] -> b <> [] ->
  tfin a <= tsta b.
Proof.
  intros H H' Ha Hb. pose proof (Back_trans _ _ _ _ _ H H') as H2. apply Back_log in H2.
  rewrite app_assoc in H2. rewrite <- (app_nil_r b) in H2. apply is_log_sub in H2; auto.
  rewrite tfin_app in H2 by auto. tauto.
Qed.

Lemma Back_starts s0 a s t : Back s0 a s -> In t a ->
  exists t0, cur s0 = Ok t0 /\ tstart t0 <= tstart t.
Proof.
  intros H Ht. destruct a as [|u a]; [destruct Ht|].
  pose proof (Back_hd _ _ _ _ H) as (t0 & E & R & _). exists t0. split; auto. rewrite R.
  destruct Ht as [<-|Ht]; auto. pose proof (Back_log _ _ _ H) as HL.
  change (u :: a) with ([u] ++ a) in HL. rewrite app_assoc in HL.
  pose proof (is_log_order D _ _ u t HL ltac:(apply in_or_app; simpl; auto) Ht) as HO.
  destruct (seg_tok _ _ _ u H ltac:(simpl; auto)). lia.
Qed.

Lemma Back_cur_lt s0 a s t0 t : Back s0 a s -> a <> [] -> cur s0 = Ok t0 -> cur s = Ok t ->
  tstart t0 < tstart t.
Proof.
  intros H Ha E0 E. pose proof (Back_posof _ _ _ H Ha) as HP. unfold posof in HP. rewrite E0 in HP.
  pose proof (clean_cur_log D _ _ (Back_clean _ _ _ H) E) as HL.
  destruct H as (_ & _ & EL & _). rewrite EL in HL. rewrite <- app_assoc in HL.
  pose proof HL as HL2. apply is_log_sub in HL; auto.
  rewrite app_assoc in HL2. destruct a as [|u a]; [congruence|]. simpl in HP. rewrite HP.
  pose proof (is_log_order D _ _ u t HL2 ltac:(apply in_or_app; simpl; auto) ltac:(simpl; auto)).
  assert (tstart u < tend u).
  { pose proof (is_log_bounds D _ u HL2 ltac:(rewrite !in_app_iff; simpl; auto)). lia. }
  lia.
Qed.

Lemma rem_Back s0 a s : Back s0 a s -> rem D s <= rem D s0 /\ (a <> [] -> rem D s < rem D s0).
Proof.
  intros H. pose proof (Back_log _ _ _ H) as HL. destruct H as (_ & _ & E & _).
  unfold rem. rewrite E. now apply rem_app.
Qed.

(** ** Errors *)

Definition not_arrow (e : perr) : Prop := says D m e False.

Lemma not_arrow_says e : not_arrow e -> says D m e (arrow_at D e).
Proof. unfold not_arrow, says. destruct (pe_kind e); auto. intros []. Qed.

Lemma err_at ac s0 toks s s' e :
  Back s0 toks s -> wf D s' -> log s' = log s -> (expected_statement D m e \/ span_ok (pe_span e)) -> not_arrow e ->
  ErrPost ac s0 s' e.
Proof.
  intros H Hw El Hs Hn. split; [auto|]. exists toks. split; [rewrite El; apply H|]. split; [|split; [split; auto|]].
  - intros t Ht. eapply Back_starts; eauto.
  - now apply not_arrow_says.
  - unfold arrow_clause, not_arrow, says in *. destruct (pe_kind e); auto. destruct Hn.
Qed.

Lemma err_here ac s0 toks s e :
  Back s0 toks s -> (expected_statement D m e \/ span_ok (pe_span e)) -> not_arrow e -> ErrPost ac s0 s e.
Proof. intros H Hs Hn. eapply err_at; eauto. apply clean_wf. eapply Back_clean; eauto. Qed.

Lemma paren_stable t : isp PParenOpen t -> ~ unstable (t_value t).
Proof. unfold isp. intros ->. simpl. auto. Qed.

Lemma err_lift ac ac' s0 toks s s' e :
  Back s0 toks s -> ErrPost ac' s s' e -> (toks = [] -> ac' = None \/ ac' = ac) ->
  ErrPost ac s0 s' e.
Proof.
  intros H (Hw & ts & El & Ht & Hs & Ha) Hac. split; [auto|]. exists (toks ++ ts).
  split; [destruct H as (_ & _ & E & _); rewrite El, E, app_assoc; reflexivity|].
  split; [|split; auto].
  - intros t Hin. apply in_app_or in Hin. destruct Hin as [Hin|Hin]; [eapply Back_starts; eauto|].
    destruct (Ht t Hin) as (t1 & E1 & L1). destruct toks as [|u toks].
    + destruct H as (_ & _ & _ & H). destruct (H t1 E1) as (t0 & E0 & R & _). exists t0. split; auto. lia.
    + pose proof (Back_hd _ _ _ _ H) as (t0 & E0 & R & _). exists t0. split; auto.
      pose proof (Back_cur_lt _ _ _ t0 t1 H ltac:(discriminate) E0 E1). lia.
  - unfold arrow_clause in *. destruct (pe_kind e) eqn:Ek; auto.
    destruct Ha as (Hsp & t1 & E1 & Hd). split; auto. destruct toks as [|u toks].
    + pose proof H as (_ & _ & _ & Hc). destruct (Hc t1 E1) as (t0 & E0 & R). exists t0. split; auto.
      destruct Hd as [Hd|(Hd & Hp & c & Ec & Hr & Hne & Hder)].
      * left. destruct R. lia.
      * right. split; [destruct R; lia|]. split.
        -- apply hd_rel_sym in R. apply hd_rel_stable in R; [|now apply paren_stable]. subst. exact Hp.
        -- destruct (Hac eq_refl) as [-> | ->]; [discriminate|]. exists c. split; auto. split; [|auto].
           change ts with ([] ++ ts). eapply Back_Reach; eauto.
    + pose proof (Back_hd _ _ _ _ H) as (t0 & E0 & R & _). exists t0. split; auto. left.
      pose proof (Back_cur_lt _ _ _ t0 t1 H ltac:(discriminate) E0 E1). destruct Hd as [Hd|(Hd & _)]; lia.
Qed.

Lemma lexer_error_ok s e : clean s -> cur s = Err e ->
  span_ok (pe_span (lexer_error e)) /\ not_arrow (lexer_error e).
Proof.
  intros HC Hc. destruct (clean_cur_err D s e HC Hc) as [->|(H1 & H2 & H3)].
  - cbn. unfold Contract.span_ok. cbn. split; [lia|]. unfold not_arrow, says. cbn.
    destruct (clean_eos D s HC Hc) as (pre & f & Hch & He). eauto.
  - assert (Hne : e <> end_of_stream) by (intros ->; exact H3).
    destruct (clean_stuck D s e HC Hc Hne) as (pre & f & Hch & Hst).
    unfold lexer_error. destruct (le_kind e) eqn:Ek; cbn in H3; try contradiction; cbn; unfold Contract.span_ok, not_arrow, says; cbn;
      (split; [lia|]); try solve [split; [reflexivity|]; exists (log s), pre, f; auto].
    apply lexer_says; [exact H3|]. exists (log s), pre, f. auto.
Qed.

Lemma found_log l t : is_log D (l ++ [t]) -> found D (t_value t) (t_span t).
Proof. intros H. exists l, t. auto. Qed.

Lemma found_in s0 toks s t : Back s0 toks s -> In t toks -> found D (t_value t) (t_span t).
Proof.
  intros H Hi. apply Back_log in H. apply in_split in Hi. destruct Hi as (a & b & ->).
  apply (found_log (log s0 ++ a)). change (a ++ t :: b) with (a ++ [t] ++ b) in H.
  rewrite !app_assoc in H. apply is_log_app in H. exact H.
Qed.

Lemma found_cur s t : clean s -> cur s = Ok t -> found D (t_value t) (t_span t).
Proof. intros H E. eapply found_log. eapply clean_cur_log; eauto. Qed.

(** ** Weakest preconditions *)

Lemma wp_mono {A : Set} b (p : prg A) s (Q Q' : result A perr -> pst -> Prop) :
  (forall r s', Q r s' -> Q' r s') -> wp b p s Q -> wp b p s Q'.
Proof.
  intros H. revert s. induction p as [r| |B o k IH|B n k IH]; intros s; cbn [Contract.wp]; auto.
  - destruct (step o s); auto.
  - intros (H1 & H2 & H3). auto.
Qed.

Lemma wp_bind {A B : Set} b (p : prg A) (f : A -> prg B) s Q :
  wp b p s (fun r s' => match r with Ok a => wp b (f a) s' Q | Err e => Q (Err e) s' end) ->
  wp b (pbind p f) s Q.
Proof.
  revert s. induction p as [r| |B0 o k IH|B0 n k IH]; intros s; cbn [Contract.wp pbind]; auto.
  - destruct r; auto.
  - destruct (step o s); auto.
  - intros (H1 & H2 & H3). auto.
Qed.

Definition W (r : nat) (ac : option ctx) (s0 : pst) {A : Set} (p : prg A) (s : pst)
    (Q : A -> pst -> Prop) : Prop :=
  wp (KR * rem D s0 + r) p s
    (fun res s' => match res with Ok a => Q a s' | Err e => ErrPost ac s0 s' e end).

Lemma method_W {B : Set} (n : nt B) :
  (forall s, EX n s) ->
  (forall s, Pre n s -> W (rank n) (actx n) s (body B n) s (OkPost n s)) -> method_ok D m n.
Proof.
  intros HX H s HP. eapply wp_mono; [|apply (H s HP)]. intros [a|e] s'; simpl; auto.
Qed.

Section Rules.
Variable r : nat.
Variable ac : option ctx.
Variable s0 : pst.
Notation W := (W r ac s0).

Lemma W_bind {A B : Set} (p : prg A) (f : A -> prg B) s Q :
  W p s (fun a s' => W (f a) s' Q) -> W (pbind p f) s Q.
Proof.
  intros H. apply wp_bind. eapply wp_mono; [|exact H]. intros [a|e] s'; auto.
Qed.

Lemma W_mono {A : Set} (p : prg A) s (Q Q' : A -> pst -> Prop) :
  (forall a s', Q a s' -> Q' a s') -> W p s Q -> W p s Q'.
Proof. intros H. apply wp_mono. intros [a|e] s'; auto. Qed.

Lemma W_ret {A : Set} (a : A) s (Q : A -> pst -> Prop) : Q a s -> W (pret a) s Q.
Proof. auto. Qed.

Lemma W_err {A : Set} (e : perr) s (Q : A -> pst -> Prop) : ErrPost ac s0 s e -> W (perror e) s Q.
Proof. auto. Qed.

Lemma W_panic {A : Set} s (Q : A -> pst -> Prop) : PanicOK -> W Panic s Q.
Proof. auto. Qed.

Lemma W_ofres {A : Set} (x : result A perr) s (Q : A -> pst -> Prop) :
  (forall a, x = Ok a -> Q a s) -> (forall e, x = Err e -> ErrPost ac s0 s e) -> W (ofres x) s Q.
Proof. intros H1 H2. destruct x; [apply W_ret|apply W_err]; auto. Qed.

Lemma W_cur_raw s (Q : rtoken -> pst -> Prop) : Q (cur s) s -> W cur_raw s Q.
Proof. auto. Qed.

Lemma W_current toks s (Q : token -> pst -> Prop) :
  Back s0 toks s -> (forall t, cur s = Ok t -> Q t s) -> W current s Q.
Proof.
  intros HB H. unfold current. apply W_bind. apply W_cur_raw. destruct (cur s) as [t|e] eqn:E.
  - apply W_ret. auto.
  - apply W_err. pose proof (lexer_error_ok s e (Back_clean _ _ _ HB) E) as Hr. eapply err_here; eauto; tauto.
Qed.

Lemma W_consumeB toks s (Q : token -> pst -> Prop) :
  Back s0 toks s ->
  (forall t s', cur s = Ok t -> Reach s0 (toks ++ [t]) s' -> cur s' = nxt s -> Q t s') ->
  W consume s Q.
Proof.
  intros HB H. unfold consume. apply W_bind. unfold pop. unfold Hoare.W. cbn [Contract.wp].
  pose proof (Back_clean _ _ _ HB) as HC.
  destruct (cur s) as [t|e] eqn:E.
  - destruct (step_consume_ok D s t HC E) as (s' & -> & HC' & El & Ep & En).
    cbn [Contract.wp pret]. apply H; auto. eapply Back_Reach; eauto; [|discriminate].
    repeat split; auto.
    + exists t. split; auto. apply hd_rel_refl.
    + discriminate.
  - destruct (step_consume_err D s e HC E) as (s' & -> & HW & El).
    cbn [Contract.wp pret]. pose proof (lexer_error_ok s e HC E) as Hr. unfold perror. cbn [Contract.wp]. eapply err_at; eauto; tauto.
Qed.

Lemma W_consume toks s (Q : token -> pst -> Prop) :
  Reach s0 toks s ->
  (forall t s', cur s = Ok t -> Reach s0 (toks ++ [t]) s' -> cur s' = nxt s -> Q t s') ->
  W consume s Q.
Proof. intros [H _]. now apply W_consumeB. Qed.

(** The same, keeping that the state was reached from [s]. *)
Lemma W_consume_from toks s (Q : token -> pst -> Prop) :
  Reach s0 toks s ->
  (forall t s', cur s = Ok t -> Reach s [t] s' -> Reach s0 (toks ++ [t]) s' -> cur s' = nxt s -> Q t s') ->
  W consume s Q.
Proof.
  intros HB H. unfold consume. apply W_bind. unfold pop. unfold Hoare.W. cbn [Contract.wp].
  pose proof (Reach_clean _ _ _ HB) as HC.
  destruct (cur s) as [t|e] eqn:E.
  - destruct (step_consume_ok D s t HC E) as (s' & -> & HC' & El & Ep & En).
    cbn [Contract.wp pret].
    assert (HR : Reach s [t] s').
    { repeat split; auto. exists t. split; auto. apply hd_rel_refl. discriminate. }
    apply H; auto. eapply Reach_trans; eauto.
  - destruct (step_consume_err D s e HC E) as (s' & -> & HW & El).
    cbn [Contract.wp pret]. pose proof (lexer_error_ok s e HC E) as Hr. unfold perror. cbn [Contract.wp].
    eapply err_at; eauto; try tauto. apply Reach_Back. eauto.
Qed.

Lemma W_consume_unwrap toks s t (Q : token -> pst -> Prop) :
  Back s0 toks s -> cur s = Ok t ->
  (forall s', Reach s0 (toks ++ [t]) s' -> cur s' = nxt s -> Q t s') ->
  W consume_unwrap s Q.
Proof.
  intros HB E H. unfold consume_unwrap. apply W_bind. unfold pop, Hoare.W. cbn [Contract.wp].
  pose proof (Back_clean _ _ _ HB) as HC.
  destruct (step_consume_ok D s t HC E) as (s' & -> & HC' & El & Ep & En).
  cbn [Contract.wp pret]. apply H; auto. eapply Back_Reach; eauto; [|discriminate].
  repeat split; auto.
  - exists t. split; auto. apply hd_rel_refl.
  - discriminate.
Qed.

Lemma W_peek s (Q : option token -> pst -> Prop) : Q (rok (nxt s)) s -> W peek s Q.
Proof. auto. Qed.

Lemma W_peek_matches v s (Q : bool -> pst -> Prop) : Q (value_is v (rok (nxt s))) s -> W (peek_matches v) s Q.
Proof. auto. Qed.

Lemma W_followed s (Q : bool -> pst -> Prop) : Q (opt_fol (rok (nxt s))) s -> W followed_by_new_line s Q.
Proof. auto. Qed.

Lemma W_first_on_line s (Q : bool -> pst -> Prop) : Q (opt_fol (rok (cur s))) s -> W first_on_line s Q.
Proof. auto. Qed.

Lemma W_is_identifier c s (Q : bool -> pst -> Prop) :
  Q (is_identifier_token (rok (cur s)) (keyword_context c)) s -> W (is_identifier c) s Q.
Proof. auto. Qed.

Lemma W_is_identifier_name s (Q : bool -> pst -> Prop) :
  Q (is_name_token (rok (cur s))) s -> W is_identifier_name s Q.
Proof. auto. Qed.

Lemma W_string_literal s (Q : bool -> pst -> Prop) :
  Q (is_string_literal (rok (cur s))) s -> W current_matches_string_literal s Q.
Proof. auto. Qed.

Lemma W_is_end s (Q : bool -> pst -> Prop) :
  clean s ->
  (cur s = Err end_of_stream -> Q true s) -> (not_eos (cur s) -> Q false s) -> W is_end s Q.
Proof.
  intros HC H1 H2. unfold is_end. apply W_bind. apply W_cur_raw. apply W_ret.
  destruct (cur s) as [t|e] eqn:E.
  - apply H2. discriminate.
  - pose proof (clean_cur_err D s e HC E) as [->|Hr].
    + apply H1. reflexivity.
    + destruct (is_eos e) eqn:Ee.
      * exfalso. destruct Hr as (_ & _ & Hk). unfold is_eos in Ee. destruct (le_kind e); solve [congruence|exact Hk].
      * apply H2. intros Hx. injection Hx as ->. destruct (eok_not_end D _ Hr eq_refl).
Qed.

Lemma W_position s (Q : nat -> pst -> Prop) : Q (posof s) s -> W position s Q.
Proof.
  intros H. unfold position. apply W_bind. apply W_cur_raw. unfold posof in H.
  destruct (cur s); auto.
Qed.

Lemma W_span_from start s (Q : span -> pst -> Prop) : Q (mk_span start (pos s)) s -> W (span_from start) s Q.
Proof. auto. Qed.

Lemma value_is_curv v s : value_is v (rok (cur s)) = true <-> curv s v.
Proof.
  unfold curv. destruct (cur s) as [t|e]; simpl.
  - destruct (tvalue_eq_dec (t_value t) v); split; intros H; eauto; try discriminate.
    destruct H as (t' & E & Hv). injection E as <-. congruence.
  - split; [discriminate|]. intros (t' & E & _). discriminate.
Qed.

Lemma value_is_true v o : value_is v o = true -> exists t, o = Some t /\ t_value t = v.
Proof.
  destruct o as [t|]; simpl; [|discriminate]. destruct (tvalue_eq_dec (t_value t) v); eauto. discriminate.
Qed.

Lemma rok_some x t : rok x = Some t -> x = Ok t.
Proof. destruct x; simpl; congruence. Qed.

Lemma W_curm v s (Q : bool -> pst -> Prop) :
  (curv s v -> Q true s) -> (~ curv s v -> Q false s) -> W (current_matches v) s Q.
Proof.
  intros H1 H2. unfold current_matches. apply W_bind. apply W_cur_raw. apply W_ret.
  destruct (value_is v (rok (cur s))) eqn:E.
  - apply H1. now apply value_is_curv.
  - apply H2. intros Hc. apply value_is_curv in Hc. congruence.
Qed.

Lemma W_cassert v toks s (Q : token -> pst -> Prop) :
  Back s0 toks s ->
  (forall t s', cur s = Ok t -> t_value t = v -> Reach s0 (toks ++ [t]) s' -> cur s' = nxt s -> Q t s') ->
  W (consume_assert v) s Q.
Proof.
  intros HR H. unfold consume_assert. apply W_bind. eapply W_consumeB; eauto. intros t s' E HR' En.
  destruct (tvalue_eq_dec (t_value t) v) as [Hv|Hv]; [apply W_ret; auto|]. apply W_err.
  apply Reach_Back in HR'. assert (Hi : In t (toks ++ [t])) by (apply in_or_app; simpl; auto).
  eapply err_here; [exact HR'| |].
  - right. cbn. apply span_ok_tok. eapply seg_tok; [exact HR'|exact Hi].
  - unfold not_arrow, says. cbn. split; [eapply found_in; eauto|]. intros y [= <-]. exact Hv.
Qed.

Lemma W_maybe v toks s (Q : bool -> pst -> Prop) :
  Reach s0 toks s ->
  (forall t s', cur s = Ok t -> t_value t = v -> Reach s0 (toks ++ [t]) s' -> cur s' = nxt s -> Q true s') ->
  (~ curv s v -> Q false s) ->
  W (maybe_consume v) s Q.
Proof.
  intros HR H1 H2. unfold maybe_consume. apply W_bind. apply W_curm.
  - intros (t0 & E0 & Hv). apply W_bind. eapply W_consume; eauto. intros t s' E HR' En.
    rewrite E0 in E. injection E as <-. apply W_ret. eauto.
  - intros Hn. apply W_ret. auto.
Qed.

Lemma err_consume toks s {A : Set} (Q : A -> pst -> Prop) (f : token -> perr) :
  Reach s0 toks s -> (forall t, found D (t_value t) (t_span t) -> cur s = Ok t -> pe_span (f t) = t_span t /\ not_arrow (f t)) ->
  W (pbind consume (fun t => perror (f t))) s Q.
Proof.
  intros HR Hf. apply W_bind. eapply W_consume; eauto. intros t s' E HR' En. apply W_err.
  apply Reach_Back in HR'. assert (Hi : In t (toks ++ [t])) by (apply in_or_app; simpl; auto).
  destruct (Hf t (found_in _ _ _ _ HR' Hi) E) as [Es Hn].
  eapply err_here; [exact HR'| |exact Hn]. right. rewrite Es. apply span_ok_tok.
  eapply seg_tok; [exact HR'|exact Hi].
Qed.

Lemma W_delim close toks s (Q : unit -> pst -> Prop) :
  Reach s0 toks s ->
  (forall t s', isp PComma t -> Reach s0 (toks ++ [t]) s' -> Q tt s') ->
  (curv s close -> Q tt s) ->
  W (consume_list_delimiter close) s Q.
Proof.
  intros HR H1 H2. unfold consume_list_delimiter. apply W_bind. eapply W_maybe; eauto.
  - intros t s' E Hv HR' En. apply W_ret. eauto.
  - intros Hn. apply W_bind. apply W_curm.
    + intros Hc. apply W_ret. auto.
    + intros Hc. eapply err_consume; eauto. intros t Hf Et. split; [reflexivity|]. unfold not_arrow, says. cbn.
      split; [exact Hf|]. intros y [= <-] Ey. apply Hn. exists t. auto.
Qed.

Lemma W_debug (b : bool) s (Q : unit -> pst -> Prop) :
  (b = false -> debug_assertions = true -> PanicOK) -> Q tt s -> W (pdebug_assert b) s Q.
Proof.
  intros Hp H. unfold pdebug_assert. destruct debug_assertions eqn:Ed; cbn [andb].
  - destruct b; cbn [negb]; [now apply W_ret|]. apply W_panic. auto.
  - now apply W_ret.
Qed.

Lemma split_async_panic s1 u t s :
  Reach s1 [u; t] s -> t_value u = VKeyword KAsync -> t_value t = VKeyword KFunction ->
  negb (t_fol t) = false -> debug_assertions = true -> PanicOK.
Proof.
  intros HR Hu Ht Hf Hd. right. left. split; [exact Hd|]. exists (log s1), u, t.
  split; [eapply Back_log; apply Reach_Back; exact HR|]. destruct (t_fol t); auto; discriminate.
Qed.

(** Insertion of a semicolon. *)
Lemma asi_insert s : clean s -> log s <> [] ->
  match cur s with
  | Ok t => (value_is (VPunct PBracketClose) (Some t) || t_fol t)%bool
  | Err e => is_eos e
  end = true -> asi_at D (tfin (log s)).
Proof.
  intros HC Hl H. destruct (cur s) as [t|e] eqn:E.
  - destruct (clean_tok D _ _ HC E) as (pre & f & pre1 & f1 & Hc & Ht).
    exists (log s), pre, f. split; auto. split; auto. right. exists t, pre1, f1. split; auto.
    apply orb_true_iff in H. destruct H as [H|H]; auto. left.
    apply value_is_true in H. destruct H as (t' & Et & Hv). injection Et as <-. exact Hv.
  - destruct (clean_cur_err D s e HC E) as [->|Hr].
    + destruct (clean_eos D _ HC E) as (pre & f & Hc & He). exists (log s), pre, f. auto.
    + exfalso. destruct Hr as (_ & _ & Hk). unfold is_eos in H. destruct (le_kind e); solve [congruence|exact Hk].
Qed.

Lemma W_semi toks s (Q : unit -> pst -> Prop) :
  Reach s0 toks s -> toks <> [] ->
  (forall semi s', terminated D toks semi -> Reach s0 (toks ++ semi) s' -> Q tt s') ->
  W consume_optional_semicolon s Q.
Proof.
  intros HR Hne H. unfold consume_optional_semicolon. apply W_bind. eapply W_maybe; eauto.
  - intros t s' E Hv HR' En. apply W_ret. eapply (H [t]); [exact Hv|exact HR'].
  - intros Hn. apply W_bind. unfold can_insert_semicolon. apply W_bind. apply W_cur_raw. apply W_ret.
    destruct (match cur s with Ok t => _ | Err e => _ end) eqn:E.
    + apply W_ret. apply (H []); [|now rewrite app_nil_r].
      assert (EL : tfin toks = tfin (log s)).
      { destruct HR as ((_ & _ & EL & _) & _). rewrite EL, tfin_app; auto. }
      cbn. rewrite EL. apply asi_insert; auto; [eapply Reach_clean; eauto|].
      destruct HR as ((_ & _ & EL' & _) & _). rewrite EL'. destruct (log s0); [|discriminate]. exact Hne.
    + eapply err_consume; eauto. intros t Hf Et. split; [reflexivity|]. unfold not_arrow, says. cbn.
        split; [exact Hf|]. intros y E2; discriminate E2.
Qed.

(** Optional semicolons without check. *)
Lemma W_osemi toks s (Q : bool -> pst -> Prop) :
  Reach s0 toks s ->
  (forall semi b s', opt_semi semi -> Reach s0 (toks ++ semi) s' -> Q b s') ->
  W (maybe_consume (VPunct PSemiColon)) s Q.
Proof.
  intros HR H. eapply W_maybe; eauto.
  - intros t s' E Hv HR' En. apply (H [t]); auto.
  - intros Hn. apply (H []); [exact Logic.I|now rewrite app_nil_r].
Qed.

(** Calls. *)
Lemma W_callB {B : Set} (n : nt B) toks s (Q : B -> pst -> Prop) :
  Back s0 toks s -> PreX m n s ->
  (toks = [] -> rank n < r) ->
  (toks = [] -> actx n = None \/ actx n = ac) ->
  (forall a s', OkPost n s a s' -> Q a s') ->
  W (pcall n) s Q.
Proof.
  intros HB HP Hr Ha H. unfold pcall, Hoare.W. cbn [Contract.wp]. split; [split; auto; eapply Back_clean; eauto|].
  split.
  - unfold mu. pose proof (rem_Back _ _ _ HB) as [H1 H2]. pose proof (rank_lt n).
    destruct toks as [|t toks].
    + specialize (Hr eq_refl). nia.
    + specialize (H2 ltac:(discriminate)). nia.
  - intros [a|e] s'; cbn [Contract.wp].
    + auto.
    + intros [HE _]. eapply err_lift; eauto.
Qed.

Lemma W_call {B : Set} (n : nt B) toks s (Q : B -> pst -> Prop) :
  Reach s0 toks s -> PreX m n s ->
  (toks = [] -> rank n < r) ->
  (toks = [] -> actx n = None \/ actx n = ac) ->
  weak n = false ->
  (forall a ts s', Reach s ts s' -> Reach s0 (toks ++ ts) s' -> (emp n = false -> ts <> []) ->
     G D n s a ts s' -> Q a s') ->
  W (pcall n) s Q.
Proof.
  intros HR HP Hr Ha Hw H. eapply W_callB; eauto; [apply Reach_Back; eauto|].
  intros a s' (ts & [HT|(Hx & _)] & He & HG); [|congruence].
  eapply H; eauto. eapply Reach_trans; eauto.
Qed.

(** The same from a state that was rewound or read again. *)
Lemma W_call_back {B : Set} (n : nt B) toks s (Q : B -> pst -> Prop) :
  Back s0 toks s -> PreX m n s ->
  (toks = [] -> rank n < r) ->
  (toks = [] -> actx n = None \/ actx n = ac) ->
  weak n = false -> emp n = false ->
  (forall a ts s', Reach s ts s' -> Reach s0 (toks ++ ts) s' -> ts <> [] ->
     G D n s a ts s' -> Q a s') ->
  W (pcall n) s Q.
Proof.
  intros HR HP Hr Ha Hw Hemp H. eapply W_callB; eauto.
  intros a s' (ts & [HT|(Hx & _)] & He & HG); [|congruence].
  eapply H; eauto. eapply Back_Reach; eauto.
Qed.

(** Calls whose failure is inspected. *)
Lemma W_try {B : Set} (n : nt B) toks s (Q : result B perr -> pst -> Prop) :
  Reach s0 toks s -> PreX m n s ->
  (toks = [] -> rank n < r) ->
  weak n = false ->
  (forall a ts s', Reach s ts s' -> Reach s0 (toks ++ ts) s' -> (emp n = false -> ts <> []) ->
     G D n s a ts s' -> Q (Ok a) s') ->
  (forall e s', ErrPost (actx n) s s' e -> EX n s -> Q (Err e) s') ->
  W (ptry n) s Q.
Proof.
  intros HR HP Hr Hw H H'. unfold ptry, Hoare.W. cbn [Contract.wp].
  pose proof (Reach_Back _ _ _ HR) as HB.
  split; [split; auto; eapply Back_clean; eauto|]. split.
  - unfold mu. pose proof (rem_Back _ _ _ HB) as [H1 H2]. pose proof (rank_lt n).
    destruct toks as [|t toks].
    + specialize (Hr eq_refl). nia.
    + specialize (H2 ltac:(discriminate)). nia.
  - intros [a|e] s'; cbn [Contract.wp].
    + intros (ts & [HT|(Hx & _)] & He & HG); [|congruence]. eapply H; eauto. eapply Reach_trans; eauto.
    + intros [HE HX]. auto.
Qed.

(** Rewinding to the token that was current in [s1]. *)
Lemma W_rewind s1 toks toks' t s (Q : unit -> pst -> Prop) :
  Reach s0 toks s1 -> cur s1 = Ok t -> wf D s -> log s = log s1 ++ toks' ->
  (forall u, In u toks' -> tstart t <= tstart u) ->
  (forall s', Back s1 [] s' -> Back s0 toks s' -> not_eos (cur s') -> (forall t', cur s' = Ok t' -> hd_rel t t') ->
     Q tt s') ->
  W (pop (ORewind t)) s Q.
Proof.
  intros HR E Hwf El Hge H. unfold pop, Hoare.W. cbn [Contract.wp].
  pose proof (Reach_clean _ _ _ HR) as HC.
  destruct (step_rewind D s (log s1) toks' t Hwf) as [[-> Hasc]|(s' & -> & HC' & El' & Hne & Hhd)]; auto.
  - destruct (clean_tok D _ _ HC E) as (p & f & p1 & f1 & H1 & H2). exists p, f, p1, f1. auto.
  - unfold Contract.PanicOK. auto.
  - cbn [Contract.wp pret].
    assert (HB : Back s1 [] s').
    { repeat split; auto. now rewrite app_nil_r. intros t' Ht'. exists t. split; auto. }
    apply H; auto. rewrite <- (app_nil_r toks). eapply Back_trans; eauto. now apply Reach_Back.
Qed.

Lemma W_rewind_ok s1 toks ts t s (Q : unit -> pst -> Prop) :
  Reach s0 toks s1 -> cur s1 = Ok t -> Back s1 ts s ->
  (forall s', Back s1 [] s' -> Back s0 toks s' -> not_eos (cur s') -> (forall t', cur s' = Ok t' -> hd_rel t t') ->
     Q tt s') ->
  W (pop (ORewind t)) s Q.
Proof.
  intros HR E HB H. eapply W_rewind with (toks' := ts); eauto.
  - apply clean_wf. eapply Back_clean; eauto.
  - apply HB.
  - intros u Hu. destruct (Back_starts _ _ _ _ HB Hu) as (t0 & E0 & Hle). congruence.
Qed.

Lemma W_rewind_err ac' s1 toks t s e (Q : unit -> pst -> Prop) :
  Reach s0 toks s1 -> cur s1 = Ok t -> ErrPost ac' s1 s e ->
  (forall s', Back s1 [] s' -> Back s0 toks s' -> not_eos (cur s') -> (forall t', cur s' = Ok t' -> hd_rel t t') ->
     Q tt s') ->
  W (pop (ORewind t)) s Q.
Proof.
  intros HR E (Hw & ts & El & Ht & _) H. eapply W_rewind with (toks' := ts); eauto.
  intros u Hu. destruct (Ht _ Hu) as (t0 & E0 & Hle). congruence.
Qed.

Lemma W_reread st toks s (Q : unit -> pst -> Prop) :
  Reach s0 toks s ->
  (forall s', Back s [] s' -> Back s0 toks s' -> Q tt s') ->
  W (pop (OReread st)) s Q.
Proof.
  intros HR H. unfold pop, Hoare.W. cbn [Contract.wp].
  pose proof (Reach_clean _ _ _ HR) as HC.
  destruct (step_reread D s st HC) as [[-> Hasc]|(s' & -> & HC' & El & Ep & Hhd)].
  - unfold Contract.PanicOK. auto.
  - cbn [Contract.wp pret].
    assert (HB : Back s [] s').
    { repeat split; auto. now rewrite app_nil_r. }
    apply H; auto. rewrite <- (app_nil_r toks). eapply Back_trans; eauto. now apply Reach_Back.
Qed.

Lemma Reach_consumed s1 a s : Reach s1 a s -> a <> [] -> consumed s.
Proof.
  intros HR Hne. destruct (exists_last Hne) as (l & t & ->). destruct HR as ((_ & _ & E & _) & _ & Hp).
  exists (log s1 ++ l), t. rewrite E, app_assoc. split; [reflexivity|]. rewrite (Hp Hne). apply tfin_snoc.
Qed.

Lemma Reach_last s1 a t s : Reach s1 (a ++ [t]) s -> exists l, log s = l ++ [t].
Proof. intros ((_ & _ & E & _) & _). exists (log s1 ++ a). now rewrite E, app_assoc. Qed.

(** Errors with known spans. *)
Lemma err_span toks s e :
  Reach s0 toks s -> toks <> [] -> not_arrow e -> pe_span e = mk_span (posof s0) (pos s) ->
  ErrPost ac s0 s e.
Proof.
  intros HR Hne Hn Es. eapply err_here; [apply Reach_Back; eauto| |auto]. right. rewrite Es.
  rewrite (Reach_span _ _ _ HR Hne). eapply span_ok_of; [apply Reach_Back; eassumption|auto].
Qed.

Lemma err_begins v t ts s e :
  Reach s0 (t :: ts) s -> t_value t = v -> pe_span e = mk_span (posof s0) (pos s) ->
  (begins D v (pe_span e) -> not_arrow e) -> ErrPost ac s0 s e.
Proof.
  intros HR Hv Es Hb. eapply err_span; [exact HR|discriminate| |exact Es]. apply Hb.
  exists (log s0), t, ts. split; [|split; [exact Hv|]].
  - apply Reach_Back in HR. apply Back_log in HR. exact HR.
  - rewrite Es. symmetry. apply (Reach_span _ _ _ HR). discriminate.
Qed.

Lemma err_tok toks s e t :
  Back s0 toks s -> In t toks -> (found D (t_value t) (t_span t) -> not_arrow e) -> pe_span e = t_span t -> ErrPost ac s0 s e.
Proof.
  intros HR Hin Hn Es. pose proof (found_in _ _ _ _ HR Hin). eapply err_here; eauto. right. rewrite Es.
  apply span_ok_tok. eapply seg_tok; eauto.
Qed.

Lemma err_cur toks s e t :
  Back s0 toks s -> cur s = Ok t -> (found D (t_value t) (t_span t) -> not_arrow e) -> pe_span e = t_span t -> ErrPost ac s0 s e.
Proof.
  intros HR E Hn Es. pose proof (found_cur _ _ (Back_clean _ _ _ HR) E). eapply err_here; eauto. right. rewrite Es.
  apply span_ok_tok. eapply cur_tok; eauto. eapply Back_clean; eauto.
Qed.

End Rules.
End Hoare.
