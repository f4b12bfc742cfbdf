(** * ParseState: parser states that stand for a position in the source, and
    what the reader operations do to them. *)

From Verif Require Import Base Tokens PeekReader CharReader Lexer LexSpec LexerFacts LexProps Ast Prog
  TokChain.
Local Open Scope list_scope.

(** ** Token sequences *)

Definition tsta (l : list token) : nat := match l with t :: _ => tstart t | [] => 0 end.
Definition tfin (l : list token) : nat := last (map tend l) 0.
Definition span_of (l : list token) : span := mk_span (tsta l) (tfin l).

Lemma tfin_snoc l t : tfin (l ++ [t]) = tend t.
Proof. unfold tfin. rewrite map_app. simpl. apply last_last. Qed.

Lemma tfin_app a b : b <> [] -> tfin (a ++ b) = tfin b.
Proof.
  intros H. destruct (exists_last H) as (b' & t & ->). rewrite app_assoc, !tfin_snoc. reflexivity.
Qed.

Lemma tsta_app a b : a <> [] -> tsta (a ++ b) = tsta a.
Proof. destruct a; [congruence|reflexivity]. Qed.

Section ParseState.
Context {PF : Platform}.
Variable D : str.

(** ** Order of the tokens of a chain *)

Lemma chain_fin pre f l pre1 f1 :
  chain D pre f l pre1 f1 -> l <> [] -> tfin l = rpos pre1 /\ tfin l <= blen D.
Proof.
  induction 1 as [|pre f t pre1 f1 ts pre2 f2 Ht Hc IH]; [congruence|]. intros _.
  destruct ts as [|u ts].
  - inversion Hc; subst. apply tok_at_bounds in Ht. unfold tfin. simpl. lia.
  - unfold tfin in *. simpl in *. apply IH. discriminate.
Qed.

Lemma chain_rpos pre f l pre1 f1 : chain D pre f l pre1 f1 -> rpos pre <= rpos pre1.
Proof.
  induction 1 as [|pre f t pre1 f1 ts pre2 f2 Ht Hc IH]; auto. apply tok_at_bounds in Ht. lia.
Qed.

Lemma chain_start pre f l pre1 f1 :
  chain D pre f l pre1 f1 -> forall t, In t l ->
  rpos pre <= tstart t /\ tstart t < tend t /\ tend t <= rpos pre1.
Proof.
  induction 1 as [|pre f t pre1 f1 ts pre2 f2 Ht Hc IH]; intros u; [intros []|].
  apply tok_at_bounds in Ht. pose proof (chain_rpos _ _ _ _ _ Hc). intros [<-|Hu].
  - lia.
  - specialize (IH _ Hu). lia.
Qed.

Lemma chain_lt pre f t l pre1 f1 :
  chain D pre f (t :: l) pre1 f1 -> forall u, In u l -> tend t <= tstart u.
Proof.
  intros H. inversion H as [|? ? ? p1 g1 ? ? ? Ht Hc]; subst. intros u Hu.
  destruct (chain_start _ _ _ _ _ Hc u Hu) as (H1 & _). apply tok_at_bounds in Ht. lia.
Qed.

Lemma chain_span pre f l pre1 f1 :
  chain D pre f l pre1 f1 -> l <> [] -> tsta l < tfin l.
Proof.
  intros H Hl. destruct l as [|t l]; [congruence|].
  destruct (exists_last Hl) as (l' & u & E). rewrite E. rewrite tfin_snoc.
  assert (Hu : In u (t :: l)) by (rewrite E; apply in_or_app; simpl; auto).
  destruct (chain_start _ _ _ _ _ H u Hu) as (H1 & H2 & H3).
  destruct Hu as [<-|Hu].
  - destruct l' as [|x l']; [exact H2|]. simpl in E. injection E as <- E. exact H2.
  - pose proof (chain_lt _ _ _ _ _ _ H u Hu). destruct (chain_start _ _ _ _ _ H t (or_introl eq_refl)).
    destruct l' as [|x l']; simpl in *; [injection E as <- _; exact H2|]. injection E as <- E. lia.
Qed.

(** Tokens of a log, from the start of the source. *)
Definition is_log (l : list token) : Prop := exists pre f, chain D [] true l pre f.

Lemma is_log_bounds l t : is_log l -> In t l -> tstart t < tend t /\ tend t <= blen D.
Proof.
  intros (pre & f & H) Ht. destruct (chain_start _ _ _ _ _ H t Ht) as (_ & H1 & H2).
  assert (l <> []) by (destruct l; [destruct Ht|discriminate]).
  destruct (chain_fin _ _ _ _ _ H H0). lia.
Qed.

Lemma is_log_app l m : is_log (l ++ m) -> is_log l.
Proof. intros (p & f & H). apply chain_split in H. destruct H as (p1 & f1 & H & _). exists p1, f1. exact H. Qed.

Lemma is_log_order l m t u : is_log (l ++ m) -> In t l -> In u m -> tend t <= tstart u.
Proof.
  intros (p & f & H) Ht Hu. apply chain_split in H. destruct H as (p1 & f1 & H1 & H2).
  destruct (chain_start _ _ _ _ _ H1 t Ht). destruct (chain_start _ _ _ _ _ H2 u Hu). lia.
Qed.

Lemma is_log_sub l m r : is_log (l ++ m ++ r) -> m <> [] ->
  tsta m < tfin m /\ tfin m <= blen D /\ tfin l <= tsta m.
Proof.
  intros H Hm. rewrite app_assoc in H. apply is_log_app in H. destruct H as (p & f & H).
  apply chain_split in H. destruct H as (p1 & f1 & H1 & H2).
  destruct (chain_fin _ _ _ _ _ H2 Hm) as [_ H3]. pose proof (chain_span _ _ _ _ _ H2 Hm).
  repeat split; auto. destruct m as [|t m]; [congruence|].
  destruct (chain_start _ _ _ _ _ H2 t (or_introl eq_refl)) as (H4 & _). simpl.
  destruct l as [|x l]; [unfold tfin; simpl; lia|].
  destruct (chain_fin _ _ _ _ _ H1) as [H5 _]; [discriminate|]. lia.
Qed.

(** What is left to read after the tokens [l]. *)
Definition rem_log (l : list token) : nat := blen D - tfin l.
Definition rem (s : pst) : nat := rem_log (log s).

Lemma rem_app l m : is_log (l ++ m) ->
  rem_log (l ++ m) <= rem_log l /\ (m <> [] -> rem_log (l ++ m) < rem_log l).
Proof.
  intros H. destruct m as [|t m].
  - rewrite app_nil_r. split; [lia|congruence].
  - pose proof H as H0. rewrite <- (app_nil_r (t :: m)) in H0.
    apply is_log_sub in H0; [|discriminate]. destruct H0 as (H1 & H2 & H3).
    unfold rem_log. rewrite tfin_app by discriminate. split; intros; lia.
Qed.

(** ** States *)

(** A lexer over the source, and results without a panic. *)
Definition okr (r : result (nat * token) lfail) : Prop :=
  match r with
  | Ok _ => True
  | Err (LFail e) => reader_ok D e
  | Err _ => False
  end.

Definition wf (s : pst) : Prop :=
  exists st p r g c n q,
    ps_rd s = mk_pr (LX D st p r g) c n q 0 /\ D = p ++ r /\ okr c /\ okr n.

(** [s] stands right after its log, showing the next two tokens. *)
Definition clean (s : pst) : Prop :=
  exists st p r g c n q pre f pre1 f1,
    ps_rd s = mk_pr (LX D st p r g) c n q 0 /\ D = p ++ r /\
    chain D [] true (log s) pre f /\ look D pre f c pre1 f1 /\
    match c with Ok _ => look D pre1 f1 n p g | Err _ => okr n end.

Lemma look_okr pre f r pre1 f1 : look D pre f r pre1 f1 -> okr r.
Proof. destruct r as [[q t]|[e| |]]; simpl; tauto. Qed.

Lemma clean_wf s : clean s -> wf s.
Proof.
  intros (st & p & r & g & c & n & q & pre & f & pre1 & f1 & E & ED & Hc & Hl & Hn).
  exists st, p, r, g, c, n, q. repeat split; auto; [now apply look_okr in Hl|].
  destruct c; auto. now apply look_okr in Hn.
Qed.

Lemma clean_log s : clean s -> is_log (log s).
Proof. intros (st & p & r & g & c & n & q & pre & f & pre1 & f1 & E & ED & Hc & _). exists pre, f. exact Hc. Qed.

Lemma clean_cur_err s e : clean s -> cur s = Err e -> reader_ok D e.
Proof.
  intros (st & p & r & g & c & n & q & pre & f & pre1 & f1 & E & ED & Hc & Hl & Hn) H.
  unfold cur in H. rewrite E in H. simpl in H. destruct c as [[? ?]|[e'| |]]; simpl in *; try contradiction; try discriminate.
  injection H as ->. tauto.
Qed.

Lemma clean_eos s : clean s -> cur s = Err end_of_stream ->
  exists pre f, chain D [] true (log s) pre f /\ eos_at D pre f.
Proof.
  intros (st & p & r & g & c & n & q & pre & f & pre1 & f1 & E & ED & Hc & Hl & Hn) H.
  unfold cur in H. rewrite E in H. simpl in H. destruct c as [[? ?]|[e'| |]]; simpl in *; try contradiction; try discriminate.
  injection H as ->. exists pre, f. tauto.
Qed.

Lemma clean_stuck s e : clean s -> cur s = Err e -> e <> end_of_stream ->
  exists pre f, chain D [] true (log s) pre f /\ stuck D pre f.
Proof.
  intros (st & p & r & g & c & n & q & pre & f & pre1 & f1 & E & ED & Hc & Hl & Hn) H.
  unfold cur in H. rewrite E in H. simpl in H. destruct c as [[? ?]|[e'| |]]; simpl in *; try contradiction; try discriminate.
  injection H as ->. exists pre, f. tauto.
Qed.

Lemma clean_tok s t : clean s -> cur s = Ok t ->
  exists pre f pre1 f1, chain D [] true (log s) pre f /\ tok_at D pre f t pre1 f1.
Proof.
  intros (st & p & r & g & c & n & q & pre & f & pre1 & f1 & E & ED & Hc & Hl & Hn) H.
  unfold cur in H. rewrite E in H. simpl in H. destruct c as [[? ?]|[e'| |]]; simpl in *; try contradiction; try discriminate.
  injection H as ->. exists pre, f, pre1, f1. tauto.
Qed.

Lemma clean_cur_log s t : clean s -> cur s = Ok t -> is_log (log s ++ [t]).
Proof.
  intros Hs Ht. destruct (clean_tok _ _ Hs Ht) as (p & f & p1 & f1 & Hc & Hk).
  exists p1, f1. eapply chain_snoc; eauto.
Qed.

Lemma okr_aborts r : okr r -> aborts r = None.
Proof. destruct r as [[? ?]|[e| |]]; simpl; tauto. Qed.

Lemma guard_ok {B} rd (x : sres B) : okr (pr_current rd) -> okr (pr_next rd) -> guard rd x = x.
Proof. intros H1 H2. unfold guard. rewrite !okr_aborts by auto. reflexivity. Qed.

(** [consume] of a token. *)
Lemma step_consume_ok s t :
  clean s -> cur s = Ok t ->
  exists s', step OConsume s = SDone (Ok t) s' /\ clean s' /\ log s' = log s ++ [t] /\
    pos s' = tend t /\ cur s' = nxt s.
Proof.
  intros (st & p & r & g & c & n & q & pre & f & pre1 & f1 & E & ED & Hc & Hl & Hn) H.
  unfold cur in H. rewrite E in H. simpl in H.
  destruct c as [[q0 t0]|[e'| |]]; simpl in *; try contradiction; try discriminate.
  injection H as ->. destruct Hl as [-> Hk].
  destruct (next_at D st p r g ED) as (n' & p' & w' & g' & En & ED' & Hl').
  unfold cur, nxt. rewrite E. unfold pr_consume. cbn [pr_inner pr_current pr_next pr_offset pr_position].
  rewrite En.
  rewrite guard_ok.
  - eexists. split; [reflexivity|]. split.
    + exists st, p', w', g', n, n', (tend t + 0), pre1, f1.
      destruct n as [[qn tn]|[en| |]]; simpl in Hn; try contradiction.
      * exists p, g. cbn. repeat split; auto; try (eapply chain_snoc; eauto); tauto.
      * exists p, g. cbn. repeat split; auto; try (eapply chain_snoc; eauto); try tauto.
        now apply look_okr in Hl'.
    + cbn. repeat split. unfold pos. cbn. lia.
  - cbn. now apply look_okr in Hn.
  - cbn. now apply look_okr in Hl'.
Qed.

Lemma step_consume_err s e :
  clean s -> cur s = Err e ->
  exists s', step OConsume s = SDone (Err e) s' /\ wf s' /\ log s' = log s.
Proof.
  intros (st & p & r & g & c & n & q & pre & f & pre1 & f1 & E & ED & Hc & Hl & Hn) H.
  unfold cur in H. rewrite E in H. simpl in H.
  destruct c as [[q0 t0]|[e'| |]]; simpl in *; try contradiction; try discriminate.
  injection H as ->.
  destruct (next_at D st p r g ED) as (n' & p' & w' & g' & En & ED' & Hl').
  unfold cur. rewrite E. unfold pr_consume. cbn [pr_inner pr_current pr_next pr_offset pr_position].
  rewrite En. rewrite guard_ok.
  - eexists. split; [reflexivity|]. split.
    + exists st, p', w', g', n, n', q. cbn. repeat split; auto. now apply look_okr in Hl'.
    + cbn. apply app_nil_r.
  - exact Hn.
  - cbn. now apply look_okr in Hl'.
Qed.

(** Rewinding to, or reading again, a token that stood after [l]. *)
Definition anchor (l : list token) (t : token) : Prop :=
  exists pre f pre1 f1, chain D [] true l pre f /\ tok_at D pre f t pre1 f1.

Lemma rewind_LX q w t L :
  D = q ++ w -> tstart t = rpos q -> lx_data L = D ->
  lexer_rewind_before t L = Some (LX D (lx_state L) q w (t_fol t)) \/
  (lexer_rewind_before t L = None /\ ascii_str D = false).
Proof.
  intros E Et EL. unfold lexer_rewind_before, lexer_seek. rewrite EL.
  change (sp_start (t_span t)) with (tstart t). rewrite Et.
  destruct (slice_from D (rpos q)) as [w'|] eqn:Es.
  - left. pose proof Es as Es'. rewrite E in Es'. apply slice_from_rpos in Es'. destruct Es' as [-> Eq].
    unfold set_fol_, cr_at, LX. cbn. rewrite Eq. reflexivity.
  - right. split; auto. destruct (ascii_str D) eqn:Ea; auto. exfalso.
    assert (Haq : ascii_str q = true) by (rewrite E in Ea; apply ascii_app_inv in Ea; tauto).
    rewrite (rpos_ascii _ Haq), <- (blen_ascii _ Haq), E, slice_from_app in Es. discriminate.
Qed.

Lemma log_before_app l m t :
  (forall u, In u l -> tstart u < tstart t) -> (forall u, In u m -> tstart t <= tstart u) ->
  log_before (tstart t) (l ++ m) = l.
Proof.
  intros H1 H2. induction l as [|x l IH]; simpl.
  - destruct m as [|y m]; [reflexivity|]. simpl. destruct (Nat.ltb_spec (tstart y) (tstart t)); auto.
    specialize (H2 y (or_introl eq_refl)). lia.
  - destruct (Nat.ltb_spec (tstart x) (tstart t)) as [_|Hx].
    + f_equal. apply IH. intros; apply H1; simpl; auto.
    + specialize (H1 x (or_introl eq_refl)). lia.
Qed.

Lemma anchor_before l t : anchor l t -> forall u, In u l -> tstart u < tstart t.
Proof.
  intros (p & f & p1 & f1 & Hc & Hk) u Hu. destruct (chain_start _ _ _ _ _ Hc u Hu).
  apply tok_at_bounds in Hk. lia.
Qed.

Definition not_eos (r : rtoken) : Prop := r <> Err end_of_stream.

Lemma step_rewind s l m t :
  wf s -> anchor l t -> log s = l ++ m -> (forall u, In u m -> tstart t <= tstart u) ->
  (step (ORewind t) s = SPanic /\ ascii_str D = false) \/
  exists s', step (ORewind t) s = SDone tt s' /\ clean s' /\ log s' = l /\ not_eos (cur s') /\
    (forall t', cur s' = Ok t' -> hd_rel t t').
Proof.
  intros (st & p & r & g & c & n & q & E & ED & Hc & Hn) Ha El Hm.
  pose proof (log_before_app l m t (anchor_before _ _ Ha) Hm) as Elog.
  destruct Ha as (pre & f & pre1 & f1 & Hch & Hk).
  destruct (reread_at D _ _ _ _ _ Hk) as (q0 & w0 & EDq & Et & Hread).
  unfold step, pr_rewind_to. rewrite E. cbn [pr_inner].
  destruct (rewind_LX q0 w0 t (LX D st p r g) EDq Et eq_refl) as [->|[-> Hasc]]; [|left; auto].
  right. change (lx_state (LX D st p r g)) with st.
  specialize (Hread st). unfold lexer_next at 1.
  destruct (read (LX D st q0 w0 (t_fol t))) as [[t'|[e| |]] L']; try contradiction.
  - destruct Hread as (p1 & r1 & g1 & -> & ED1 & Hk1 & Hr).
    destruct (next_at D st p1 r1 g1 ED1) as (n' & p' & w' & g' & En & ED' & Hl').
    rewrite En. cbn [pr_position pr_offset]. rewrite guard_ok; [|exact I|now apply look_okr in Hl'].
    eexists. split; [reflexivity|]. unfold log in *. cbn [ps_log]. rewrite El, Elog.
    repeat split.
    + eexists st, p', w', g', _, n', q, pre, f, p1, g1. cbn. repeat split; eauto.
    + unfold not_eos, cur. cbn. discriminate.
    + unfold cur in H. cbn in H. injection H as <-. apply Hr.
    + unfold cur in H. cbn in H. injection H as <-. apply Hr.
  - destruct Hread as (p1 & r1 & g1 & -> & ED1 & He & Hst).
    destruct (next_at D st p1 r1 g1 ED1) as (n' & p' & w' & g' & En & ED' & Hl').
    rewrite En. cbn [pr_position pr_offset]. rewrite guard_ok; [|right; exact He|now apply look_okr in Hl'].
    eexists. split; [reflexivity|]. unfold log in *. cbn [ps_log]. rewrite El, Elog.
    repeat split.
    + eexists st, p', w', g', _, n', q, pre, f, p1, g1. cbn. repeat split; eauto.
      * right; exact He.
      * intros ->. destruct (eok_not_end _ _ He eq_refl).
      * now apply look_okr in Hl'.
    + unfold not_eos, cur. cbn. intros H. injection H as ->. destruct (eok_not_end _ _ He eq_refl).
    + unfold cur in H. cbn in H. discriminate.
    + unfold cur in H. cbn in H. discriminate.
Qed.

Lemma step_reread s st0 :
  clean s ->
  (step (OReread st0) s = SPanic /\ ascii_str D = false) \/
  exists s', step (OReread st0) s = SDone tt s' /\ clean s' /\ log s' = log s /\ pos s' = pos s /\
    (forall t', cur s' = Ok t' -> exists t, cur s = Ok t /\ hd_rel t t').
Proof.
  intros Hs. pose proof Hs as Hs0.
  destruct Hs as (st & p & r & g & c & n & q & pre & f & pre1 & f1 & E & ED & Hc & Hl & Hn).
  unfold step, pr_reread_with_state. rewrite E. cbn [pr_inner pr_current].
  destruct c as [[q1 t]|e].
  - destruct Hl as [-> Hk].
    destruct (reread_at D _ _ _ _ _ Hk) as (q0 & w0 & EDq & Et & Hread).
    destruct (rewind_LX q0 w0 t (LX D st p r g) EDq Et eq_refl) as [->|[-> Hasc]]; [|left; auto].
    right. change (lx_state (LX D st p r g)) with st.
    specialize (Hread st0). unfold lexer_read_with_state.
    change (lexer_set_state st0 (LX D st q0 w0 (t_fol t))) with (LX D st0 q0 w0 (t_fol t)).
    unfold lexer_next at 1.
    change (lx_state (LX D st q0 w0 (t_fol t))) with st.
    destruct (read (LX D st0 q0 w0 (t_fol t))) as [[t'|[e| |]] L']; try contradiction.
    + destruct Hread as (p1 & r1 & g1 & -> & ED1 & Hk1 & Hr).
      change (lexer_set_state st (LX D st0 p1 r1 g1)) with (LX D st p1 r1 g1).
      destruct (next_at D st p1 r1 g1 ED1) as (n' & p' & w' & g' & En & ED' & Hl').
      rewrite En. cbn [pr_position pr_offset]. rewrite guard_ok; [|exact I|now apply look_okr in Hl'].
      eexists. split; [reflexivity|]. split; [|split; [|split]].
      * eexists st, p', w', g', _, n', q, pre, f, p1, g1. cbn. repeat split; eauto.
      * reflexivity.
      * unfold pos. cbn. rewrite E. reflexivity.
      * unfold cur. cbn. rewrite E. cbn. intros t'' Ht. injection Ht as <-. eauto.
    + destruct Hread as (p1 & r1 & g1 & -> & ED1 & He & Hst).
      destruct (next_at D st0 p1 r1 g1 ED1) as (n' & p' & w' & g' & En & ED' & Hl').
      rewrite En. cbn [pr_position pr_offset]. rewrite guard_ok; [|right; exact He|now apply look_okr in Hl'].
      eexists. split; [reflexivity|]. split; [|split; [|split]].
      * eexists st0, p', w', g', _, n', q, pre, f, p1, g1. cbn. repeat split; eauto.
        -- right; exact He.
        -- intros ->. destruct (eok_not_end _ _ He eq_refl).
        -- now apply look_okr in Hl'.
      * reflexivity.
      * unfold pos. cbn. rewrite E. reflexivity.
      * unfold cur. cbn. discriminate.
  - right. eexists. split; [apply guard_ok|].
    + now apply look_okr in Hl.
    + exact Hn.
    + destruct s as [rd lg]. cbn in *. subst rd. repeat split; auto.
      unfold cur. cbn. destruct e; discriminate.
Qed.

(** The first state. *)
Lemma pst_new_ok m :
  exists s, pst_new D m = SDone tt s /\ clean s /\ log s = [] /\ pos s = 0.
Proof.
  unfold pst_new.
  set (L := if m then _ else _).
  assert (EL : exists st, L = LX D st [] D true).
  { unfold L. destruct m; eexists; reflexivity. }
  destruct EL as (st & ->).
  destruct (next_at D st [] D true eq_refl) as (c & p1 & w1 & g1 & E1 & ED1 & Hl1).
  destruct (next_at D st p1 w1 g1 ED1) as (n & p2 & w2 & g2 & E2 & ED2 & Hl2).
  unfold pr_new, pr_with_offset. rewrite E1, E2.
  rewrite guard_ok; [|now apply look_okr in Hl1|now apply look_okr in Hl2].
  eexists. split; [reflexivity|]. split; [|auto].
  exists st, p2, w2, g2, c, n, 0, [], true, p1, g1. cbn. repeat split; auto; [constructor|].
  destruct c; auto. now apply look_okr in Hl2.
Qed.

End ParseState.
