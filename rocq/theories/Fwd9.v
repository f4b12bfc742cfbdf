(** * Fwd9: the parser on written loops, modules and programs. *)

From Verif Require Import Base Tokens PeekReader CharReader Lexer LexSpec Ast Prog TokChain ParseState Parser
  ParseRuns Source Stream AstSpec StaticSem Layout Bare Written Starts Forward Fwd1 Fwd2 Fwd3 Fwd4 Fwd5 Fwd7 Fwd8.
Local Open Scope string_scope.
Local Open Scope list_scope.
Local Open Scope prog_scope.

Lemma with_in_same c : with_in (c_in c) c = c.
Proof. now destruct c. Qed.

Section Fwd.
Context {PF : Platform}.
Variable D : str.
Variable st : lexer_state.
Variable full : list token.
Hypothesis HS : setting D st full.

Notation W := (wpt D st full).
Notation ME := (ME D st full).
Notation PPat := (PPat D st full).
Notation PDecls := (PDecls D st full).
Notation PVar := (PVar D st full).
Notation PHoist := (PHoist D st full).
Notation PLex := (PLex D st full).
Notation PStmt := (PStmt D st full).
Notation PItem := (PItem D st full).
Notation PItems := (PItems D st full).
Notation PDirs := (PDirs D st full).
Notation PNoDir := (PNoDir D st full).

(** ** Loops *)

Definition POptE (c : ctx) (ts : list token) (o : option node) : Prop :=
  (ts = [] /\ o = None) \/ (exists a, o = Some a /\ starts 0 c ts /\ ME 0 c ts a).
Definition PForInit (c : ctx) (ts : list token) (o : option node) : Prop :=
  forall t rest, t_value t = VPunct PSemiColon ->
    W (body _ (NOptionalForInit c)) (ts ++ t :: rest) (okq (fun o' => option_map bare o' = o) (t :: rest)).
Definition PForLeft (c : ctx) (ts : list token) (a : node) : Prop :=
  forall t rest, t_value t = VKeyword KIn \/ t_value t = VKeyword KOf ->
    W (body _ (NOptionalForInit c)) (ts ++ t :: rest)
      (fun r ts' => match r with Ok _ => value_is (VPunct PSemiColon) (hdo ts') = false | Err _ => True end) /\
    W (body _ (NForDeclaration c)) (ts ++ t :: rest) (okq (isb a) (t :: rest)).

Lemma opte_read {A : Set} c p ts o cl us (k : option node -> prg A) Q : POptE c ts o -> t_value cl = VPunct p ->
  In p [PSemiColon; PParenClose] -> (forall o', option_map bare o' = o -> W (k o') us Q) ->
  W (let? b := current_matches (VPunct p) in
     let? x := then_try (negb b) (pcall (NExpr c)) in
     consume_assert (VPunct p);? k x) (ts ++ cl :: us) Q.
Proof.
  intros H Hc Hp Hk. destruct H as [[-> ->]|(a & -> & (t & ts' & -> & Ht & _) & H)]; cbn [app].
  - w HS. w HS. destruct Hp as [<-|[<-|[]]]; w HS; now apply Hk.
  - pose proof (H (cl :: us)) as HE. cbn [app] in HE.
    assert (N : t_value t <> VPunct p) by (intros E; rewrite E in Ht; destruct Hp as [<-|[<-|[]]]; discriminate Ht).
    w HS. w HS. eapply W_ok; [apply HE; cbn [stops]; unfold jn; rewrite Hc; destruct Hp as [<-|[<-|[]]]; lia|].
    intros x Hx. destruct Hp as [<-|[<-|[]]]; w HS; apply Hk; cbn; now rewrite Hx.
Qed.

Lemma kind_none {A : Set} c t us (k : option variable_kind -> prg A) Q j : fexp j c (t_value t) = true ->
  W (k None) (t :: us) Q -> W (pbind (parse_optional_variable_kind c) k) (t :: us) Q.
Proof.
  intros Hf H. unfold parse_optional_variable_kind. w HS. w HS. w HS. unfold peek_matches_lexical_binding. w HS.
  apply wpt_b_peek_any; [exact HS|]. intros r _. w HS.
  destruct (t_value t) as [[]| |[]| | | |]; try discriminate Hf; exact H.
Qed.
Lemma kind_some {A : Set} c t u us (k : option variable_kind -> prg A) Q kd : t_value t = kind_tok kd -> fpat c (t_value u) = true ->
  W (k (Some kd)) (u :: us) Q -> W (pbind (parse_optional_variable_kind c) k) (t :: u :: us) Q.
Proof.
  intros Ht Hu H.
  assert (Hop : opener (t_value t) = true -> False) by (rewrite Ht; destruct kd; discriminate).
  unfold parse_optional_variable_kind. w HS. w HS. w HS. unfold peek_matches_lexical_binding. w HS. apply wpt_b_peek; [exact HS|intros X; destruct (Hop X)|]; vis. w HS.
  pose proof (fpat_bind c u Hu) as E. cbn [hdo hd_error] in *. rewrite E, Ht. destruct kd; cbn [kind_tok]; w HS; w HS; exact H.
Qed.

Lemma sem_forinit_none c : PForInit c [] None.
Proof. intros t rest Ht. cbn [app]. wbody. w HS. w HS. now apply okq_intro. Qed.
Lemma sem_forinit c ts a : starts 0 (with_in false c) ts -> ME 0 (with_in false c) ts a -> PForInit c ts (Some a).
Proof.
  intros (u & us & -> & Hu & _) H t rest Ht. pose proof (H (t :: rest)) as HE. cbn [app] in *. pose proof (fexp_not_end _ _ _ Hu) as [N _].
  wbody. w HS. eapply W_ok with (P := isb a) (rest := t :: rest).
  - wbody. w HS. apply (kind_none c u _ _ _ 0 Hu). w HS. apply HE. stp.
  - intros x Hx. w HS. apply okq_intro. cbn. now rewrite Hx.
Qed.
Lemma sem_forinit_decl c t k ts l : t_value t = kind_tok k -> head (fpat c) ts -> PDecls (with_in false c) ts l ->
  PForInit c (t :: ts) (Some (SVariable z k l)).
Proof.
  intros Ht (u & us & -> & Hu) H s rest Hs. cbn [app].
  assert (N : t_value t <> VPunct PSemiColon) by (rewrite Ht; discriminate).
  assert (HD : W (body _ (NVariableDecls (with_in false c))) (u :: us ++ s :: rest) (okq (fun l' => map bare l' = l) (s :: rest))).
  { apply (decls_read D st full (with_in false c) (u :: us) l (s :: rest) H). stp. }
  wbody. w HS. eapply W_ok with (P := isb (SVariable z k l)) (rest := s :: rest).
  - wbody. w HS. apply (kind_some c t u _ _ _ k Ht Hu). w HS. wbody. eapply W_ok; [exact HD|]. intros l' E. w HS. w HS.
    apply okq_intro. red. cbn. now rewrite E.
  - intros x Hx. w HS. apply okq_intro. cbn. now rewrite Hx.
Qed.

Lemma sem_forleft_decl c t k ts p : t_value t = kind_tok k -> head (fpat c) ts ->
  (forall b, PPat (with_in b c) ts p) -> PForLeft c (t :: ts) (ForBinding z k p).
Proof.
  intros Ht (u & us & -> & Hu) H s rest Hs. cbn [app].
  assert (N : t_value t <> VPunct PSemiColon) by (rewrite Ht; discriminate).
  assert (N1 : t_value s <> VPunct PEqual) by (destruct Hs as [->| ->]; discriminate).
  assert (N2 : t_value s <> VPunct PComma) by (destruct Hs as [->| ->]; discriminate).
  assert (N3 : t_value s <> VPunct PSemiColon) by (destruct Hs as [->| ->]; discriminate).
  destruct (H false) as [_ H0]. destruct (H (c_in c)) as [_ H1]. rewrite with_in_same in H1.
  specialize (H0 (s :: rest) ltac:(oh)). specialize (H1 (s :: rest) ltac:(oh)). cbn [app] in H0, H1. split.
  - wbody. w HS. apply wpt_b_call. wbody. w HS. apply (kind_some c t u _ _ _ k Ht Hu). w HS. wbody.
    apply wpt_b_call. wbody. apply wpt_b_call. wbody. w HS.
    eapply W_ok; [exact H0|]. intros x Hx. w HS. destruct (is_bind_ident x); cbn [negb andb].
    + w HS. w HS. w HS. w HS. wbody. w HS. w HS. w HS. w HS. w HS. now apply value_is_false.
    + w HS. w HS. cbv beta iota. repeat (apply wpt_ret; cbv beta iota). exact Logic.I.
  - wbody. w HS. apply (kind_some c t u _ _ _ k Ht Hu). eapply W_ok; [exact H1|]. intros x Hx. w HS. w HS. apply okq_intro. red. cbn. now rewrite Hx.
Qed.
Lemma sem_forleft c ts a : starts 17 c ts -> (forall b, ME 17 (with_in b c) ts a) -> target_ok (c_strict c) a ->
  not_first [VPunct PBraceOpen; VPunct PBracketOpen] ts -> PForLeft c ts a.
Proof.
  intros Hst H Hok Hnf s rest Hs.
  assert (N3 : t_value s <> VPunct PSemiColon) by (destruct Hs as [->| ->]; discriminate).
  assert (H0 : W (body _ (NExpr (with_in false c))) (ts ++ s :: rest) (okq (isb a) (s :: rest))).
  { assert (HM : ME 0 (with_in false c) ts a).
    { apply (ME_le D st full HS 16 0); [lia|lia|eapply starts_le; [|exact Hst]; lia|]. apply PL_P16; [exact Hst|exact (H false)]. }
    apply HM. cbn [stops]. unfold jn. destruct Hs as [->| ->]; cbn; lia. }
  assert (H1 : W (body _ (NLeftHandSide c)) (ts ++ s :: rest) (okq (isb a) (s :: rest))).
  { pose proof (H (c_in c)) as HM. rewrite with_in_same in HM. apply (PL_read D st full c ts a (s :: rest) HM).
    - cbn [stops]. unfold jn. destruct Hs as [->| ->]; try destruct (c_in c); lia.
    - apply value_is_false. destruct Hs as [->| ->]; discriminate. }
  destruct Hst as (u & us & -> & Hu & _). cbn [app] in *. pose proof (fexp_not_end _ _ _ Hu) as [N _].
  assert (Hu' : fexp 17 c (t_value u) = true) by exact Hu. split.
  - wbody. w HS. apply wpt_b_call. wbody. w HS. apply (kind_none c u _ _ _ 17 Hu). w HS. eapply wpt_conseq; [exact H0|].
    intros r ts' (-> & x & -> & Hx). w HS. now apply value_is_false.
  - wbody. w HS. apply (kind_none c u _ _ _ 17 Hu). w HS.
    assert (HE : W (let? e := pcall (NLeftHandSide c) in ofres (early_errors_left_hand_side_expr c e);? pret e) (u :: us ++ s :: rest)
       (okq (isb a) (s :: rest))).
    { eapply W_ok; [exact H1|]. intros x Hx. eapply wpt_b_ofres; [apply target_check; now rewrite Hx|]. w HS. now apply okq_intro. }
    cbn [not_first In] in Hnf. destruct (t_value u) as [| |[]| | | |]; try exact HE; exfalso; intuition.
Qed.

Lemma for_head {A : Set} c us o (k : bool -> prg A) Q : pu PParenOpen o ->
  W (k false) us Q -> W (let? a := (if c_await c then maybe_consume (VKeyword KAwait) else pret false) in
    consume_assert (VPunct PParenOpen);? k a) (o :: us) Q.
Proof. intros Ho H. tokval. destruct (c_await c); w HS; w HS; exact H. Qed.

Lemma hd_app_cons (ts us : list token) t : exists u vs, ts ++ t :: us = u :: vs.
Proof. destruct ts; cbn; eauto. Qed.

Lemma sem_for nx c t o is i s1 es e s2 us u cl ts b : kw KFor t -> pu PParenOpen o -> PForInit c is i ->
  pu PSemiColon s1 -> POptE (with_in true c) es e -> pu PSemiColon s2 -> POptE (with_in true c) us u -> pu PParenClose cl ->
  PStmt nx c ts b -> PStmt nx c (t :: o :: is ++ s1 :: es ++ s2 :: us ++ cl :: ts) (SFor z i e u b).
Proof.
  intros Ht Ho Hi Hs1 He Hs2 Hu Hc Hb rest Hr. unfold kw in Ht. nrm. wbody. w HS. rewrite Ht. w HS. wbody. w HS. w HS.
  apply (for_head c); [exact Ho|]. tokval. specialize (Hi s1 (es ++ s2 :: us ++ cl :: ts ++ rest) Hs1).
  assert (HF : W (try_parse_for c (tstart t) false) (is ++ s1 :: es ++ s2 :: us ++ cl :: ts ++ rest) (okq (someb (SFor z i e u b)) rest)).
  { unfold try_parse_for. eapply wpt_b_ok_try; [exact Hi|]. intros i' Hi'. w HS. cbn [negb].
    apply (opte_read (with_in true c) PSemiColon es e s2 _ _ _ He Hs2); [cbn; auto|]. intros e' He'.
    apply (opte_read (with_in true c) PParenClose us u cl _ _ _ Hu Hc); [cbn; auto|]. intros u' Hu'.
    eapply W_ok; [apply (Hb rest Hr)|]. intros b' Hb'. w HS. w HS. apply okq_intro. unfold someb. cbn. now rewrite Hi', He', Hu', Hb'. }
  destruct (hd_app_cons is (es ++ s2 :: us ++ cl :: ts ++ rest) s1) as (v & vs & E). rewrite E in *. w HS.
  apply wpt_bind. eapply wpt_conseq; [exact HF|]. intros r ts' (-> & [x|] & -> & Hx); [|discriminate Hx]. w HS. apply okq_intro.
  unfold someb in Hx. cbn in Hx. red. congruence.
Qed.

Lemma for_left c start (asy : bool) ls l n us (Q : result node perr -> list token -> Prop) : ord_hd ls -> PForLeft c ls l -> t_value n = VKeyword KIn \/ t_value n = VKeyword KOf ->
  (forall l', bare l' = l ->
     W (match t_value n with
        | VKeyword KOf => pcall (NForOf c start l' asy)
        | VKeyword KIn =>
          if asy then let? span := span_from start in perror (syntax_error msg_for_await span)
          else pcall (NForIn c start l')
        | _ => let? t := consume in perror (unexpected_token t)
        end : prg node) (n :: us) Q) ->
  W (let? start_token := current in
     let? o := try_parse_for c start asy in
     match o with
     | Some stmt => pret stmt
     | None => pop (ORewind start_token);? pcall (NForInOf c start asy)
     end) (ls ++ n :: us) Q.
Proof.
  intros Hols Hl Hn Hk. destruct (Hl n us Hn) as [H1 H2].
  assert (Ho : ord_hd (ls ++ n :: us)) by (apply ord_app; [exact Hols|oh]). destruct (hd_app_cons ls us n) as (v & vs & E). rewrite E in *. w HS.
  apply wpt_sfx. intros Hsf. apply wpt_bind. unfold try_parse_for. apply wpt_b_try. eapply wpt_conseq; [exact H1|].
  assert (HR : forall ts', W (pop (ORewind v);? pcall (NForInOf c start asy)) ts' Q).
  { intros ts'. eapply (wpt_b_rewind D st full HS); [oh|exact Hsf|]. w HS. wbody. eapply W_ok; [exact H2|]. intros l' El. w HS. now apply Hk. }
  intros [x|e] ts' Hr.
  - apply wpt_b_maybe_no; [exact Hr|]. cbn [negb]. w HS. apply HR.
  - w HS. apply HR.
Qed.

Lemma in_read {A : Set} c n es e cl us (k : node -> prg A) Q (v : tvalue) : t_value n = v -> opener v = false -> ME 0 c es e -> pu PParenClose cl ->
  (forall x, bare x = e -> W (k x) us Q) ->
  W (consume_assert v;? let? x := pcall (NExpr c) in consume_assert (VPunct PParenClose);? k x) (n :: es ++ cl :: us) Q.
Proof.
  intros Hn Hov H Hc Hk. tokval. apply wpt_b_assert; [exact HS|exact Hn|cbn [clear]; rewrite Hn, Hov; discriminate|]. eapply W_ok; [apply (H (cl :: us)); stp|]. intros x Hx. w HS. now apply Hk.
Qed.

Lemma sem_for_in nx c t o ls l n es e cl ts b : kw KFor t -> pu PParenOpen o -> ord_hd ls -> PForLeft c ls l -> kw KIn n ->
  ME 0 (with_in true c) es e -> pu PParenClose cl -> PStmt nx c ts b ->
  PStmt nx c (t :: o :: ls ++ n :: es ++ cl :: ts) (SForIn z l e b).
Proof.
  intros Ht Ho Hols Hl Hn He Hc Hb rest Hr. unfold kw in Ht, Hn. nrm. wbody. w HS. rewrite Ht. w HS. wbody. w HS. w HS.
  apply (for_head c); [exact Ho|]. apply (for_left c _ false ls l n _ _ Hols Hl); [now left|]. intros l' El. rewrite Hn. w HS. wbody.
  apply (in_read (with_in true c) n es e cl _ _ _ _ Hn eq_refl He Hc). intros x Hx. eapply W_ok; [apply (Hb rest Hr)|]. intros y Hy. w HS. w HS.
  apply okq_intro. red. cbn. now rewrite El, Hx, Hy.
Qed.
Lemma sem_for_of nx c t o ls l n es e cl ts b : kw KFor t -> pu PParenOpen o -> ord_hd ls -> PForLeft c ls l -> kw KOf n ->
  ME 0 (with_in true c) es e -> pu PParenClose cl -> PStmt nx c ts b ->
  PStmt nx c (t :: o :: ls ++ n :: es ++ cl :: ts) (SForOf z l e b false).
Proof.
  intros Ht Ho Hols Hl Hn He Hc Hb rest Hr. unfold kw in Ht, Hn. nrm. wbody. w HS. rewrite Ht. w HS. wbody. w HS. w HS.
  apply (for_head c); [exact Ho|]. apply (for_left c _ false ls l n _ _ Hols Hl); [now right|]. intros l' El. rewrite Hn. w HS. wbody.
  apply (in_read (with_in true c) n es e cl _ _ _ _ Hn eq_refl He Hc). intros x Hx. eapply W_ok; [apply (Hb rest Hr)|]. intros y Hy. w HS. w HS.
  apply okq_intro. red. cbn. now rewrite El, Hx, Hy.
Qed.
Lemma sem_for_await nx c t w o ls l n es e cl ts b : c_await c = true -> kw KFor t -> kw KAwait w -> pu PParenOpen o -> ord_hd ls -> PForLeft c ls l -> kw KOf n ->
  ME 0 (with_in true c) es e -> pu PParenClose cl -> PStmt nx c ts b ->
  PStmt nx c (t :: w :: o :: ls ++ n :: es ++ cl :: ts) (SForOf z l e b true).
Proof.
  intros Ha Ht Hw Ho Hols Hl Hn He Hc Hb rest Hr. unfold kw in Ht, Hn, Hw. nrm. wbody. w HS. rewrite Ht. w HS. wbody. w HS. w HS.
  rewrite Ha. w HS. unfold pu in Ho. w HS. apply (for_left c _ true ls l n _ _ Hols Hl); [now right|]. intros l' El. rewrite Hn. w HS. wbody.
  apply (in_read (with_in true c) n es e cl _ _ _ _ Hn eq_refl He Hc). intros x Hx. eapply W_ok; [apply (Hb rest Hr)|]. intros y Hy. w HS. w HS.
  apply okq_intro. red. cbn. now rewrite El, Hx, Hy.
Qed.

End Fwd.
