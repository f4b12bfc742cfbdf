(** * Fwd5: the parser on written methods, classes and arrow functions. *)

From Verif Require Import Base Tokens PeekReader CharReader Lexer LexSpec Ast Prog TokChain ParseState Parser
  ParseRuns Source Stream AstSpec StaticSem Layout Bare Written Starts Forward Fwd1 Fwd2 Fwd3 Fwd4.
Local Open Scope string_scope.
Local Open Scope list_scope.
Local Open Scope prog_scope.

Section Fwd.
Context {PF : Platform}.
Variable D : str.
Variable st : lexer_state.
Variable full : list token.
Hypothesis HS : setting D st full.

Notation W := (wpt D st full).
Notation P := (P D st full).
Notation ME := (ME D st full).
Notation PName := (PName D st full).
Notation PParams := (PParams D st full).
Notation PBind := (PBind D st full).
Notation PBody := (PBody D st full).
Notation PProp := (PProp D st full).

(** ** Methods *)

(** parse_method_definition, after an optional [static]. *)
Definition method_rest (c : ctx) (is_static : bool) : prg node :=
  let? t := current in
  let? paren := peek_matches (VPunct PParenOpen) in
  let? nl := followed_by_new_line in
  let other :=
    let? span_start := position in
    let? name := pcall (NPropertyName c) in
    pcall (NMethod c span_start is_static name MKMethod) in
  match t_value t with
  | VPunct PStar => pcall (NGeneratorMethod c is_static)
  | VKeyword KGet => if negb paren then pcall (NAccessor c is_static MKGet) else other
  | VKeyword KSet => if negb paren then pcall (NAccessor c is_static MKSet) else other
  | VKeyword KAsync => if negb nl then pcall (NAsyncMethod c is_static) else other
  | _ => other
  end.

Definition PMethod (s : bool) (c : ctx) (ts : list token) (m : node) : Prop :=
  forall rest, ord_hd rest -> W (method_rest c s) (ts ++ rest) (okq (isb m) rest).

Lemma directives_bare b : body_directives (bare b) = body_directives b.
Proof. now destruct b. Qed.

Lemma method_read c start s n' n k o ps p r bs ds l rest : bare n' = n -> pu PParenOpen o ->
  PParams (with_yield false c) ps p r -> PBody c bs (Body z ds l) -> early_ok k p r ds -> ord_hd rest ->
  W (body _ (NMethod c start s n' k)) (o :: ps ++ bs ++ rest)
    (okq (isb (Method z n k (FormalParameters z p r) (Body z ds l) (c_yield c) (c_await c) s)) rest).
Proof.
  intros Hn Ho Hp Hb He Hrest. pose proof (params_read D st full HS (with_yield false c) o ps p r (bs ++ rest) Ho Hp) as HP.
  destruct Hp as [[Hs1 Hs2] _]. wbody. eapply W_ok; [exact HP|]. intros p' Hp'. eapply W_ok; [apply (Hb rest); oh|]. intros b' Hb'.
  eapply wpt_b_ofres with (b := tt).
  - red in Hp', Hb'. replace (body_directives b') with ds by (now rewrite <- directives_bare, Hb').
    apply (early_read k p r _ p' He Hs1 Hs2 Hp').
  - w HS. w HS. apply okq_intro. red. cbn. now rewrite Hn, Hp', Hb'.
Qed.

Lemma method_other c s k ns n o us Q : name_start c ns -> PName c ns n -> pu PParenOpen o -> not_first k ns -> In (VKeyword KAsync) k ->
  (forall start n', bare n' = n -> W (body _ (NMethod c start s n' MKMethod)) (o :: us) Q) ->
  W (method_rest c s) (ns ++ o :: us) Q.
Proof.
  intros Hn Hname Ho Hnf Hin Hk. pose proof (Hname (o :: us)) as HP. tokval. unfold method_rest.
  destruct Hn as [(y & -> & Hy & Hb)|(b & u & vs & -> & Hb & Hu)]; cbn [app] in *.
  - w HS. w HS. w HS.
    assert (E : W (let? span_start := position in
      let? name := pcall (NPropertyName c) in
      pcall (NMethod c span_start s name MKMethod)) (y :: o :: us) Q).
    { w HS. eapply W_ok; [exact HP|]. intros n' Hn'. w HS. now apply Hk. }
    assert (E2 : t_value y <> VKeyword KAsync) by (intros E2; apply Hnf; now rewrite E2).
    destruct (t_value y) as [[]| |[]| | | |]; try discriminate Hy; try exact E; congruence.
  - w HS. w HS. w HS. rewrite Hb. w HS. eapply W_ok; [exact HP|]. intros n' Hn'. w HS. now apply Hk.
Qed.

Lemma sem_method s c ns n o ps p r bs ds l : c_yield c = false -> c_await c = false ->
  name_start c ns -> PName c ns n -> not_first [VKeyword KAsync] ns -> pu PParenOpen o -> PParams c ps p r ->
  PBody c bs (Body z ds l) -> method_ok p r ds ->
  PMethod s c (ns ++ o :: ps ++ bs) (Method z n MKMethod (FormalParameters z p r) (Body z ds l) false false s).
Proof.
  intros Hy Ha Hns Hn Hnf Ho Hp Hb Hm rest Hrest. nrm. eapply method_other; [exact Hns|exact Hn|exact Ho|exact Hnf|now left|].
  intros start n' Hn'.
  pose proof (method_read c start s n' n MKMethod o ps p r bs ds l rest Hn' Ho) as HR.
  rewrite (with_yield_same c Hy), Hy, Ha in HR. now apply HR.
Qed.

Lemma fname_paren c ns o us : name_start c ns -> pu PParenOpen o ->
  exists t vs, ns ++ o :: us = t :: vs /\ fname (t_value t) = true.
Proof.
  intros [(y & -> & Hy & Hb)|(b & u & vs & -> & Hb & Hu)] Ho; cbn [app]; eexists _, _; split; try reflexivity; [exact Hy|].
  now rewrite Hb.
Qed.

Lemma accessor_read c s k kt kk ns n o ps p r bs ds l rest : c_yield c = false -> c_await c = false ->
  name_start c ns -> PName c ns n -> pu PParenOpen o -> PParams c ps p r ->
  PBody c bs (Body z ds l) -> early_ok kk p r ds -> t_value kt = VKeyword k ->
  (k = KGet /\ kk = MKGet \/ k = KSet /\ kk = MKSet) -> ord_hd rest ->
  W (method_rest c s) (kt :: ns ++ o :: ps ++ bs ++ rest)
    (okq (isb (Method z n kk (FormalParameters z p r) (Body z ds l) false false s)) rest).
Proof.
  intros Hy Ha Hns Hn Ho Hp Hb He Hk Hkk Hrest. pose proof (Hn (o :: ps ++ bs ++ rest)) as HP.
  destruct (fname_paren c ns o (ps ++ bs ++ rest) Hns Ho) as (t & vs & E & Ht).
  assert (HA : W (body _ (NAccessor c s kk)) (kt :: ns ++ o :: ps ++ bs ++ rest)
    (okq (isb (Method z n kk (FormalParameters z p r) (Body z ds l) false false s)) rest)).
  { wbody. w HS. w HS. eapply W_ok; [exact HP|]. intros n' Hn'. w HS.
    pose proof (method_read c (tstart kt) s n' n kk o ps p r bs ds l rest Hn' Ho) as HR.
    rewrite (with_yield_same c Hy), Hy, Ha in HR. now apply HR. }
  rewrite E in *. unfold method_rest. w HS. w HS. w HS. rewrite Hk. 
  destruct Hkk as [[-> ->]|[-> ->]]; cbn [negb]; w HS; exact HA.
Qed.

Lemma sem_getter s c k ns n o cl bs b : c_yield c = false -> c_await c = false -> kw KGet k ->
  name_start c ns -> PName c ns n -> pu PParenOpen o -> pu PParenClose cl -> PBody c bs b -> (exists ds l, b = Body z ds l) ->
  PMethod s c (k :: ns ++ o :: cl :: bs) (Method z n MKGet (FormalParameters z [] None) b false false s).
Proof.
  intros Hy Ha Hk Hns Hn Ho Hc Hb (ds & l & ->) rest Hrest. nrm.
  change (o :: cl :: bs ++ rest) with (o :: [cl] ++ bs ++ rest).
  eapply accessor_read with (k := KGet) (ds := ds); eauto; [|now split].
  now apply sem_params_end.
Qed.
Lemma sem_setter s c k ns n o ps p cl bs ds l : c_yield c = false -> c_await c = false -> kw KSet k ->
  name_start c ns -> PName c ns n -> pu PParenOpen o -> head (fpat c) ps -> PBind c ps p -> pu PParenClose cl ->
  PBody c bs (Body z ds l) -> (use_strict ds = true -> simple_params (FormalParameters z [p] None)) ->
  PMethod s c (k :: ns ++ o :: ps ++ cl :: bs) (Method z n MKSet (FormalParameters z [p] None) (Body z ds l) false false s).
Proof.
  intros Hy Ha Hk Hns Hn Ho Hh Hp Hc Hb Hu rest Hrest. nrm.
  replace (o :: ps ++ cl :: bs ++ rest) with (o :: (ps ++ [cl]) ++ bs ++ rest) by (now rewrite <- app_assoc).
  eapply accessor_read with (k := KSet) (ds := ds); eauto.
  - now apply sem_params_last.
  - split; [|exact Hu]. eauto.
Qed.
Lemma sem_generator_method s c t ns n o ps p r bs ds l :
  pu PStar t -> name_start c ns -> PName c ns n -> pu PParenOpen o -> PParams (with_await false (with_yield false c)) ps p r ->
  PBody (with_await false (with_yield true c)) bs (Body z ds l) -> method_ok p r ds ->
  PMethod s c (t :: ns ++ o :: ps ++ bs) (Method z n MKMethod (FormalParameters z p r) (Body z ds l) true false s).
Proof.
  intros Ht Hns Hn Ho Hp Hb Hm rest Hrest. pose proof (Hn (o :: ps ++ bs ++ rest)) as HP. tokval. nrm.
  destruct (fname_paren c ns o (ps ++ bs ++ rest) Hns Ho) as (u & vs & E & Hu).
  unfold method_rest. w HS. apply wpt_b_peek_matches; [exact HS|clr|]. apply wpt_b_new_line; [exact HS|clr|]. rewrite Ht. w HS. wbody. w HS. w HS.
  eapply W_ok; [exact HP|]. intros n' Hn'. w HS.
  apply (method_read (with_await false (with_yield true c)) (tstart t) s n' n MKMethod o ps p r bs ds l rest); auto.
Qed.
Lemma sem_async_method s c t gt g ns n o ps p r bs ds l :
  kw KAsync t -> (forall t, first (gt ++ ns) None = Some t -> t_fol t = false) -> star g gt ->
  name_start c ns -> PName c ns n -> pu PParenOpen o -> PParams (with_await true (with_yield false c)) ps p r ->
  PBody (with_await true (with_yield g c)) bs (Body z ds l) -> method_ok p r ds ->
  PMethod s c (t :: gt ++ ns ++ o :: ps ++ bs) (Method z n MKMethod (FormalParameters z p r) (Body z ds l) g true s).
Proof.
  intros Ht Hfol Hg Hns Hn Ho Hp Hb Hm rest Hrest. pose proof (Hn (o :: ps ++ bs ++ rest)) as HP. unfold kw in Ht. nrm.
  destruct (fname_paren c ns o (ps ++ bs ++ rest) Hns Ho) as (u & vs & E & Hu).
  assert (Hnl : opt_fol (hdo (gt ++ ns ++ o :: ps ++ bs ++ rest)) = false).
  { destruct gt as [|x gt].
    - cbn [app] in *. destruct Hns as [(y & -> & _)|(b & v & us & -> & _)]; cbn; apply Hfol; reflexivity.
    - cbn. apply Hfol. reflexivity. }
  unfold method_rest. w HS. apply wpt_b_peek_matches; [exact HS|clr|]. apply wpt_b_new_line; [exact HS|clr|]. cbn [tl]. rewrite Hnl, Ht. cbn [negb]. w HS. wbody. w HS. w HS.
  apply (star_read D st full HS g); [exact Hg| |].
  - rewrite E. cbn [hdo hd_error]. apply value_is_false. intros E1. rewrite E1 in Hu. discriminate Hu.
  - eapply W_ok; [exact HP|]. intros n' Hn'. w HS.
    apply (method_read (with_await true (with_yield g c)) (tstart t) s n' n MKMethod o ps p r bs ds l rest); auto.
Qed.

Definition method_start (ts : list token) : Prop :=
  exists t u us, ts = t :: u :: us /\ fmethod (t_value t) = true /\ t_value u <> VPunct PColon /\
      (t_value u = VPunct PParenOpen \/
       In (t_value t) [VPunct PStar; VPunct PBraceOpen; VKeyword KAsync; VKeyword KGet; VKeyword KSet]).

Lemma sem_prop_method c ts m : method_start ts -> PMethod false (member_ctx false false c) ts m -> not_first [VPunct PBraceOpen] ts ->
  PProp c ts (DefMethod m).
Proof.
  intros (t & u & us & -> & Ht & Hu & Hor) H Hnf rest Hsep. assert (Hr : ord_hd rest) by (destruct Hsep as (q & qs & -> & Hq); oh). pose proof (H rest Hr) as HM. cbn [app] in *.
  assert (N1 : t_value t <> VPunct PBraceOpen) by (intros E; apply Hnf; now left).
  wbody. w HS. vis. w HS. vis. unfold is_object_method_definition. w HS. w HS. w HS. w HS. w HS. apply wpt_b_peek_matches; [exact HS|clr|]. w HS. cbn [tl hdo hd_error].
  assert (E : match t_value t with
          | VPunct PStar | VPunct PBraceOpen | VKeyword KStatic => true
          | VKeyword KAsync => true
          | VKeyword KGet | VKeyword KSet => true
          | _ => value_is (VPunct PParenOpen) (Some u)
          end = true).
  { destruct Hor as [E|E].
    - rewrite (value_is_true _ _ E). destruct (t_value t) as [[]| |[]| | | |]; reflexivity.
    - cbn [In] in E. destruct E as [E|[E|[E|[E|[E|[]]]]]]; rewrite <- E; reflexivity. }
  rewrite E. eapply W_ok with (P := isb m) (rest := rest).
  - wbody. cbn [c_static_method with_static_method_allowed with_super_call_allowed]. apply wpt_b_pret. exact HM.
  - intros x Hx. w HS. apply okq_intro. red. cbn. now rewrite Hx.
Qed.

Lemma sem_prop_computed_method c o ts a cl po ps p r bs ds l : c_yield c = false -> c_await c = false ->
  pu PBraceOpen o -> starts 1 c ts -> ME 1 c ts a -> pu PBraceClose cl -> pu PParenOpen po -> PParams c ps p r ->
  PBody c bs (Body z ds l) -> method_ok p r ds ->
  PProp c (o :: ts ++ cl :: po :: ps ++ bs)
      (DefMethod (Method z (NameComputed a) MKMethod (FormalParameters z p r) (Body z ds l) false false false)).
Proof.
  intros Hy Ha Ho (u & us & -> & Hu & _) H Hc Hpo Hp Hb Hm rest Hsep.
  assert (Hr : ord_hd rest) by (destruct Hsep as (q & qs & -> & Hq); oh).
  pose proof (sem_name_computed D st full HS c o (u :: us) a cl Ho H Hc (po :: ps ++ bs ++ rest)) as HP.
  cbn [app] in HP. rewrite <- app_assoc in HP. cbn [app] in HP. pose proof Hpo as Hpo'. tokval. nrm. wbody. w HS. vis. w HS. w HS. wbody. w HS. eapply W_ok; [exact HP|].
  intros n' Hn'. w HS. eapply W_ok.
  - pose proof (method_read c (tstart o) false n' (NameComputed a) MKMethod po ps p r bs ds l rest Hn' Hpo') as HR.
    rewrite (with_yield_same c Hy), Hy, Ha in HR. now apply HR.
  - intros m Hm'. w HS. apply okq_intro. red. cbn. now rewrite Hm'.
Qed.

(** ** Classes *)

Definition PHeritage (c : ctx) (ts : list token) (h : option node) : Prop :=
  (ts = [] /\ h = None) \/ (exists t us a, ts = t :: us /\ h = Some a /\ t_value t = VKeyword KExtends /\ ME 17 c us a).
Definition PMembers (b : bool) (c : ctx) (ts : list token) (l : list node) : Prop :=
  forall acc rest, ord_hd rest -> W (body _ (NClassBodyLoop c b acc)) (ts ++ rest) (okq (fun l' => map bare l' = map bare acc ++ l) rest).

Lemma sem_members_end b c t : pu PBracketClose t -> PMembers b c [t] [].
Proof. intros H acc rest Hrest. tokval. wbody. cbn [app]. w HS. w HS. w HS. apply okq_intro. now rewrite app_nil_r. Qed.
Lemma sem_members_semi b c t ts l : pu PSemiColon t -> PMembers b c ts l -> PMembers b c (t :: ts) l.
Proof. intros H Hl acc rest Hrest. tokval. cbn [app]. wbody. w HS. w HS. w HS. w HS. now apply Hl. Qed.

Lemma members_elem b c acc t us ms m l rest : fmethod (t_value t) = true ->
  W (body _ (NMethodDefinition (member_ctx (b && says_constructor t) true c))) (t :: us) (okq (isb m) (ms ++ rest)) ->
  PMembers b c ms l -> ord_hd rest ->
  W (body _ (NClassBodyLoop c b acc)) (t :: us) (okq (fun l' => map bare l' = map bare acc ++ m :: l) rest).
Proof.
  intros Ht H Hl Hrest. wbody. w HS. w HS. eapply W_ok with (P := isb m) (rest := ms ++ rest).
  - wbody. apply wpt_b_name_or_literal. w HS. exact H.
  - intros x Hx. w HS. eapply wpt_conseq; [apply (Hl (acc ++ [x])); oh|].
    intros r0 ts' (-> & l' & -> & E1). apply okq_intro. rewrite E1, map_app, <- app_assoc. cbn. now rewrite Hx.
Qed.

Lemma sem_members_more b c ts m us l : method_start ts ->
  (forall t, first ts None = Some t -> PMethod false (member_ctx (b && says_constructor t) true c) ts m) ->
  ord_hd us -> PMembers b c us l -> PMembers b c (ts ++ us) (m :: l).
Proof.
  intros (t & u & vs & -> & Ht & Hu & Hor) H Hous Hl acc rest Hrest. pose proof (H t eq_refl (us ++ rest) (ord_app _ _ Hous Hrest)) as HM. rewrite <- app_assoc. cbn [app] in *.
  apply (members_elem b c acc t _ us m l rest Ht); [|exact Hl|exact Hrest].
  wbody. cbn [c_static_method with_static_method_allowed with_super_call_allowed member_ctx]. w HS.
  apply wpt_b_peek_matches; [exact HS|clr|]. cbn [tl hdo hd_error]. destruct Hor as [E|E].
  - rewrite (value_is_true _ _ E). cbn [negb]. w HS. exact HM.
  - assert (E1 : t_value t <> VKeyword KStatic).
    { intros E1. rewrite E1 in E. cbn [In] in E. destruct E as [E|[E|[E|[E|[E|[]]]]]]; discriminate E. }
    destruct (value_is (VPunct PParenOpen) (Some u)); cbn [negb].
    + w HS. exact HM.
    + w HS. exact HM.
Qed.
Lemma sem_members_static b c s ts m us l : kw KStatic s -> method_start ts ->
  PMethod true (member_ctx false true c) ts m -> ord_hd us -> PMembers b c us l -> PMembers b c (s :: ts ++ us) (m :: l).
Proof.
  intros Hs (t & u & vs & -> & Ht & Hu & Hor) H Hous Hl acc rest Hrest. pose proof (H (us ++ rest) (ord_app _ _ Hous Hrest)) as HM. tokval. nrm. cbn [app] in HM.
  apply (members_elem b c acc s _ us m l rest); [now rewrite Hs| |exact Hl|exact Hrest].
  unfold says_constructor. rewrite Hs, Bool.andb_false_r.
  wbody. cbn [c_static_method with_static_method_allowed with_super_call_allowed member_ctx]. w HS. w HS. w HS. exact HM.
Qed.

Lemma tail_read c hs h o ms l rest : PHeritage c hs h -> pu PBracketOpen o -> PMembers (is_some h) c ms l -> ord_hd rest ->
  W (body _ (NClassTail c)) (hs ++ o :: ms ++ rest)
    (okq (fun p => option_map bare (fst p) = h /\ map bare (snd p) = l) rest).
Proof.
  intros Hh Ho Hl Hrest. tokval. wbody.
  assert (Hk : forall h', option_map bare h' = h ->
    W (let? body := pcall (NClassBody c (is_some h')) in pret (h', body)) (o :: ms ++ rest)
      (okq (fun p => option_map bare (fst p) = h /\ map bare (snd p) = l) rest)).
  { intros h' E. replace (is_some h') with (is_some h) by (rewrite <- E; now destruct h'). eapply W_ok with (P := fun l' => map bare l' = l) (rest := rest).
    - wbody. w HS. w HS. apply (Hl [] rest); oh.
    - intros l' Hl'. w HS. apply okq_intro. auto. }
  destruct Hh as [[-> ->]|(t & us & a & -> & -> & Ht & H)]; cbn [app].
  - w HS. w HS. now apply Hk.
  - w HS. w HS. eapply W_ok; [apply (PL_read D st full c us a (o :: ms ++ rest) H); [stp|vis; reflexivity]|].
    intros x Hx. apply Hk. cbn. now rewrite Hx.
Qed.

Lemma heritage_not_name c hs h o us : PHeritage c hs h -> pu PBracketOpen o ->
  is_identifier_token (hdo (hs ++ o :: us)) (keyword_context c) = false.
Proof.
  intros Hh Ho. unfold pu in Ho. destruct Hh as [[-> ->]|(t & us' & a & -> & -> & Ht & H)]; cbn [app hdo hd_error is_identifier_token];
    [now rewrite Ho|now rewrite Ht].
Qed.

Lemma sem_class c t nt x hs h o ms l :
  kw KClass t -> optname (with_strict true c) x nt -> PHeritage (with_strict true c) hs h ->
  pu PBracketOpen o -> PMembers (is_some h) (with_strict true c) ms l ->
  ME 19 c (t :: nt ++ hs ++ o :: ms) (EClass z x h l).
Proof.
  intros Ht Hx Hh Ho Hl rest Hstop. assert (Hr : ord_hd rest) by oh. pose proof (tail_read (with_strict true c) hs h o ms l rest Hh Ho Hl Hr) as HT.
  pose proof (heritage_not_name (with_strict true c) hs h o (ms ++ rest) Hh Ho) as HN. tokval. nrm.
  change (nt_of 19 c) with (NPrimary c). wbody. w HS. rewrite Ht. w HS. set (c' := with_strict true c) in *. wbody. w HS. w HS.
  assert (Hk : forall i', option_map bare_ident i' = x ->
    W (let? ' (super_class, body) := pcall (NClassTail c') in
       let? span := span_from (tstart t) in
       pret (EClass span i' super_class body)) (hs ++ o :: ms ++ rest) (okq (isb (EClass z x h l)) rest)).
  { intros i' Hi'. eapply W_ok; [exact HT|]. intros [h' l'] [Eh El]. w HS. w HS. apply okq_intro. red. cbn in *. now rewrite Hi', Eh, El. }
  destruct Hx as [[-> ->]|(y & u & -> & -> & Hy)]; cbn [app].
  - apply wpt_b_is_identifier. rewrite HN. w HS. now apply Hk.
  - pose proof (ident_read D st full HS c' y u (hs ++ o :: ms ++ rest) Hy) as HI. apply name_isname in Hy.
    w HS. rewrite <- isname_ident, Hy. w HS. eapply wpt_b_ok_try; [exact HI|]. intros i Hi. w HS. apply Hk. cbn. now rewrite Hi.
Qed.

(** ** Bodies of arrow functions *)

Definition PConcise (c : ctx) (ts : list token) (b : node) : Prop :=
  forall rest, stops 1 c rest -> W (body _ (NConciseBody c)) (ts ++ rest) (okq (isb b) rest).

Lemma sem_concise_body c ts b : head (feq (VPunct PBracketOpen)) ts -> PBody c ts b -> PConcise c ts b.
Proof.
  intros (t & us & -> & Ht) H rest Hstop. unfold feq in Ht. destruct tvalue_eq_dec as [E|]; [|discriminate].
  pose proof (H rest ltac:(oh)) as HB. cbn [app] in *. wbody. w HS. w HS. exact HB.
Qed.
Lemma sem_concise c ts a : starts 1 c ts -> ME 1 c ts a -> not_first [VPunct PBracketOpen] ts -> PConcise c ts a.
Proof.
  intros (t & us & -> & Ht & _) H Hnf rest Hs. pose proof (H rest Hs) as HB. cbn [app] in *.
  assert (E : t_value t <> VPunct PBracketOpen) by (intros E; apply Hnf; now left).
  wbody. w HS. w HS. exact HB.
Qed.

End Fwd.
