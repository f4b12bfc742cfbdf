(** * Fwd4: the parser on written object literals, patterns, functions, methods and classes. *)

From Verif Require Import Base Tokens PeekReader CharReader Lexer LexSpec Ast Prog TokChain ParseState Parser
  ParseRuns Source Stream AstSpec StaticSem Layout Bare Written Starts Forward Fwd1 Fwd2 Fwd3.
Local Open Scope string_scope.
Local Open Scope list_scope.
Local Open Scope prog_scope.

(** A comma or the end of a list. *)
Definition sep (close : punct) (rest : list token) : Prop :=
  exists t rest', rest = t :: rest' /\ (t_value t = VPunct PComma \/ t_value t = VPunct close).

(** Parameters. *)
Lemma names_bare p : params_names (bare p) = params_names p.
Proof.
  destruct p; try reflexivity. cbn [bare params_names]. f_equal.
  - induction bindings as [|b l IH]; [reflexivity|]. cbn [map flat_map]. rewrite IH. f_equal.
    destruct b; try reflexivity. cbn [bare]. match goal with |- context [bare ?q] => now destruct q end.
  - destruct rest as [q|]; [|reflexivity]. now destruct q.
Qed.
Lemma simple_bare p : simple_params (bare p) <-> simple_params p.
Proof.
  destruct p; try (cbn; tauto). cbn [bare simple_params]. destruct rest; [cbn; tauto|]. cbn [option_map].
  rewrite Forall_map. split; apply Forall_impl; intros b; destruct b; cbn; try tauto;
    match goal with |- context [bare ?q] => destruct q; cbn; try tauto end; match goal with o : option node |- _ => destruct o; cbn; tauto end.
Qed.
Lemma pat_shape_bare p : pat_shape (bare p) <-> pat_shape p.
Proof. now destruct p. Qed.
Lemma elem_shape_bare p : elem_shape (bare p) <-> elem_shape p.
Proof. destruct p; cbn; try tauto. apply pat_shape_bare. Qed.
Lemma shape_bare p : params_shape (bare p) -> params_shape p.
Proof.
  destruct p; cbn; try tauto. intros [H1 H2]. split.
  - rewrite Forall_map in H1. eapply Forall_impl; [|exact H1]. intros b. apply elem_shape_bare.
  - destruct rest as [q|]; [|exact Logic.I]. cbn in *. now apply pat_shape_bare.
Qed.

Definition early_ok (k : method_kind) (p : list node) (r : option node) (ds : list lit_string) : Prop :=
  match k with
  | MKMethod => method_ok p r ds
  | MKGet => p = [] /\ r = None
  | MKSet => (exists x, p = [x] /\ r = None) /\ (use_strict ds = true -> simple_params (FormalParameters z p r))
  end.
Lemma early_read k p r ds p' : early_ok k p r ds -> Forall elem_shape p -> optP pat_shape r ->
  bare p' = FormalParameters z p r ->
  match k with
  | MKMethod => early_errors_method p' ds
  | MKGet => early_errors_getter p'
  | MKSet => early_errors_setter p' ds
  end = Ok tt.
Proof.
  intros H Hp Hr E. assert (Hs : params_shape p') by (apply shape_bare; rewrite E; now split).
  destruct k; cbn [early_ok] in H.
  - apply (early_method_spec p' ds Hs). destruct H as [H1 H2]. split.
    + rewrite <- names_bare, E. exact H1.
    + intros Hu. apply simple_bare. rewrite E. auto.
  - apply (early_getter_spec p' Hs). destruct H as [-> ->]. destruct p'; try discriminate E. cbn [bare] in E.
    injection E as E1 E2. destruct bindings; [|discriminate]. destruct rest; [discriminate|]. eauto.
  - apply (early_setter_spec p' ds Hs). destruct H as [(x & -> & ->) H]. split.
    + destruct p'; try discriminate E. cbn [bare] in E. injection E as E1 E2. destruct bindings as [|y [|]]; try discriminate.
      destruct rest; [discriminate|]. eauto.
    + intros Hu. apply simple_bare. rewrite E. auto.
Qed.

Lemma with_yield_same c : c_yield c = false -> with_yield false c = c.
Proof. destruct c. cbn. now intros ->. Qed.

Section Fwd.
Context {PF : Platform}.
Variable D : str.
Variable st : lexer_state.
Variable full : list token.
Hypothesis HS : setting D st full.

Notation W := (wpt D st full).
Notation ME := (ME D st full).
Notation PName := (PName D st full).

(** ** Object literals *)

Definition PProps (c : ctx) (ts : list token) (l : list node) : Prop :=
  forall acc rest, ord_hd rest -> W (body _ (NObjectLoop c acc)) (ts ++ rest) (okq (fun l' => map bare l' = map bare acc ++ l) rest).
Definition PProp (c : ctx) (ts : list token) (a : node) : Prop :=
  forall rest, sep PBracketClose rest -> W (body _ (NPropertyDefinition c)) (ts ++ rest) (okq (isb a) rest).

Lemma sem_props_end c t : pu PBracketClose t -> PProps c [t] [].
Proof. intros H acc rest Hrest. tokval. wbody. cbn [app]. w HS. w HS. apply okq_intro. now rewrite app_nil_r. Qed.
Lemma sem_props_last c ts a t : head fprop ts -> PProp c ts a -> pu PBracketClose t -> PProps c (ts ++ [t]) [a].
Proof.
  intros (u & us & -> & Hu) H Ht acc rest Hrest. tokval. nrm. wbody. w HS.
  eapply W_ok; [apply (H (t :: rest)); exists t, rest; auto|]. intros x Hx. w HS.
  apply wpt_b_delim_close; [exact Ht|discriminate|].
  w HS. pose proof (sem_props_end c t Ht (acc ++ [x]) rest Hrest) as E. eapply wpt_conseq; [exact E|].
  intros r ts' (-> & l' & -> & Hl). apply okq_intro. rewrite Hl, map_app, app_nil_r. cbn. now rewrite Hx.
Qed.
Lemma sem_props_more c ts a t us l : head fprop ts -> PProp c ts a -> pu PComma t -> PProps c us l ->
  PProps c (ts ++ t :: us) (a :: l).
Proof.
  intros (u & vs & -> & Hu) H Ht Hl acc rest Hrest. tokval. nrm. wbody. w HS.
  eapply W_ok; [apply (H (t :: us ++ rest)); exists t, (us ++ rest); auto|]. intros x Hx. w HS.
  eapply wpt_b_delim_comma; [exact HS|exact Ht|].
  w HS. eapply wpt_conseq; [apply (Hl (acc ++ [x])); oh|].
  intros r ts' (-> & l' & -> & E). apply okq_intro. rewrite E, map_app, <- app_assoc. cbn. now rewrite Hx.
Qed.
Lemma sem_object c o ts l : pu PBracketOpen o -> PProps c ts l -> ME 19 c (o :: ts) (ELiteral z (LitObject l)).
Proof.
  intros Ho H rest Hs. tokval. cbn [app]. change (nt_of 19 c) with (NPrimary c). wbody. w HS. rewrite Ho. w HS. wbody. w HS. w HS.
  eapply W_ok; [apply (H [] rest); oh|]. intros x Hx. w HS. w HS. apply okq_intro. red. cbn. cbn in Hx. now rewrite Hx.
Qed.

Lemma sem_prop_short c x t : name c x t ->
  ~ In (t_value t) [VKeyword KStatic; VKeyword KAsync; VKeyword KGet; VKeyword KSet] -> PProp c [t] (DefIdentRef (id x)).
Proof.
  intros H Hn rest (s & rest' & -> & Hsep). cbn [app]. pose proof (ident_read D st full HS c x t (s :: rest') H) as HI.
  apply name_isname in H.
  assert (N1 : t_value s <> VPunct PColon) by (destruct Hsep as [E|E]; rewrite E; discriminate).
  assert (N2 : t_value s <> VPunct PParenOpen) by (destruct Hsep as [E|E]; rewrite E; discriminate).
  wbody. w HS. vis. w HS.
  assert (N3 : t_value t <> VPunct PBraceOpen) by (intros E; rewrite E in H; discriminate H).
  unfold is_object_method_definition. w HS. w HS. w HS. w HS. w HS. w HS. w HS.
  assert (E : match t_value t with
          | VPunct PStar | VPunct PBraceOpen | VKeyword KStatic => true
          | VKeyword KAsync => true
          | VKeyword KGet | VKeyword KSet => true
          | _ => false
          end = false).
  { destruct (t_value t) as [[]| |[]| | | |]; try reflexivity; try discriminate H; exfalso; apply Hn; cbn; auto. }
  cbn [negb orb]. rewrite E. eapply W_ok; [exact HI|]. intros i Hi. w HS. apply okq_intro. red. cbn. now rewrite Hi.
Qed.

Lemma named_read c start n' n t ts a rest : bare n' = n -> pu PColon t -> ME 1 c ts a -> sep PBracketClose rest ->
  W (body _ (NNamedDefinition c start n')) (t :: ts ++ rest) (okq (isb (DefNamed z n a)) rest).
Proof.
  intros Hn Ht H (s & rest' & -> & Hsep). tokval. wbody. w HS. change (NAssignment c) with (nt_of 1 c).
  eapply W_ok; [apply H; cbn [stops]; unfold jn; destruct Hsep as [->| ->]; lia|]. intros x Hx. w HS. w HS. apply okq_intro. red. cbn. now rewrite Hn, Hx.
Qed.

Definition name_start (c : ctx) (ts : list token) : Prop :=
  (exists t, ts = [t] /\ fname (t_value t) = true /\ t_value t <> VPunct PBraceOpen) \/
  (exists o u us, ts = o :: u :: us /\ t_value o = VPunct PBraceOpen /\ fexp 1 c (t_value u) = true).

Lemma sem_prop_named c ns n t ts a : name_start c ns -> PName c ns n -> pu PColon t -> ME 1 c ts a ->
  PProp c (ns ++ t :: ts) (DefNamed z n a).
Proof.
  intros Hn Hname Ht H rest Hsep. pose proof (named_read c) as HN.
  pose proof (Hname (t :: ts ++ rest)) as HP. destruct Hn as [(y & -> & Hy & Hb)|(o & u & us & -> & Ho & Hu)].
  - nrm. cbn [app] in HP. tokval. wbody. w HS. vis. w HS. w HS. eapply W_ok; [exact HP|]. intros n' Hn'. w HS. now apply HN.
  - nrm. cbn [app] in HP. nrm. tokval. wbody. w HS. vis. w HS. w HS. wbody. w HS.
    eapply W_ok; [exact HP|]. intros n' Hn'. w HS. w HS. now apply HN.
Qed.
Lemma sem_prop_spread c d ts a : pu PTripleDot d -> ME 1 c ts a -> PProp c (d :: ts) (DefSpread a).
Proof.
  intros Hd H rest (s & rest' & -> & Hsep). tokval. cbn [app]. wbody. w HS. vis. w HS.
  change (NAssignment c) with (nt_of 1 c). eapply W_ok; [apply H; cbn [stops]; unfold jn; destruct Hsep as [->| ->]; lia|].
  intros x Hx. w HS. apply okq_intro. red. cbn. now rewrite Hx.
Qed.

(** ** Patterns *)

Definition PPat (c : ctx) (ts : list token) (p : node) : Prop :=
  pat_shape p /\ forall rest, ord_hd rest -> W (body _ (NBindPattern c)) (ts ++ rest) (okq (isb p) rest).
Definition PInit (c : ctx) (ts : list token) (i : option node) : Prop :=
  (ts = [] /\ i = None) \/ (exists t us a, ts = t :: us /\ i = Some a /\ t_value t = VPunct PEqual /\ ME 1 c us a).
Definition PBind (c : ctx) (ts : list token) (b : node) : Prop :=
  elem_shape b /\
  forall rest, stops 1 (with_in true c) rest -> W (body _ (NBindElement c)) (ts ++ rest) (okq (isb b) rest).
Definition PPats (c : ctx) (ts : list token) (l : list (option node)) (r : option node) : Prop :=
  forall acc rest, W (body _ (NArrayBindLoop c acc)) (ts ++ rest)
    (okq (fun p => map (option_map bare) (fst p) = map (option_map bare) acc ++ l /\ option_map bare (snd p) = r) rest).
Definition PBProps (c : ctx) (ts : list token) (l : list node) (r : option node) : Prop :=
  forall acc rest, ord_hd rest -> W (body _ (NObjectBindLoop c acc)) (ts ++ rest)
    (okq (fun p => map bare (fst p) = map bare acc ++ l /\ option_map bare (snd p) = r) rest).
Definition PBProp (c : ctx) (ts : list token) (a : node) : Prop :=
  forall acc rest Q, sep PBracketClose rest ->
    (forall p, bare p = a ->
       W (consume_list_delimiter (VPunct PBracketClose);? pcall (NObjectBindLoop c (acc ++ [p]))) rest Q) ->
    W (body _ (NObjectBindLoop c acc)) (ts ++ rest) Q.
Definition PParams (c : ctx) (ts : list token) (l : list node) (r : option node) : Prop :=
  (Forall elem_shape l /\ optP pat_shape r) /\
  forall acc rest, W (body _ (NFormalLoop c acc)) (ts ++ rest)
    (okq (fun p => map bare (fst p) = map bare acc ++ l /\ option_map bare (snd p) = r) rest).

Lemma stops_in b k c rest : stops k (with_in true c) rest -> stops k (with_in b c) rest.
Proof.
  destruct rest as [|t rest]; [auto|]. cbn [stops]. unfold jn. destruct (t_value t) as [[]| |[]|[]| | |]; cbn; try lia.
  destruct b; lia.
Qed.
Lemma stops_in' k c rest : stops k (with_in true c) rest -> stops k c rest.
Proof.
  destruct rest as [|t rest]; [auto|]. cbn [stops]. unfold jn. destruct (t_value t) as [[]| |[]|[]| | |]; cbn; try lia.
  destruct (c_in c); lia.
Qed.

Lemma init_ord c ts i : PInit c ts i -> ord_hd ts.
Proof. intros [[-> _]|(t & us & a & -> & _ & E & _)]; [exact Logic.I|]. eapply ord_cons; [exact E|reflexivity]. Qed.
Lemma init_read c {A : Set} us i rest (k : option node -> prg A) Q : PInit c us i -> stops 1 c rest ->
  (forall i', option_map bare i' = i -> W (k i') rest Q) ->
  W (pbind (current_matches (VPunct PEqual)) (fun b => pbind (then_try b (pcall (NInitializer c))) k)) (us ++ rest) Q.
Proof.
  intros [[-> ->]|(t & us' & a & -> & -> & Ht & H)] Hs Hk; cbn [app].
  - w HS. w HS. now apply Hk.
  - w HS. w HS. eapply W_ok with (P := isb a) (rest := rest).
    + wbody. w HS. w HS. exact (H rest Hs).
    + intros x Hx. apply Hk. cbn. now rewrite Hx.
Qed.

Lemma sem_pat_ident c x t : name c x t -> PPat c [t] (BindIdent (id x)).
Proof.
  intros H. split; [exact Logic.I|]. intros rest Hrest. cbn [app]. pose proof (ident_read D st full HS c x t rest H) as HI.
  wbody. w HS. assert (E : W (let? i := pcall (NIdentifier c) in pret (BindIdent i)) (t :: rest) (okq (isb (BindIdent (id x))) rest)).
  { eapply W_ok; [exact HI|]. intros i Hi. w HS. apply okq_intro. red. cbn. now rewrite Hi. }
  apply name_isname in H. destruct (t_value t) as [| |[]| | | |]; try discriminate H; exact E.
Qed.
Lemma sem_pat_array c o ts l r : pu PBraceOpen o -> PPats c ts l r -> PPat c (o :: ts) (BindArray z l r).
Proof.
  intros Ho H. split; [exact Logic.I|]. intros rest Hrest. tokval. cbn [app]. wbody. w HS. rewrite Ho. w HS. wbody. w HS. w HS.
  eapply W_ok; [apply (H [] rest)|]. intros [p q] [Hp Hq]. w HS. w HS. apply okq_intro. red. cbn in *. now rewrite Hp, Hq.
Qed.
Lemma sem_pat_object c o ts l r : pu PBracketOpen o -> PBProps c ts l r -> PPat c (o :: ts) (BindObject z l r).
Proof.
  intros Ho H. split; [exact Logic.I|]. intros rest Hrest. tokval. cbn [app]. wbody. w HS. rewrite Ho. w HS. wbody. w HS. w HS.
  eapply W_ok; [apply (H [] rest); oh|]. intros [p q] [Hp Hq]. w HS. w HS. apply okq_intro. red. cbn in *. now rewrite Hp, Hq.
Qed.

Lemma sem_bind c ts p us i : head (fpat c) ts -> PPat c ts p -> PInit (with_in true c) us i -> PBind c (ts ++ us) (BindElement z p i).
Proof.
  intros (u & vs & -> & Hu) [Hsh H] Hi. split; [exact Hsh|]. intros rest Hs. rewrite <- app_assoc. cbn [app]. wbody. w HS.
  eapply W_ok; [apply (H (us ++ rest)); apply ord_app; [now apply init_ord in Hi|oh]|]. intros x Hx. apply (init_read (with_in true c) us i rest _ _ Hi Hs).
  intros i' Hi'. w HS. w HS. apply okq_intro. red. cbn. now rewrite Hx, Hi'.
Qed.

Lemma rest_read c close d ts p cl rest : t_value d = VPunct PTripleDot -> PPat c ts p -> t_value cl = VPunct close -> 
  (opener (VPunct close) = true -> ord_hd rest) ->
  W (body _ (NRestBind c close)) (d :: ts ++ cl :: rest) (okq (isb p) rest).
Proof.
  intros Hd [_ H] Hc Hrest. wbody. w HS. eapply W_ok; [apply (H (cl :: rest)); oh|]. intros x Hx.
  apply wpt_b_consume; [exact HS|cbn [clear]; now rewrite Hc|].
  rewrite (value_is_true _ _ Hc). w HS. now apply okq_intro.
Qed.

Lemma sem_pats_end c t : pu PBraceClose t -> PPats c [t] [] None.
Proof. intros H acc rest. tokval. wbody. cbn [app]. w HS. rewrite H. w HS. w HS. apply okq_intro. cbn. now rewrite app_nil_r. Qed.
Lemma sem_pats_rest c d ts p cl : pu PTripleDot d -> PPat c ts p -> pu PBraceClose cl -> PPats c (d :: ts ++ [cl]) [] (Some p).
Proof.
  intros Hd H Hc acc rest. tokval. nrm. wbody. w HS. rewrite Hd.
  eapply W_ok; [apply (rest_read c PBraceClose d ts p cl rest); try assumption; discriminate|]. intros x Hx. w HS. apply okq_intro.
  cbn. rewrite app_nil_r. now rewrite Hx.
Qed.
Lemma sem_pats_hole c t ts l r : pu PComma t -> PPats c ts l r -> PPats c (t :: ts) (None :: l) r.
Proof.
  intros H Hl acc rest. tokval. cbn [app]. wbody. w HS. rewrite H. w HS. w HS. eapply wpt_conseq; [apply (Hl (acc ++ [None]))|].
  intros r0 ts' (-> & [l' r'] & -> & E1 & E2). apply okq_intro. cbn in *. split; [|exact E2]. rewrite E1, map_app, <- app_assoc. reflexivity.
Qed.
Lemma fpat_bind c u : fpat c (t_value u) = true ->
  (value_is (VPunct PBracketOpen) (Some u) || value_is (VPunct PBraceOpen) (Some u)
        || is_identifier_token (Some u) (keyword_context c))%bool = true.
Proof.
  intros H. unfold fpat in H. rewrite <- isname_ident. cbn [value_is].
  destruct (t_value u) as [| |[]| | | |]; try discriminate H; try reflexivity; rewrite H;
    repeat (destruct tvalue_eq_dec); reflexivity.
Qed.
Lemma pats_elem c acc u us {Q : result (list (option node) * option node) perr -> list token -> Prop} : fpat c (t_value u) = true ->
  W (let? e := pcall (NBindElement c) in
      consume_list_delimiter (VPunct PBraceClose);?
      pcall (NArrayBindLoop c (acc ++ [Some e]))) (u :: us) Q -> W (body _ (NArrayBindLoop c acc)) (u :: us) Q.
Proof.
  intros Hu H. wbody. w HS. pose proof (fpat_bind c u Hu) as E.
  destruct (t_value u) as [| |[]| | | |] eqn:Ev; try discriminate Hu; try rewrite E; exact H.
Qed.
Lemma sem_pats_last c ts a t : head (fpat c) ts -> PBind c ts a -> pu PBraceClose t -> PPats c (ts ++ [t]) [Some a] None.
Proof.
  intros (u & us & -> & Hu) [_ H] Ht acc rest. tokval. nrm. apply pats_elem; [exact Hu|].
  eapply W_ok; [apply (H (t :: rest)); stp|]. intros x Hx. apply wpt_b_delim_close; [exact Ht|discriminate|].
  w HS. pose proof (sem_pats_end c t Ht (acc ++ [Some x]) rest) as E. eapply wpt_conseq; [exact E|].
  intros r ts' (-> & [l' r'] & -> & Hl & Hr). apply okq_intro. cbn in *. split; [|exact Hr].
  rewrite Hl, map_app, app_nil_r. cbn. now rewrite Hx.
Qed.
Lemma sem_pats_more c ts a t us l r : head (fpat c) ts -> PBind c ts a -> pu PComma t -> PPats c us l r ->
  PPats c (ts ++ t :: us) (Some a :: l) r.
Proof.
  intros (u & vs & -> & Hu) [_ H] Ht Hl acc rest. tokval. nrm. apply pats_elem; [exact Hu|].
  eapply W_ok; [apply (H (t :: us ++ rest)); stp|]. intros x Hx. eapply wpt_b_delim_comma; [exact HS|exact Ht|].
  w HS. eapply wpt_conseq; [apply (Hl (acc ++ [Some x]))|].
  intros r0 ts' (-> & [l' r'] & -> & E1 & E2). apply okq_intro. cbn in *. split; [|exact E2].
  rewrite E1, map_app, <- app_assoc. cbn. now rewrite Hx.
Qed.

Lemma sem_bprops_end c t : pu PBracketClose t -> PBProps c [t] [] None.
Proof. intros H acc rest Hrest. tokval. wbody. cbn [app]. w HS. rewrite H. w HS. w HS. apply okq_intro. cbn. now rewrite app_nil_r. Qed.
Lemma sem_bprops_rest c d ts p cl : pu PTripleDot d -> PPat c ts p -> pu PBracketClose cl -> PBProps c (d :: ts ++ [cl]) [] (Some p).
Proof.
  intros Hd H Hc acc rest Hrest. tokval. nrm. wbody. w HS. rewrite Hd.
  eapply W_ok; [apply (rest_read c PBracketClose d ts p cl rest); try assumption; intros _; oh|]. intros x Hx. w HS. apply okq_intro.
  cbn. rewrite app_nil_r. now rewrite Hx.
Qed.
Lemma sem_bprops_last c ts a t : PBProp c ts a -> pu PBracketClose t -> PBProps c (ts ++ [t]) [a] None.
Proof.
  intros H Ht acc rest Hrest. tokval. nrm. apply H; [exists t, rest; auto|]. intros x Hx.
  apply wpt_b_delim_close; [exact Ht|discriminate|].
  w HS. pose proof (sem_bprops_end c t Ht (acc ++ [x]) rest Hrest) as E. eapply wpt_conseq; [exact E|].
  intros r ts' (-> & [l' r'] & -> & Hl & Hr). apply okq_intro. cbn in *. split; [|exact Hr].
  rewrite Hl, map_app, app_nil_r. cbn. now rewrite Hx.
Qed.
Lemma sem_bprops_more c ts a t us l r : PBProp c ts a -> pu PComma t -> PBProps c us l r ->
  PBProps c (ts ++ t :: us) (a :: l) r.
Proof.
  intros H Ht Hl acc rest Hrest. tokval. nrm. apply H; [exists t, (us ++ rest); auto|]. intros x Hx.
  eapply wpt_b_delim_comma; [exact HS|exact Ht|].
  w HS. eapply wpt_conseq; [apply (Hl (acc ++ [x])); oh|].
  intros r0 ts' (-> & [l' r'] & -> & E1 & E2). apply okq_intro. cbn in *. split; [|exact E2].
  rewrite E1, map_app, <- app_assoc. cbn. now rewrite Hx.
Qed.

Lemma sep_stops c rest close : sep close rest -> In close [PBracketClose; PParenClose; PBraceClose] -> stops 1 c rest.
Proof.
  intros (t & rest' & -> & H) Hi. cbn [stops]. unfold jn. cbn in Hi.
  destruct H as [->| ->]; [lia|]. destruct Hi as [<-|[<-|[<-|[]]]]; lia.
Qed.

Lemma sem_bprop_single c x t us i : name c x t -> PInit (with_in true c) us i -> PBProp c (t :: us) (BindSingle z (id x) i).
Proof.
  intros H Hi acc rest Q Hsep Hk.
  assert (HI : W (body _ (NSingleBind c)) (t :: us ++ rest) (okq (isb (BindSingle z (id x) i)) rest)).
  { wbody. w HS. eapply W_ok; [apply (ident_read D st full HS c x t (us ++ rest) H)|]. intros j Hj.
    apply (init_read (with_in true c) us i rest _ _ Hi); [eapply sep_stops; [exact Hsep|cbn; auto]|].
    intros i' Hi'. w HS. w HS. apply okq_intro. red. cbn. now rewrite Hj, Hi'. }
  apply name_isname in H. cbn [app]. wbody. w HS.
  assert (E : W (let? colon := peek_matches (VPunct PColon) in
    if (value_is (VPunct PBraceOpen) (Some t) || colon)%bool then
      let? p := pcall (NNamedBind c) in
      consume_list_delimiter (VPunct PBracketClose);?
      pcall (NObjectBindLoop c (acc ++ [p]))
    else
      let? p := pcall (NSingleBind c) in
      consume_list_delimiter (VPunct PBracketClose);?
      pcall (NObjectBindLoop c (acc ++ [p]))) (t :: us ++ rest) Q).
  { apply wpt_b_peek_matches; [exact HS|clr|]. replace (value_is (VPunct PColon) (hdo (tl (t :: us ++ rest)))) with false.
    - rewrite (value_is_false (VPunct PBraceOpen)) by (intros E; rewrite E in H; discriminate H). cbn [orb].
      eapply W_ok; [exact HI|]. intros p Hp. now apply Hk.
    - cbn [tl]. destruct Hi as [[-> _]|(e & us' & a & -> & _ & He & _)].
      + destruct Hsep as (s & r' & -> & [E|E]); cbn; rewrite E; reflexivity.
      + cbn. now rewrite He. }
  destruct (t_value t) as [| |[]| | | |]; try discriminate H; exact E.
Qed.
Lemma sem_bprop_named c ns n t ts b : name_start c ns -> PName c ns n -> pu PColon t -> PBind c ts b ->
  PBProp c (ns ++ t :: ts) (BindNamed z n b).
Proof.
  intros Hn Hname Ht [_ H] acc rest Q Hsep Hk.
  assert (HI : W (body _ (NNamedBind c)) (ns ++ t :: ts ++ rest) (okq (isb (BindNamed z n b)) rest)).
  { assert (exists u us, ns = u :: us) as (u & us & ->).
    { destruct Hn as [(u & -> & _)|(u & v & us & -> & _)]; eauto. }
    pose proof (Hname (t :: ts ++ rest)) as HP. cbn [app] in *.
    wbody. w HS. eapply W_ok; [exact HP|]. intros n' Hn'. w HS.
    eapply W_ok; [apply (H rest); eapply sep_stops; [exact Hsep|cbn; auto]|]. intros b' Hb'. w HS. w HS. apply okq_intro.
    red. cbn. now rewrite Hn', Hb'. }
  tokval. rewrite <- app_assoc. destruct Hn as [(y & -> & Hy & Hb)|(o & u & us & -> & Ho & Hu)].
  - cbn [app] in *. wbody. w HS.
    assert (E : W (let? colon := peek_matches (VPunct PColon) in
      if (value_is (VPunct PBraceOpen) (Some y) || colon)%bool then
        let? p := pcall (NNamedBind c) in
        consume_list_delimiter (VPunct PBracketClose);?
        pcall (NObjectBindLoop c (acc ++ [p]))
      else
        let? p := pcall (NSingleBind c) in
        consume_list_delimiter (VPunct PBracketClose);?
        pcall (NObjectBindLoop c (acc ++ [p]))) (y :: t :: ts ++ rest) Q).
    { w HS. eapply W_ok; [exact HI|]. intros p Hp. now apply Hk. }
    destruct (t_value y) as [| |[]| | | |]; try discriminate Hy; try congruence; exact E.
  - cbn [app] in *. wbody. w HS. rewrite Ho. w HS. vis. eapply W_ok; [exact HI|]. intros p Hp. now apply Hk.
Qed.

(** ** Parameters *)

Lemma sem_params_end c t : pu PParenClose t -> PParams c [t] [] None.
Proof.
  intros H. split; [split; [constructor|exact Logic.I]|]. intros acc rest. tokval. wbody. cbn [app]. w HS. rewrite H. w HS. w HS.
  apply okq_intro. cbn. now rewrite app_nil_r.
Qed.
Lemma sem_params_rest c d ts p cl : pu PTripleDot d -> PPat c ts p -> pu PParenClose cl -> PParams c (d :: ts ++ [cl]) [] (Some p).
Proof.
  intros Hd [Hsh H] Hc. split; [split; [constructor|exact Hsh]|]. intros acc rest. tokval. nrm. wbody. w HS. rewrite Hd.
  eapply W_ok with (P := isb p) (rest := cl :: rest).
  - wbody. w HS. w HS. apply (H (cl :: rest)); oh.
  - intros x Hx. w HS. w HS. apply okq_intro. cbn. rewrite app_nil_r. now rewrite Hx.
Qed.
Lemma formal_elem c acc u us {Q : result (list node * option node) perr -> list token -> Prop} : fpat c (t_value u) = true ->
  W (let? p := pcall (NBindElement c) in
    consume_list_delimiter (VPunct PParenClose);?
    pcall (NFormalLoop c (acc ++ [p]))) (u :: us) Q -> W (body _ (NFormalLoop c acc)) (u :: us) Q.
Proof.
  intros Hu H. wbody. w HS. destruct (t_value u) as [| |[]| | | |] eqn:Ev; try discriminate Hu; exact H.
Qed.
Lemma sem_params_last c ts a t : head (fpat c) ts -> PBind c ts a -> pu PParenClose t -> PParams c (ts ++ [t]) [a] None.
Proof.
  intros (u & us & -> & Hu) [Hsh H] Ht. split; [split; [auto|exact Logic.I]|]. intros acc rest. pose proof Ht as Ht'. tokval. nrm.
  apply formal_elem; [exact Hu|].
  eapply W_ok; [apply (H (t :: rest)); stp|]. intros x Hx. apply wpt_b_delim_close; [exact Ht|discriminate|].
  w HS. destruct (sem_params_end c t Ht') as [_ E0]. pose proof (E0 (acc ++ [x]) rest) as E. eapply wpt_conseq; [exact E|].
  intros r ts' (-> & [l' r'] & -> & Hl & Hr). apply okq_intro. cbn in *. split; [|exact Hr].
  rewrite Hl, map_app, app_nil_r. cbn. now rewrite Hx.
Qed.
Lemma sem_params_more c ts a t us l r : head (fpat c) ts -> PBind c ts a -> pu PComma t -> PParams c us l r ->
  PParams c (ts ++ t :: us) (a :: l) r.
Proof.
  intros (u & vs & -> & Hu) [Hsh H] Ht [[Hl1 Hl2] Hl]. split; [split; [now constructor|exact Hl2]|]. intros acc rest. tokval. nrm.
  apply formal_elem; [exact Hu|].
  eapply W_ok; [apply (H (t :: us ++ rest)); stp|]. intros x Hx. eapply wpt_b_delim_comma; [exact HS|exact Ht|].
  w HS. eapply wpt_conseq; [apply (Hl (acc ++ [x]))|].
  intros r0 ts' (-> & [l' r'] & -> & E1 & E2). apply okq_intro. cbn in *. split; [|exact E2].
  rewrite E1, map_app, <- app_assoc. cbn. now rewrite Hx.
Qed.
Lemma params_read c o ts l r rest : pu PParenOpen o -> PParams c ts l r ->
  W (body _ (NFormalParameters c)) (o :: ts ++ rest) (okq (isb (FormalParameters z l r)) rest).
Proof.
  intros Ho [_ H]. tokval. wbody. w HS. w HS. eapply W_ok; [apply (H [] rest)|]. intros [p q] [Hp Hq]. w HS. w HS.
  apply okq_intro. red. cbn in *. now rewrite Hp, Hq.
Qed.

(** ** Functions *)

Definition PBody (c : ctx) (ts : list token) (b : node) : Prop :=
  forall rest, ord_hd rest -> W (body _ (NFunctionBody c)) (ts ++ rest) (okq (isb b) rest).

Lemma content_read c start x nt o ps p r bs b rest : optname c x nt -> pu PParenOpen o -> PParams c ps p r -> PBody c bs b -> ord_hd rest ->
  W (body _ (NFunctionContent c start)) (nt ++ o :: ps ++ bs ++ rest)
    (okq (isb (EFunction z (c_await c) (c_yield c) x (FormalParameters z p r) b)) rest).
Proof.
  intros Hx Ho Hp Hb Hrest.
  assert (Hk : forall i', option_map bare_ident i' = x ->
    W (let? parameters := pcall (NFormalParameters c) in
       let? body := pcall (NFunctionBody c) in
       let? span := span_from start in
       pret (EFunction span (c_await c) (c_yield c) i' parameters body)) (o :: ps ++ bs ++ rest)
      (okq (isb (EFunction z (c_await c) (c_yield c) x (FormalParameters z p r) b)) rest)).
  { intros i' Hi'. eapply W_ok; [apply (params_read c o ps p r (bs ++ rest) Ho Hp)|]. intros p' Hp'.
    eapply W_ok; [apply (Hb rest); oh|]. intros b' Hb'. w HS. w HS. apply okq_intro. red. cbn. now rewrite Hi', Hp', Hb'. }
  tokval. destruct Hx as [[-> ->]|(y & t & -> & -> & Hy)]; cbn [app].
  - wbody. w HS. rewrite <- isname_ident, Ho. cbn [isname]. w HS. now apply Hk.
  - pose proof (ident_read D st full HS c y t (o :: ps ++ bs ++ rest) Hy) as HI. apply name_isname in Hy.
    wbody. w HS. rewrite <- isname_ident, Hy. w HS. eapply W_ok; [exact HI|]. intros i Hi. apply Hk. cbn. now rewrite Hi.
Qed.

Lemma star_read {A : Set} g gt rest (k : bool -> prg A) Q : star g gt -> value_is (VPunct PStar) (hdo rest) = false ->
  W (k g) rest Q -> W (pbind (maybe_consume (VPunct PStar)) k) (gt ++ rest) Q.
Proof.
  intros Hg Hr Hk. destruct g; cbn [star] in Hg.
  - destruct Hg as (t & -> & Ht). unfold pu in Ht. cbn [app]. w HS. exact Hk.
  - subst gt. cbn [app]. apply wpt_b_maybe_no; [exact Hr|exact Hk].
Qed.
Lemma optname_not_star c x nt o us : optname c x nt -> pu PParenOpen o -> value_is (VPunct PStar) (hdo (nt ++ o :: us)) = false.
Proof.
  intros Hx Ho. unfold pu in Ho. destruct Hx as [[-> ->]|(y & t & -> & -> & Hy)]; cbn [app hdo hd_error]; apply value_is_false.
  - rewrite Ho. discriminate.
  - destruct Hy as [->|(k & -> & _)]; discriminate.
Qed.

Lemma sem_function c f gt g nt x o ps p r bs b :
  kw KFunction f -> star g gt -> optname (fun_ctx false g c) x nt -> pu PParenOpen o ->
  PParams (fun_ctx false g c) ps p r -> PBody (fun_ctx false g c) bs b ->
  ME 19 c (f :: gt ++ nt ++ o :: ps ++ bs) (EFunction z false g x (FormalParameters z p r) b).
Proof.
  intros Hf Hg Hx Ho Hp Hb rest Hstop. pose proof (optname_not_star _ _ _ o (ps ++ bs ++ rest) Hx Ho) as Hst. unfold kw in Hf. nrm.
  change (nt_of 19 c) with (NPrimary c). wbody. w HS. rewrite Hf. w HS. wbody. w HS. w HS.
  apply (star_read g); [exact Hg|exact Hst|]. w HS. 
  change (function_ctx c g false) with (fun_ctx false g c). apply content_read; try assumption; oh.
Qed.
Lemma sem_async_function c s f gt g nt x o ps p r bs b :
  kw KAsync s -> kw KFunction f -> t_fol f = false -> star g gt -> optname (fun_ctx true g c) x nt -> pu PParenOpen o ->
  PParams (fun_ctx true g c) ps p r -> PBody (fun_ctx true g c) bs b ->
  ME 19 c (s :: f :: gt ++ nt ++ o :: ps ++ bs) (EFunction z true g x (FormalParameters z p r) b).
Proof.
  intros Hs Hf Hfol Hg Hx Ho Hp Hb rest Hstop. pose proof (optname_not_star _ _ _ o (ps ++ bs ++ rest) Hx Ho) as Hst. unfold kw in Hf, Hs. nrm.
  change (nt_of 19 c) with (NPrimary c). wbody. w HS. rewrite Hs. w HS. cbn [opt_fol]. rewrite Hfol. cbn [negb]. w HS.
  wbody. w HS. w HS. w HS. unfold pdebug_assert. rewrite Hfol. cbn [negb]. rewrite Bool.andb_false_r. w HS.
  apply (star_read g); [exact Hg|exact Hst|]. w HS. 
  change (function_ctx c g true) with (fun_ctx true g c). apply content_read; try assumption; oh.
Qed.

End Fwd.
