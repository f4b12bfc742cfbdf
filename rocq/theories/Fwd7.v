(** * Fwd7: the parser on written statements and declarations. *)

From Verif Require Import Base Tokens PeekReader CharReader Lexer LexSpec Ast Prog TokChain ParseState Parser
  ParseRuns Source Stream AstSpec StaticSem Layout Bare Written Starts Forward Fwd1 Fwd2 Fwd3 Fwd4 Fwd5.
Local Open Scope string_scope.
Local Open Scope list_scope.
Local Open Scope prog_scope.

(** [rest] follows: its first token is [nx]. *)
Definition fol (nx : option token) (rest : list token) : Prop := hd_error rest = nx /\ ord_hd rest.
Lemma first_hd ts nx rest : ord_hd ts -> fol nx rest -> fol (first ts nx) (ts ++ rest).
Proof. intros Ho [<- Hr]. split; [now destruct ts|now apply ord_app]. Qed.
Lemma fol_ord nx rest : fol nx rest -> ord_hd rest.
Proof. now intros [_ H]. Qed.
Lemma fol_cons t us : ordinary t -> fol (Some t) (t :: us).
Proof. now split. Qed.
Ltac oh ::=
  lazymatch goal with
  | |- ord_hd [] => exact Logic.I
  | |- ordinary ?t => change (ord_hd [t]); oh
  | |- ord_hd (_ ++ _) => apply ord_app; oh
  | |- ord_hd (?t :: _) =>
    first [ assumption
          | eapply ord_cons; [eassumption|reflexivity]
          | cbn [ord_hd]; eapply name_ord; eassumption
          | cbn [ord_hd]; eapply anyname_ord; eassumption
          | cbn [ord_hd]; assumption
          | match goal with H : fol _ (t :: _) |- _ => exact (fol_ord _ _ H) end
          | cbn [ord_hd]; unfold ordinary;
            match goal with
            | H : t_value t = _ \/ _ |- _ =>
              let E := fresh in repeat (destruct H as [H|H]); rewrite H; reflexivity
            | H : ?f (t_value t) = true |- _ =>
              destruct (t_value t) as [[]| |[]|[]| | |]; first [reflexivity|discriminate H]
            | H : ?f (t_value t) = false |- _ =>
              destruct (t_value t) as [[]| |[]|[]| | |]; first [reflexivity|discriminate H]
            end ]
  | |- ord_hd ?rest =>
    first [ assumption
          | match goal with H : fol _ rest |- _ => exact (fol_ord _ _ H) end
          | match goal with H : stops ?k _ rest |- _ => apply (stops_ord k _ _) in H; [exact H|lia] end
          | match goal with
            | H : star _ rest |- _ => exact (star_ord _ _ H)
            | H : optname _ _ rest |- _ => exact (optname_ord _ _ _ H)
            | H : dname _ _ rest |- _ => exact (dname_ord _ _ _ H)
            | H : ends rest _ |- _ => exact (ends_ord _ _ H)
            | H : ends_expr rest _ |- _ => exact (ends_expr_ord _ _ H)
            end ]
  end.

Lemma ends_expr_ends us nx : ends_expr us nx -> ends us nx.
Proof. intros [H|(H1 & H2 & _)]; [now left|now right]. Qed.

Lemma inserted_end nx rest : inserted nx -> fol nx rest ->
  value_is (VPunct PSemiColon) (hdo rest) = false /\ can_end rest = true /\ value_is (VPunct PColon) (hdo rest) = false.
Proof.
  intros H [<- _]. destruct rest as [|t rest]; [auto|]. cbn [hd_error inserted hdo can_end] in *. unfold pu in H.
  destruct H as (H1 & H2 & H3). split; [now apply value_is_false|]. split; [|now apply value_is_false].
  destruct H1 as [H1|H1]; [now rewrite (value_is_true _ _ H1)|rewrite H1; apply Bool.orb_true_r].
Qed.

Lemma ends_ended us nx rest : ends us nx -> fol nx rest ->
  (value_is (VPunct PSemiColon) (hdo (us ++ rest)) || can_end (us ++ rest))%bool = true.
Proof.
  intros [(t & -> & Ht)|[-> H]] E; cbn [app].
  - cbn [hdo hd_error]. now rewrite (value_is_true _ _ Ht).
  - destruct (inserted_end nx rest H E) as (_ & -> & _). apply Bool.orb_true_r.
Qed.

Lemma ends_stops us nx rest c : ends_expr us nx -> fol nx rest -> stops 0 c (us ++ rest).
Proof.
  intros [(t & -> & Ht)|(-> & H & Hc)] E; cbn [app].
  - unfold pu in Ht. stp.
  - destruct rest as [|t rest]; [exact Logic.I|]. destruct E as [E Ho]. cbn in E. subst nx. cbn [stops]. now rewrite (continues_jn c t Ho Hc).
Qed.

Lemma ends_not_colon us nx rest : ends us nx -> fol nx rest -> value_is (VPunct PColon) (hdo (us ++ rest)) = false.
Proof.
  intros [(t & -> & Ht)|[-> H]] E; cbn [app].
  - cbn [hdo hd_error]. apply value_is_false. unfold pu in Ht. congruence.
  - now destruct (inserted_end nx rest H E) as (_ & _ & ->).
Qed.

Section Fwd.
Context {PF : Platform}.
Variable D : str.
Variable st : lexer_state.
Variable full : list token.
Hypothesis HS : setting D st full.

Notation W := (wpt D st full).
Notation ME := (ME D st full).
Notation PPat := (PPat D st full).
Notation PInit := (PInit D st full).
Notation PParams := (PParams D st full).
Notation PBody := (PBody D st full).
Notation PHeritage := (PHeritage D st full).
Notation PMembers := (PMembers D st full).

Definition someb (a : node) : option node -> Prop := fun o => option_map bare o = Some a.

Definition PDecl (c : ctx) (ts : list token) (d : node) : Prop :=
  forall rest, stops 1 c rest -> W (body _ (NVariableDecl c)) (ts ++ rest) (okq (isb d) rest).
Definition PDecls (c : ctx) (ts : list token) (l : list node) : Prop :=
  forall acc rest, stops 0 c rest ->
    W (let? d := pcall (NVariableDecl c) in pcall (NVariableDeclsLoop c (acc ++ [d]))) (ts ++ rest)
      (okq (fun l' => map bare l' = map bare acc ++ l) rest).
Definition PVar (nx : option token) (k : variable_kind) (c : ctx) (ts : list token) (a : node) : Prop :=
  forall rest, fol nx rest -> W (body _ (NVariableStmt c k)) (ts ++ rest) (okq (isb a) rest).
Definition PHoist (c : ctx) (ts : list token) (a : node) : Prop :=
  forall rest, ord_hd rest -> W (body _ (NDeclaration c)) (ts ++ rest) (okq (someb a) rest).
Definition PLex (nx : option token) (c : ctx) (ts : list token) (a : node) : Prop :=
  forall rest, fol nx rest -> W (body _ (NDeclaration c)) (ts ++ rest) (okq (someb a) rest).
Definition PStmt (nx : option token) (c : ctx) (ts : list token) (a : node) : Prop :=
  forall rest, fol nx rest -> W (body _ (NStmt c)) (ts ++ rest) (okq (isb a) rest).
Definition PItem (nx : option token) (c : ctx) (ts : list token) (a : node) : Prop :=
  forall rest, fol nx rest -> W (body _ (NDeclOrStmt c)) (ts ++ rest) (okq (isb a) rest).
Definition PBlock (c : ctx) (ts : list token) (a : node) : Prop :=
  forall rest, ord_hd rest -> W (body _ (NBlock c)) (ts ++ rest) (okq (isb a) rest).

(** A loop that reads items. *)
Definition item_loop (c : ctx) (n : list node -> nt (list node)) : Prop :=
  forall acc t us Q, fitem (t_value t) = true ->
    W (let? stmt := pcall (NDeclOrStmt c) in pcall (n (acc ++ [stmt]))) (t :: us) Q ->
    W (body _ (n acc)) (t :: us) Q.
Definition PItems (nx : option token) (c : ctx) (ts : list token) (l : list node) : Prop :=
  forall n, item_loop c n -> forall acc rest Q, fol nx rest ->
    (forall l', map bare l' = l -> W (body _ (n (acc ++ l'))) rest Q) ->
    W (body _ (n acc)) (ts ++ rest) Q.

(** ** Ends *)

Lemma semi_read {A : Set} us nx rest (k : bool -> prg A) Q : ends us nx -> fol nx rest ->
  (forall b, W (k b) rest Q) -> W (pbind (maybe_consume (VPunct PSemiColon)) k) (us ++ rest) Q.
Proof.
  intros [(t & -> & Ht)|[-> H]] E Hk; cbn [app].
  - unfold pu in Ht; apply wpt_b_maybe_yes; [exact HS|exact Ht|clr|apply Hk].
  - destruct (inserted_end nx rest H E) as (E1 & _). apply wpt_b_maybe_no; [exact E1|apply Hk].
Qed.
Lemma osemi_read {A : Set} us nx rest (k : unit -> prg A) Q : ends us nx -> fol nx rest ->
  W (k tt) rest Q -> W (pbind consume_optional_semicolon k) (us ++ rest) Q.
Proof.
  intros [(t & -> & Ht)|[-> H]] E Hk; cbn [app].
  - eapply wpt_b_optional_semicolon_yes; [exact HS|exact Ht|exact Hk].
  - destruct (inserted_end nx rest H E) as (E1 & E2 & _). eapply wpt_b_optional_semicolon_no; [exact E1|exact E2|exact Hk].
Qed.

(** ** Variables *)

Lemma bind_ident_bare p : is_bind_ident (bare p) = is_bind_ident p.
Proof. now destruct p. Qed.

Lemma sem_decl c ts p us i : head (fpat c) ts -> PPat c ts p -> PInit c us i -> (i = None -> exists x, p = BindIdent x) ->
  PDecl c (ts ++ us) (VarDecl z p i).
Proof.
  intros (t & ts' & -> & _) [_ H] Hi Hb rest Hs. pose proof (H (us ++ rest) (ord_app _ _ (init_ord D st full _ _ _ Hi) (stops_ord 1 _ _ ltac:(lia) Hs))) as HP. nrm. cbn [app] in HP. wbody. w HS.
  eapply W_ok; [exact HP|]. intros x Hx. pose proof (bind_ident_bare x) as HB. rewrite Hx in HB.
  destruct Hi as [[-> ->]|(e & us' & a & -> & -> & He & H1)]; cbn [app].
  - destruct (Hb eq_refl) as (y & ->). cbn [is_bind_ident] in HB. w HS. rewrite <- HB. cbn [negb andb]. w HS. w HS. w HS.
    apply okq_intro. red. cbn. now rewrite Hx.
  - w HS. rewrite Bool.andb_false_r. w HS. eapply W_ok with (P := isb a) (rest := rest).
    + wbody. w HS. w HS. exact (H1 rest Hs).
    + intros e' He'. w HS. w HS. apply okq_intro. red. cbn. now rewrite Hx, He'.
Qed.
Lemma sem_decls_one c ts d : PDecl c ts d -> PDecls c ts [d].
Proof.
  intros H acc rest Hs. eapply W_ok; [apply (H rest); eapply stops_le; [|exact Hs]; lia|]. intros x Hx. w HS. wbody. w HS. w HS.
  apply okq_intro. rewrite map_app. cbn. now rewrite Hx.
Qed.
Lemma sem_decls_more c ts d t us l : PDecl c ts d -> pu PComma t -> PDecls c us l -> PDecls c (ts ++ t :: us) (d :: l).
Proof.
  intros H Ht Hl acc rest Hs. tokval. nrm. eapply W_ok; [apply (H (t :: us ++ rest)); stp|]. intros x Hx. w HS. wbody. w HS.
  eapply wpt_conseq; [apply (Hl (acc ++ [x]) rest Hs)|]. intros r ts' (-> & l' & -> & E). apply okq_intro.
  rewrite E, map_app, <- app_assoc. cbn. now rewrite Hx.
Qed.
Lemma decls_read c ts l rest : PDecls c ts l -> stops 0 c rest ->
  W (body _ (NVariableDecls c)) (ts ++ rest) (okq (fun l' => map bare l' = l) rest).
Proof. intros H Hs. wbody. exact (H [] rest Hs). Qed.

Lemma sem_var nx c t ts l us : kw KVar t -> PDecls (with_in true c) ts l -> ends_expr us nx ->
  PVar nx VKVar c (t :: ts ++ us) (SVariable z VKVar l).
Proof.
  intros Ht H Hu rest Hr. nrm. wbody. w HS.
  eapply W_ok; [apply (decls_read _ ts l (us ++ rest) H); eapply ends_stops; eassumption|]. intros l' Hl.
  eapply semi_read; [apply ends_expr_ends; exact Hu|exact Hr|]. intros b. w HS. w HS. apply okq_intro. red. cbn. now rewrite Hl.
Qed.
Lemma sem_lex nx c k t ts l us : k <> VKVar -> t_value t = kind_tok k -> PDecls c ts l -> ends_expr us nx ->
  PVar nx k c (t :: ts ++ us) (SVariable z k l).
Proof.
  intros Ht Hkt H Hu rest Hr. nrm. wbody. destruct k; [| |congruence]; cbn [kind_tok] in Hkt; w HS.
  all: eapply W_ok; [apply (decls_read _ ts l (us ++ rest) H); eapply ends_stops; eassumption|]; intros l' Hl;
    (eapply semi_read; [apply ends_expr_ends; exact Hu|exact Hr|]); intros b; w HS; w HS; apply okq_intro; red; cbn; now rewrite Hl.
Qed.

(** ** Declarations *)

Lemma some_read {A : Set} (n : nt node) a ts rest (k : option node -> prg A) Q :
  W (body _ n) ts (okq (isb a) rest) -> (forall o, someb a o -> W (k o) rest Q) ->
  W (pbind (let? d := pcall n in pret (Some d)) k) ts Q.
Proof.
  intros H Hk. w HS. eapply W_ok; [exact H|]. intros x Hx. w HS. apply Hk. unfold someb. cbn. now rewrite Hx.
Qed.
Lemma some_ret (n : nt node) a ts rest :
  W (body _ n) ts (okq (isb a) rest) -> W (let? d := pcall n in pret (Some d)) ts (okq (someb a) rest).
Proof. intros H. eapply W_ok; [exact H|]. intros x Hx. w HS. apply okq_intro. unfold someb. cbn. now rewrite Hx. Qed.

Lemma sem_lex_let nx c ts a : var_start VKLet c ts -> PVar nx VKLet c ts a -> PLex nx c ts a.
Proof.
  intros (t & u & us & -> & Ht & Hu) H rest Hr. pose proof (H rest Hr) as HV. cbn [app] in *. change (t_value t = VKeyword KLet) in Ht.
  wbody. w HS. rewrite Ht. cbv beta iota zeta. unfold peek_matches_lexical_binding. w HS. w HS. w HS.
  pose proof (fpat_bind c u Hu) as E. cbn [hdo hd_error] in *. rewrite E. now apply some_ret.
Qed.
Lemma sem_lex_const nx c ts a : var_start VKConst c ts -> PVar nx VKConst c ts a -> PLex nx c ts a.
Proof.
  intros (t & u & us & -> & Ht & Hu) H rest Hr. pose proof (H rest Hr) as HV. cbn [app] in *. change (t_value t = VKeyword KConst) in Ht.
  wbody. w HS. rewrite Ht. now apply some_ret.
Qed.
Lemma sem_lex_hoist nx c ts a : PHoist c ts a -> PLex nx c ts a.
Proof. intros H rest Hr. apply H. oh. Qed.

Lemma decl_content c start i x o ps p r bs b rest : bare_ident i = id x -> pu PParenOpen o -> PParams c ps p r -> PBody c bs b -> ord_hd rest ->
  W (body _ (NFunctionDeclContent c start i)) (o :: ps ++ bs ++ rest)
    (okq (isb (SFunctionDecl z (c_await c) (c_yield c) (id x) (FormalParameters z p r) b)) rest).
Proof.
  intros Hi Ho Hp Hb Hrest. wbody. eapply W_ok; [apply (params_read D st full HS c o ps p r (bs ++ rest) Ho Hp)|]. intros p' Hp'.
  eapply W_ok; [apply (Hb rest); oh|]. intros b' Hb'. w HS. w HS. apply okq_intro. red. cbn. now rewrite Hi, Hp', Hb'.
Qed.

Lemma dname_read_fun c x nt o us : dname c x nt -> pu PParenOpen o ->
  W (body _ (NFunctionIdentifier c)) (nt ++ o :: us) (okq (fun i => bare_ident i = id x) (o :: us)).
Proof.
  intros [(t & -> & Ht)|(Hd & -> & ->)] Ho; tokval; cbn [app].
  - pose proof (ident_read D st full HS c x t (o :: us) Ht) as HI. apply name_isname in Ht. wbody. w HS.
    rewrite (value_is_false (VPunct PParenOpen)) by (intros E; rewrite E in Ht; discriminate Ht). rewrite Bool.andb_false_r. w HS. exact HI.
  - wbody. w HS. rewrite Hd, (value_is_true _ _ Ho). cbn [andb]. w HS. now apply okq_intro.
Qed.
Lemma dname_not_star c x nt o us : dname c x nt -> pu PParenOpen o -> value_is (VPunct PStar) (hdo (nt ++ o :: us)) = false.
Proof.
  intros Hx Ho. unfold pu in Ho. destruct Hx as [(t & -> & Hy)|(Hd & -> & ->)]; cbn [app hdo hd_error]; apply value_is_false.
  - destruct Hy as [->|(k & -> & _)]; discriminate.
  - rewrite Ho. discriminate.
Qed.

Lemma sem_function_decl c f gt g nt x o ps p r bs b :
  kw KFunction f -> star g gt -> dname c x nt -> pu PParenOpen o ->
  PParams (fun_ctx false g c) ps p r -> PBody (fun_ctx false g c) bs b ->
  PHoist c (f :: gt ++ nt ++ o :: ps ++ bs) (SFunctionDecl z false g (id x) (FormalParameters z p r) b).
Proof.
  intros Hf Hg Hx Ho Hp Hb rest Hrest. pose proof (dname_not_star _ _ _ o (ps ++ bs ++ rest) Hx Ho) as Hst. unfold kw in Hf. nrm.
  wbody. w HS. rewrite Hf. apply some_ret. wbody. w HS. w HS.
  apply (star_read D st full HS g); [exact Hg|exact Hst|].
  eapply W_ok; [apply (dname_read_fun c x nt o _ Hx Ho)|]. intros i Hi. w HS.
  change (function_ctx c g false) with (fun_ctx false g c). now apply decl_content.
Qed.
Lemma sem_async_function_decl c s f gt g nt x o ps p r bs b :
  kw KAsync s -> kw KFunction f -> t_fol f = false -> star g gt -> dname c x nt -> pu PParenOpen o ->
  PParams (fun_ctx true g c) ps p r -> PBody (fun_ctx true g c) bs b ->
  PHoist c (s :: f :: gt ++ nt ++ o :: ps ++ bs) (SFunctionDecl z true g (id x) (FormalParameters z p r) b).
Proof.
  intros Hs Hf Hfol Hg Hx Ho Hp Hb rest Hrest. pose proof (dname_not_star _ _ _ o (ps ++ bs ++ rest) Hx Ho) as Hst. unfold kw in Hf, Hs. nrm.
  wbody. w HS. rewrite Hs. cbv beta iota zeta. w HS. apply some_ret. wbody. w HS. w HS. w HS.
  unfold pdebug_assert. rewrite Hfol. cbn [negb]. rewrite Bool.andb_false_r. w HS.
  apply (star_read D st full HS g); [exact Hg|exact Hst|].
  eapply W_ok; [apply (dname_read_fun c x nt o _ Hx Ho)|]. intros i Hi. w HS.
  change (function_ctx c g true) with (fun_ctx true g c). now apply decl_content.
Qed.

Lemma sem_class_decl c t nt x hs h o ms l :
  kw KClass t -> dname (with_strict true c) x nt -> PHeritage (with_strict true c) hs h -> (nt = [] -> hs = []) ->
  pu PBracketOpen o -> PMembers (is_some h) (with_strict true c) ms l ->
  PHoist c (t :: nt ++ hs ++ o :: ms) (SClassDecl z (id x) h l).
Proof.
  intros Ht Hx Hh Hn Ho Hl rest Hrest. pose proof (tail_read D st full HS (with_strict true c) hs h o ms l rest Hh Ho Hl Hrest) as HT. tokval. nrm.
  wbody. w HS. rewrite Ht. apply some_ret. set (c' := with_strict true c) in *. wbody. w HS. w HS.
  eapply W_ok with (P := fun i => bare_ident i = id x) (rest := hs ++ o :: ms ++ rest).
  - destruct Hx as [(u & -> & Hu)|(Hd & -> & ->)]; cbn [app].
    + pose proof (ident_read D st full HS c' x u (hs ++ o :: ms ++ rest) Hu) as HI. apply name_isname in Hu. wbody. w HS.
      rewrite (value_is_false (VPunct PBracketOpen)) by (intros E; rewrite E in Hu; discriminate Hu). rewrite Bool.andb_false_r. w HS. exact HI.
    + rewrite (Hn eq_refl) in *. cbn [app]. wbody. w HS. rewrite Hd, (value_is_true _ _ Ho). cbn [andb]. w HS. now apply okq_intro.
  - intros i Hi. eapply W_ok; [exact HT|]. intros [h' l'] [Eh El]. w HS. w HS. apply okq_intro. red. cbn in *. now rewrite Hi, Eh, El.
Qed.

(** ** Items *)

Lemma no_decl c t ts rest : fstmt (t_value t) = true -> stmt_second (t_value t) ts ->
  W (body _ (NDeclaration c)) (t :: ts ++ rest) (okq (fun o => o = None) (t :: ts ++ rest)).
Proof.
  intros Hf Hs. wbody. w HS. cbv zeta.
  destruct (t_value t) as [k| | | | | |] eqn:E; try (w HS; now apply okq_intro).
  destruct k; try discriminate Hf; try (w HS; now apply okq_intro).
  - destruct Hs as (u & us & -> & Hu). cbn [app]. w HS. w HS. now apply okq_intro.
  - destruct Hs as (u & us & -> & Hu). cbn [app]. unfold peek_matches_lexical_binding. w HS. w HS. w HS. vis.
    rewrite <- isname_ident, Hu. cbn [isname]. w HS. now apply okq_intro.
Qed.
Lemma sem_stmt_item nx c ts a : (exists t ts', ts = t :: ts' /\ fstmt (t_value t) = true /\ stmt_second (t_value t) ts') ->
  PStmt nx c ts a -> PItem nx c ts a.
Proof.
  intros (t & ts' & -> & Hf & Hs) H rest Hr. pose proof (H rest Hr) as HP. cbn [app] in *. wbody.
  eapply W_ok; [now apply no_decl|]. intros o ->. w HS. exact HP.
Qed.
Lemma sem_lex_item nx c ts a : PLex nx c ts a -> PItem nx c ts a.
Proof.
  intros H rest Hr. wbody. eapply W_ok; [apply (H rest Hr)|]. intros [d|] Ho; [|discriminate Ho]. w HS. apply okq_intro.
  unfold someb in Ho. cbn in Ho. red. congruence.
Qed.

Lemma sem_items_end nx c : PItems nx c [] [].
Proof. intros n Hn acc rest Q Hr Hk. cbn [app]. specialize (Hk [] eq_refl). now rewrite app_nil_r in Hk. Qed.
Lemma sem_items nx c ts a us l : head fitem ts -> ord_hd us -> PItem (first us nx) c ts a -> PItems nx c us l -> PItems nx c (ts ++ us) (a :: l).
Proof.
  intros (t & ts' & -> & Ht) Hous H Hl n Hn acc rest Q Hr Hk. rewrite <- app_assoc. pose proof (H (us ++ rest) (first_hd us nx rest Hous Hr)) as HP.
  cbn [app] in *. apply Hn; [exact Ht|]. eapply W_ok; [exact HP|]. intros x Hx. w HS. apply (Hl n Hn (acc ++ [x]) rest Q Hr).
  intros l' E. rewrite <- app_assoc. apply Hk. cbn. now rewrite Hx, E.
Qed.

Lemma block_loop c : item_loop c (NBlockLoop c).
Proof. intros acc t us Q Ht H. wbody. w HS. exact H. Qed.
Lemma body_loop c : item_loop c (NBodyStmts c).
Proof. intros acc t us Q Ht H. wbody. w HS. exact H. Qed.
Lemma case_loop c : item_loop c (NCaseStmts c).
Proof. intros acc t us Q Ht H. wbody. w HS. vis. exact H. Qed.
Lemma all_loop c : item_loop c (NAllStmts c).
Proof. intros acc t us Q Ht H. wbody. w HS. exact H. Qed.

Lemma sem_block c o ts l cl : pu PBracketOpen o -> PItems (Some cl) c ts l -> pu PBracketClose cl ->
  PBlock c (o :: ts ++ [cl]) (SBlock z l).
Proof.
  intros Ho H Hc rest Hrest. tokval. nrm. wbody. w HS. w HS.
  eapply W_ok with (P := fun l' => map bare l' = l) (rest := rest).
  - apply (H _ (block_loop c) [] (cl :: rest)); [apply fol_cons; oh|]. intros l' E. wbody. w HS. w HS. now apply okq_intro.
  - intros l' E. w HS. w HS. apply okq_intro. red. cbn. now rewrite E.
Qed.

(** ** Directives and function bodies *)

Definition PDirs (nx : option token) (c : ctx) (ts : list token) (dl : list lit_string) : Prop :=
  forall acc rest Q, fol nx rest ->
    W (body _ (NDirectives c (acc ++ dl))) rest Q -> W (body _ (NDirectives c acc)) (ts ++ rest) Q.
Definition PNoDir (nx : option token) (c : ctx) (ts : list token) : Prop :=
  forall acc rest, fol nx rest ->
    W (body _ (NDirectives c acc)) (ts ++ rest) (okq (fun l => l = acc) (ts ++ rest)).

Lemma is_str_hd t : is_string_literal (Some t) = is_str t.
Proof. reflexivity. Qed.
Lemma directive_bare x : directive_of (bare x) = directive_of x.
Proof.
  destruct x; try reflexivity. cbn [bare directive_of]. match goal with |- context [bare ?e] => destruct e end; try reflexivity.
  cbn [bare]. match goal with |- context [bare ?e] => destruct e end; reflexivity.
Qed.

Lemma string_expr c s t : str_tok s t -> ME 0 c [t] (ELiteral z (LitString s)).
Proof.
  intros H. pose proof H as H'. unfold str_tok in H'.
  assert (Hst : forall k, starts k c [t]).
  { intros k. exists t, []. split; [reflexivity|]. rewrite H'. split; [reflexivity|]. intros E. discriminate E. }
  apply (ME_le D st full HS 16 0); [lia|lia|apply Hst|]. apply PL_P16; [apply Hst|].
  apply PN_PL; [exact HS|apply Hst|intros ? ? ? E; discriminate E|]. apply PM_PN. apply P19_PM; [exact HS|apply Hst|]. now apply sem_string.
Qed.

Lemma sem_dirs_end nx c : PDirs nx c [] [].
Proof. intros acc rest Q Hr H. now rewrite app_nil_r in H. Qed.


End Fwd.
