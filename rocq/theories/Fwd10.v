(** * Fwd10: the parser on written modules and programs. *)

From Verif Require Import Base Tokens PeekReader CharReader Lexer LexSpec Ast Prog TokChain ParseState Parser
  ParseRuns Source Stream AstSpec StaticSem Layout Bare Written Starts Forward Fwd1 Fwd2 Fwd3 Fwd4 Fwd5 Fwd7 Fwd8 Fwd9.
Local Open Scope string_scope.
Local Open Scope list_scope.
Local Open Scope prog_scope.

Lemma any_name c x t : name c x t -> anyname x t.
Proof. intros [H|(k & H & _ & E)]; [now left|]. right. eauto. Qed.

Section Fwd.
Context {PF : Platform}.
Variable D : str.
Variable st : lexer_state.
Variable full : list token.
Hypothesis HS : setting D st full.

Notation W := (wpt D st full).
Notation ME := (ME D st full).
Notation PVar := (PVar D st full).
Notation PHoist := (PHoist D st full).
Notation PLex := (PLex D st full).
Notation PItem := (PItem D st full).
Notation PItems := (PItems D st full).
Notation PDirs := (PDirs D st full).
Notation PNoDir := (PNoDir D st full).

Definition PClause (c : ctx) (ts : list token) (d n : option ident) (l : option (list node)) : Prop :=
  forall f rest, t_value f = VKeyword KFrom ->
    W (body _ (NImportClause c)) (ts ++ f :: rest)
      (okq (fun i => option_map bare_ident (ic_default i) = d /\ option_map bare_ident (ic_namespace i) = n /\
                     option_map (map bare) (ic_named i) = l) (f :: rest)).
Definition PImports (c : ctx) (ts : list token) (l : list node) : Prop :=
  forall acc rest, ord_hd rest -> W (body _ (NNamedImportsLoop c acc)) (ts ++ rest) (okq (fun l' => map bare l' = map bare acc ++ l) rest).
Definition PImport (c : ctx) (ts : list token) (a : node) : Prop :=
  forall rest, sep PBracketClose rest -> W (body _ (NImportSpecifier c)) (ts ++ rest) (okq (isb a) rest).
Definition PExports (ts : list token) (l : list node) : Prop :=
  forall acc rest, ord_hd rest -> W (body _ (NNamedExportsLoop acc)) (ts ++ rest) (okq (fun l' => map bare l' = map bare acc ++ l) rest).
Definition PExport (ts : list token) (a : node) : Prop :=
  forall rest, sep PBracketClose rest -> W (body _ NExportSpecifier) (ts ++ rest) (okq (isb a) rest).

Definition fany (v : tvalue) : bool := match v with VIdentifier _ | VKeyword _ => true | _ => false end.

Lemma fany_close t : fany (t_value t) = true -> t_value t <> VPunct PBracketClose.
Proof. intros H E. rewrite E in H. discriminate H. Qed.

(** ** Specifiers *)

Lemma sem_imports_end c t : pu PBracketClose t -> PImports c [t] [].
Proof. intros H acc rest Hrest. tokval. cbn [app]. wbody. w HS. w HS. w HS. apply okq_intro. now rewrite app_nil_r. Qed.
Lemma sem_imports_last c ts a t : head fany ts -> PImport c ts a -> pu PBracketClose t -> PImports c (ts ++ [t]) [a].
Proof.
  intros (u & us & -> & Hu) H Ht acc rest Hrest. pose proof Ht as Ht'. apply fany_close in Hu. tokval. nrm. wbody. w HS.
  eapply W_ok; [apply (H (t :: rest)); exists t, rest; auto|]. intros x Hx.
  apply wpt_b_delim_close; [exact Ht|discriminate|]. w HS.
  eapply wpt_conseq; [apply (sem_imports_end c t Ht' (acc ++ [x]) rest Hrest)|].
  intros r ts' (-> & l' & -> & Hl). apply okq_intro. rewrite Hl, map_app, app_nil_r. cbn. now rewrite Hx.
Qed.
Lemma sem_imports_more c ts a t us l : head fany ts -> PImport c ts a -> pu PComma t -> PImports c us l -> PImports c (ts ++ t :: us) (a :: l).
Proof.
  intros (u & vs & -> & Hu) H Ht Hl acc rest Hrest. apply fany_close in Hu. tokval. nrm. wbody. w HS.
  eapply W_ok; [apply (H (t :: us ++ rest)); exists t, (us ++ rest); auto|]. intros x Hx.
  eapply wpt_b_delim_comma; [exact HS|exact Ht|]. w HS.
  eapply wpt_conseq; [apply (Hl (acc ++ [x])); oh|].
  intros r ts' (-> & l' & -> & E). apply okq_intro. rewrite E, map_app, <- app_assoc. cbn. now rewrite Hx.
Qed.
Lemma sem_import_name c x t : name c x t -> PImport c [t] (NamedImport z (id x) None).
Proof.
  intros H rest (s & rest' & -> & Hsep). cbn [app]. wbody. w HS. eapply W_ok; [apply (name_read D st full HS); eapply any_name; exact H|].
  intros i Hi. apply wpt_b_maybe_no; [apply value_is_false; destruct Hsep as [->| ->]; discriminate|]. w HS. w HS. w HS.
  apply okq_intro. red. cbn. now rewrite Hi.
Qed.
Lemma sem_import_as c x t a y u : anyname x t -> kw KAs a -> name c y u -> PImport c [t; a; u] (NamedImport z (id x) (Some (id y))).
Proof.
  intros H Ha Hu rest Hsep. cbn [app]. wbody. w HS. eapply W_ok; [apply (name_read D st full HS); exact H|].
  intros i Hi. tokval. w HS. w HS. eapply W_ok; [apply (ident_read D st full HS c); exact Hu|]. intros j Hj. w HS. w HS.
  apply okq_intro. red. cbn. now rewrite Hi, Hj.
Qed.

Lemma sem_exports_end t : pu PBracketClose t -> PExports [t] [].
Proof. intros H acc rest Hrest. tokval. cbn [app]. wbody. w HS. w HS. w HS. apply okq_intro. now rewrite app_nil_r. Qed.
Lemma sem_exports_last ts a t : head fany ts -> PExport ts a -> pu PBracketClose t -> PExports (ts ++ [t]) [a].
Proof.
  intros (u & us & -> & Hu) H Ht acc rest Hrest. pose proof Ht as Ht'. apply fany_close in Hu. tokval. nrm. wbody. w HS.
  eapply W_ok; [apply (H (t :: rest)); exists t, rest; auto|]. intros x Hx.
  apply wpt_b_delim_close; [exact Ht|discriminate|]. w HS.
  eapply wpt_conseq; [apply (sem_exports_end t Ht' (acc ++ [x]) rest Hrest)|].
  intros r ts' (-> & l' & -> & Hl). apply okq_intro. rewrite Hl, map_app, app_nil_r. cbn. now rewrite Hx.
Qed.
Lemma sem_exports_more ts a t us l : head fany ts -> PExport ts a -> pu PComma t -> PExports us l -> PExports (ts ++ t :: us) (a :: l).
Proof.
  intros (u & vs & -> & Hu) H Ht Hl acc rest Hrest. apply fany_close in Hu. tokval. nrm. wbody. w HS.
  eapply W_ok; [apply (H (t :: us ++ rest)); exists t, (us ++ rest); auto|]. intros x Hx.
  eapply wpt_b_delim_comma; [exact HS|exact Ht|]. w HS.
  eapply wpt_conseq; [apply (Hl (acc ++ [x])); oh|].
  intros r ts' (-> & l' & -> & E). apply okq_intro. rewrite E, map_app, <- app_assoc. cbn. now rewrite Hx.
Qed.
Lemma sem_export_name x t : anyname x t -> PExport [t] (NamedExport z (id x) None).
Proof.
  intros H rest (s & rest' & -> & Hsep). cbn [app]. wbody. w HS. eapply W_ok; [apply (name_read D st full HS); exact H|].
  intros i Hi. apply wpt_b_maybe_no; [apply value_is_false; destruct Hsep as [->| ->]; discriminate|]. w HS. w HS. w HS.
  apply okq_intro. red. cbn. now rewrite Hi.
Qed.
Lemma sem_export_as x t a y u : anyname x t -> kw KAs a -> anyname y u -> PExport [t; a; u] (NamedExport z (id y) (Some (id x))).
Proof.
  intros H Ha Hu rest Hsep. cbn [app]. wbody. w HS. eapply W_ok; [apply (name_read D st full HS); exact H|].
  intros i Hi. tokval. w HS. w HS. eapply W_ok; [apply (name_read D st full HS); exact Hu|]. intros j Hj. w HS. w HS.
  apply okq_intro. red. cbn. now rewrite Hi, Hj.
Qed.

Lemma named_imports c o ts l rest : pu PBracketOpen o -> PImports c ts l -> ord_hd rest ->
  W (body _ (NNamedImports c)) (o :: ts ++ rest) (okq (fun l' => map bare l' = l) rest).
Proof. intros Ho H Hrest. tokval. wbody. w HS. w HS. apply (H [] rest); oh. Qed.
Lemma named_exports o ts l rest : pu PBracketOpen o -> PExports ts l -> ord_hd rest ->
  W (body _ NNamedExports) (o :: ts ++ rest) (okq (fun l' => map bare l' = l) rest).
Proof. intros Ho H Hrest. tokval. wbody. w HS. w HS. apply (H [] rest); oh. Qed.
Lemma specifier_read t s rest : str_tok s t -> W (body _ NModuleSpecifier) (t :: rest) (okq (fun s' => s' = s) rest).
Proof.
  intros H. unfold str_tok in H. wbody. unfold parse_literal. w HS. w HS. rewrite H. w HS. cbn [literal_node]. w HS. apply okq_intro. now destruct s.
Qed.

(** ** Imports *)

Lemma clause_read c d f us rest (Q : result import_clause perr -> list token -> Prop) :
  (d = None /\ us = []) \/ (exists x t k, d = Some (id x) /\ us = [t; k] /\ name c x t /\ t_value k = VPunct PComma) ->
  (t_value f = VPunct PStar \/ t_value f = VPunct PBracketOpen) ->
  (forall d', option_map bare_ident d' = d ->
    W (let? r := cur_raw in
       if value_is (VPunct PStar) (rok r) then
         let? ns := pcall (NNamespaceImport c) in pret (mk_import_clause d' (Some ns) None)
       else if value_is (VPunct PBracketOpen) (rok r) then
         let? named := pcall (NNamedImports c) in pret (mk_import_clause d' None (Some named))
       else let? t := consume in perror (unexpected_token t)) (f :: rest) Q) ->
  W (body _ (NImportClause c)) (us ++ f :: rest) Q.
Proof.
  intros [[-> ->]|(x & t & k & -> & -> & Hx & Hk)] Hf H; cbn [app].
  - wbody. w HS. rewrite <- isname_ident. replace (isname c (t_value f)) with false by (destruct Hf as [->| ->]; reflexivity). w HS. change (is_none (@None ident)) with true. cbv iota. w HS. apply (H None eq_refl).
  - pose proof (ident_read D st full HS c x t (k :: f :: rest) Hx) as HI. apply name_isname in Hx. wbody. w HS. rewrite <- isname_ident, Hx. w HS.
    eapply W_ok; [exact HI|]. intros i Hi. change (is_none (Some i)) with false. cbv iota. w HS. apply (H (Some i)). cbn. now rewrite Hi.
Qed.
Definition clause_default (c : ctx) (d : option ident) (us : list token) : Prop :=
  (d = None /\ us = []) \/ (exists x t k, d = Some (id x) /\ us = [t; k] /\ name c x t /\ t_value k = VPunct PComma).
Lemma sem_clause_default c x t : name c x t -> PClause c [t] (Some (id x)) None None.
Proof.
  intros H f rest Hf. pose proof (ident_read D st full HS c x t (f :: rest) H) as HI. apply name_isname in H. cbn [app]. wbody. w HS. rewrite <- isname_ident, H. w HS.
  eapply W_ok; [exact HI|]. intros i Hi. change (is_none (Some i)) with false. cbv iota. w HS. w HS. apply okq_intro. cbn. now rewrite Hi.
Qed.
Lemma sem_clause_namespace c d us s a t x : clause_default c d us -> pu PStar s -> kw KAs a -> name c x t ->
  PClause c (us ++ [s; a; t]) d (Some (id x)) None.
Proof.
  intros Hd Hs Ha Hx f rest Hf. tokval. nrm. eapply (clause_read c d s us); [exact Hd|now left|]. intros d' Ed. w HS.
  rewrite (value_is_true _ _ Hs). cbn [app]. eapply W_ok with (P := fun i => bare_ident i = id x) (rest := f :: rest).
  - wbody. w HS. w HS. w HS. exact (ident_read D st full HS c x t (f :: rest) Hx).
  - intros i Hi. w HS. apply okq_intro. cbn. now rewrite Ed, Hi.
Qed.
Lemma sem_clause_named c d us o ts l : clause_default c d us -> pu PBracketOpen o -> PImports c ts l ->
  PClause c (us ++ o :: ts) d None (Some l).
Proof.
  intros Hd Ho H f rest Hf. nrm. unfold pu in Ho. eapply (clause_read c d o us); [exact Hd|now right|]. intros d' Ed. w HS. vis.
  eapply W_ok; [apply (named_imports c o ts l (f :: rest) Ho H); oh|]. intros l' E. w HS. apply okq_intro. cbn. now rewrite Ed, E.
Qed.

Lemma decl_item nx c ts a : (forall rest, fol nx rest -> W (body _ (NDeclaration c)) (ts ++ rest) (okq (someb a) rest)) -> PItem nx c ts a.
Proof. intros H. apply sem_lex_item. exact H. Qed.

Lemma sem_import_bare nx c i t s us : c_module c = true -> kw KImport i -> str_tok s t -> ends us nx ->
  PItem nx c (i :: t :: us) (SImport z None None None s).
Proof.
  intros Hm Hi Ht Hu. apply decl_item. intros rest Hr. unfold kw in Hi. cbn [app]. wbody. w HS. rewrite Hi. cbv beta iota zeta. rewrite Hm. cbn [negb].
  apply (some_ret D st full). wbody. w HS. w HS. apply wpt_b_string. cbn [hdo hd_error]. rewrite is_str_hd. unfold is_str. pose proof Ht as Ht'. unfold str_tok in Ht'. rewrite Ht'.
  w HS. wbody. eapply W_ok; [apply (specifier_read t s (us ++ rest) Ht)|]. intros s' ->.
  eapply (osemi_read D st full HS); [exact Hu|exact Hr|]. w HS. w HS. now apply okq_intro.
Qed.
Lemma sem_import nx c i cs d ns nm f t s us : c_module c = true -> kw KImport i ->
  head (fun v => match v with VPunct PStar | VPunct PBracketOpen => true | _ => isname c v end) cs ->
  PClause c cs d ns nm -> kw KFrom f -> str_tok s t -> ends us nx ->
  PItem nx c (i :: cs ++ f :: t :: us) (SImport z d ns nm s).
Proof.
  intros Hm Hi (w & ws & -> & Hw) Hc Hf Ht Hu. apply decl_item. intros rest Hr. unfold kw in Hi, Hf. pose proof (Hc f (t :: us ++ rest) Hf) as HC. nrm. cbn [app] in HC.
  wbody. w HS. rewrite Hi. cbv beta iota zeta. rewrite Hm. cbn [negb].
  apply (some_ret D st full). wbody. w HS. w HS. apply wpt_b_string. cbn [hdo hd_error]. rewrite is_str_hd.
  assert (E : is_str w = false) by (unfold is_str; destruct (t_value w) as [| |[]|[]| | |]; try reflexivity; discriminate Hw). rewrite E.
  eapply W_ok; [exact HC|]. intros [d' n' l'] (E1 & E2 & E3). cbn [ic_default ic_namespace ic_named] in *. w HS.
  eapply W_ok; [apply (specifier_read t s (us ++ rest) Ht)|]. intros s' ->.
  eapply (osemi_read D st full HS); [exact Hu|exact Hr|]. w HS. w HS. apply okq_intro. red. cbn. now rewrite E1, E2, E3.
Qed.

(** ** Exports *)

Lemma export_read nx c e ts a : c_module c = true -> kw KExport e ->
  (forall start rest, fol nx rest -> W (let? r := cur_raw in
  let unexpected := let? t := consume in perror (unexpected_token t) in
  match r with
  | Ok t =>
    match t_value t with
    | VPunct PBracketOpen => pcall (NNamedExport start)
    | VPunct PStar => pcall (NNamespaceExport start)
    | VKeyword KVar => pcall (NVarExport c start)
    | VKeyword KLet | VKeyword KConst | VKeyword KFunction | VKeyword KClass =>
      pcall (NDeclExport c start)
    | VKeyword KAsync =>
      let? f := peek_matches (VKeyword KFunction) in
      if f then pcall (NDeclExport c start) else unexpected
    | VKeyword KDefault => pcall (NDefaultExport c start)
    | _ => unexpected
    end
  | Err _ => unexpected
  end) (ts ++ rest) (okq (isb a) rest)) -> PItem nx c (e :: ts) a.
Proof.
  intros Hm He H. apply decl_item. intros rest Hr. unfold kw in He. cbn [app]. wbody. w HS. rewrite He. cbv beta iota zeta. rewrite Hm. cbn [negb].
  apply (some_ret D st full). wbody. w HS. w HS. apply (H _ rest Hr).
Qed.

Lemma sem_export_named nx c e o ts l us : c_module c = true -> kw KExport e -> pu PBracketOpen o -> PExports ts l ->
  ends us nx -> (forall t, nx = Some t -> ~ kw KFrom t) -> PItem nx c (e :: o :: ts ++ us) (XNamed z l None).
Proof.
  intros Hm He Ho H Hu Hn. apply export_read; [exact Hm|exact He|]. intros start rest Hr. nrm. w HS. pose proof Ho as Ho'. unfold pu in Ho'. rewrite Ho'. w HS. wbody.
  eapply W_ok; [apply (named_exports o ts l (us ++ rest) Ho H); oh|]. intros l' E.
  assert (N : value_is (VKeyword KFrom) (hdo (us ++ rest)) = false).
  { destruct Hu as [(t & -> & Ht)|[-> Hu]]; cbn [app].
    - apply value_is_false. unfold pu in Ht. rewrite Ht. discriminate.
    - destruct rest as [|t rest]; [reflexivity|]. apply value_is_false. intros Ev. apply (Hn t); [now destruct Hr as [<- _]|exact Ev]. }
  apply wpt_b_maybe_no; [exact N|]. w HS. eapply (osemi_read D st full HS); [exact Hu|exact Hr|]. w HS. w HS. apply okq_intro. red. cbn. now rewrite E.
Qed.
Lemma sem_export_from nx c e o ts l f t s us : c_module c = true -> kw KExport e -> pu PBracketOpen o -> PExports ts l ->
  kw KFrom f -> str_tok s t -> ends us nx -> PItem nx c (e :: o :: ts ++ f :: t :: us) (XNamed z l (Some s)).
Proof.
  intros Hm He Ho H Hf Ht Hu. apply export_read; [exact Hm|exact He|]. intros start rest Hr. nrm. w HS. pose proof Ho as Ho'. unfold pu in Ho'. unfold kw in Hf. rewrite Ho'. w HS. wbody.
  eapply W_ok; [apply (named_exports o ts l (f :: t :: us ++ rest) Ho H); oh|]. intros l' E. w HS. w HS.
  eapply W_ok; [apply (specifier_read t s (us ++ rest) Ht)|]. intros s' ->.
  eapply (osemi_read D st full HS); [exact Hu|exact Hr|]. w HS. w HS. apply okq_intro. red. cbn. now rewrite E.
Qed.
Lemma sem_export_all nx c e s f t m us : c_module c = true -> kw KExport e -> pu PStar s -> kw KFrom f -> str_tok m t ->
  ends us nx -> PItem nx c (e :: s :: f :: t :: us) (XNamespace z None m).
Proof.
  intros Hm He Hs Hf Ht Hu. apply export_read; [exact Hm|exact He|]. intros start rest Hr. cbn [app]. w HS. unfold pu in Hs. unfold kw in Hf. rewrite Hs. w HS. wbody.
  w HS. w HS. w HS. w HS. eapply W_ok; [apply (specifier_read t m (us ++ rest) Ht)|]. intros s' ->.
  eapply (osemi_read D st full HS); [exact Hu|exact Hr|]. w HS. w HS. now apply okq_intro.
Qed.
Lemma sem_export_all_as nx c e s a u x f t m us : c_module c = true -> kw KExport e -> pu PStar s -> kw KAs a -> anyname x u ->
  kw KFrom f -> str_tok m t -> ends us nx -> PItem nx c (e :: s :: a :: u :: f :: t :: us) (XNamespace z (Some (id x)) m).
Proof.
  intros Hm He Hs Ha Hx Hf Ht Hu. apply export_read; [exact Hm|exact He|]. intros start rest Hr. cbn [app]. w HS. unfold pu in Hs. unfold kw in Hf, Ha. rewrite Hs. w HS. wbody.
  w HS. w HS. w HS. eapply W_ok; [apply (name_read D st full HS); exact Hx|]. intros i Hi. w HS.
  eapply W_ok; [apply (specifier_read t m (us ++ rest) Ht)|]. intros s' ->.
  eapply (osemi_read D st full HS); [exact Hu|exact Hr|]. w HS. w HS. apply okq_intro. red. cbn. now rewrite Hi.
Qed.
Lemma sem_export_var nx c e ts a : c_module c = true -> kw KExport e -> var_start VKVar c ts -> PVar nx VKVar c ts a -> PItem nx c (e :: ts) (XDecl z a).
Proof.
  intros Hm He (t & u & us & -> & Ht & _) H. apply export_read; [exact Hm|exact He|]. intros start rest Hr.
  pose proof (H rest Hr) as HV. change (t_value t = VKeyword KVar) in Ht. cbn [app] in *. w HS. rewrite Ht. w HS. wbody.
  eapply W_ok; [exact HV|]. intros x Hx. w HS. w HS. apply okq_intro. red. cbn. now rewrite Hx.
Qed.
Lemma required_read c ts a rest : W (body _ (NDeclaration c)) ts (okq (someb a) rest) -> W (body _ (NRequiredDecl c)) ts (okq (isb a) rest).
Proof.
  intros H. wbody. eapply W_ok; [exact H|]. intros [x|] Hx; [|discriminate Hx]. w HS. apply okq_intro. unfold someb in Hx. cbn in Hx. red. congruence.
Qed.
Lemma sem_export_decl nx c e ts a : c_module c = true -> kw KExport e -> hoist_start ts \/ var_start VKLet c ts \/ var_start VKConst c ts ->
  PLex nx c ts a -> PItem nx c (e :: ts) (XDecl z a).
Proof.
  intros Hm He Hst H. apply export_read; [exact Hm|exact He|]. intros start rest Hr. pose proof (H rest Hr) as HD.
  assert (HE : W (body _ (NDeclExport c start)) (ts ++ rest) (okq (isb (XDecl z a)) rest)).
  { wbody. eapply W_ok; [apply required_read; exact HD|]. intros x Hx. w HS. w HS. apply okq_intro. red. cbn. now rewrite Hx. }
  destruct Hst as [(t & ts' & -> & Ht)|[(t & u & us & -> & Ht & _)|(t & u & us & -> & Ht & _)]]; cbn [app] in *; w HS.
  - destruct Ht as [Ht|[Ht|(Ht & u & us & -> & Hu & _)]]; rewrite Ht.
    + w HS. exact HE.
    + w HS. exact HE.
    + cbn [app] in *. cbv beta iota zeta. w HS. w HS. exact HE.
  - change (t_value t = VKeyword KLet) in Ht. rewrite Ht. w HS. exact HE.
  - change (t_value t = VKeyword KConst) in Ht. rewrite Ht. w HS. exact HE.
Qed.
Lemma default_read nx c e d ts a : c_module c = true -> kw KExport e -> kw KDefault d ->
  (forall start rest, fol nx rest -> W (let? t := current in
  let? f := peek_matches (VKeyword KFunction) in
  if (value_is (VKeyword KClass) (Some t) || value_is (VKeyword KFunction) (Some t)
      || (value_is (VKeyword KAsync) (Some t) && f))%bool then
    pcall (NDeclDefaultExport (with_default true c) start)
  else
    let? e := pcall (NAssignment (with_in true c)) in
    consume_optional_semicolon;?
    let? span := span_from start in
    pret (XDefaultExpr span e)) (ts ++ rest) (okq (isb a) rest)) ->
  PItem nx c (e :: d :: ts) a.
Proof.
  intros Hm He Hd H. apply export_read; [exact Hm|exact He|]. intros start rest Hr. unfold kw in Hd. cbn [app]. w HS. rewrite Hd. w HS. wbody. w HS. apply (H start rest Hr).
Qed.
Lemma sem_export_default_decl nx c e d ts a : c_module c = true -> kw KExport e -> kw KDefault d -> hoist_start ts ->
  PHoist (with_default true c) ts a -> PItem nx c (e :: d :: ts) (XDefaultDecl z a).
Proof.
  intros Hm He Hd Hst H. apply default_read; [exact Hm|exact He|exact Hd|]. intros start rest Hr. pose proof (H rest (fol_ord _ _ Hr)) as HD.
  assert (HE : W (body _ (NDeclDefaultExport (with_default true c) start)) (ts ++ rest) (okq (isb (XDefaultDecl z a)) rest)).
  { wbody. eapply W_ok; [apply required_read; exact HD|]. intros x Hx. w HS. w HS. apply okq_intro. red. cbn. now rewrite Hx. }
  destruct Hst as (t & ts' & -> & Ht). cbn [app] in *. w HS.
  destruct Ht as [Ht|[Ht|(Ht & u & us & -> & Hu & _)]].
  - apply wpt_b_peek_matches; [exact HS|clr|]. vis. w HS. exact HE.
  - apply wpt_b_peek_matches; [exact HS|clr|]. vis. w HS. exact HE.
  - cbn [app] in *. apply wpt_b_peek_matches; [exact HS|clr|]. vis. w HS. exact HE.
Qed.
Lemma sem_export_default nx c e d ts a us : c_module c = true -> kw KExport e -> kw KDefault d -> starts 1 c ts -> ME 1 (with_in true c) ts a ->
  not_first [VKeyword KFunction; VKeyword KClass] ts ->
  (forall t u vs, ts = t :: u :: vs -> ~ (kw KAsync t /\ kw KFunction u)) -> ends_expr us nx ->
  PItem nx c (e :: d :: ts ++ us) (XDefaultExpr z a).
Proof.
  intros Hm He Hd (t & ts' & -> & Ht & Hsec) H Hnf Has Hu. apply default_read; [exact Hm|exact He|exact Hd|]. intros start rest Hr.
  pose proof (H (us ++ rest) (stops_le 0 1 _ _ ltac:(lia) (ends_stops us nx rest _ Hu Hr))) as HE. nrm. cbn [app] in HE. w HS. apply wpt_b_peek_matches_any; [exact HS|]. intros r Hpk. cbn [tl] in Hpk.
  cbn [not_first In] in Hnf. rewrite (value_is_false (VKeyword KClass)) by intuition congruence. rewrite (value_is_false (VKeyword KFunction)) by intuition congruence.
  cbn [orb]. replace (value_is (VKeyword KAsync) (Some t) && _)%bool with false.
  - eapply W_ok; [exact HE|]. intros x Hx. eapply (osemi_read D st full HS); [apply ends_expr_ends; exact Hu|exact Hr|]. w HS. w HS.
    apply okq_intro. red. cbn. now rewrite Hx.
  - destruct (tvalue_eq_dec (t_value t) (VKeyword KAsync)) as [Ev|Ev]; [|now rewrite (value_is_false _ _ Ev)].
    rewrite (value_is_true _ _ Ev). cbn [andb]. destruct ts' as [|u ts'].
    + exfalso. rewrite Ev in Hsec. now apply Hsec.
    + symmetry. rewrite Hpk by clr. cbn [app hdo hd_error]. apply value_is_false. intros E. apply (Has t u ts' eq_refl). now split.
Qed.

(** ** Programs *)

Lemma sem_program c ds dl ts l : ord_hd ts -> PDirs (first ts None) c ds dl -> PNoDir None c ts ->
  PItems None (with_strict (c_strict c || use_strict dl) c) ts l ->
  W (body _ (NProgram c)) (ds ++ ts) (okq (isb (if c_module c then Module z dl l else Script z dl l)) []).
Proof.
  intros Hots Hd Hn Hl. assert (Hnil : fol None []) by (split; [reflexivity|exact Logic.I]). wbody. w HS.
  eapply W_ok with (P := fun l' => l' = dl) (rest := ts).
  - pose proof (first_hd ts None [] Hots Hnil) as E. rewrite app_nil_r in E. apply (Hd [] ts); [exact E|].
    pose proof (Hn ([] ++ dl) [] Hnil) as HN. rewrite app_nil_r in HN. exact HN.
  - intros dl' ->. change (contains_strict dl) with (use_strict dl).
    assert (HL : W (body _ (NAllStmts (with_strict (c_strict c || use_strict dl) c) [])) ts (okq (fun l' => map bare l' = l) [])).
    { pose proof (Hl _ (all_loop D st full _) [] [] (okq (fun l' => map bare l' = l) []) Hnil) as E. rewrite app_nil_r in E. apply E. clear E.
      intros l' E. wbody. w HS. w HS. now apply okq_intro. }
    assert (Hk : forall l', map bare l' = l -> forall s, W (let? span := span_from s in pret (if c_module c then Module span dl l' else Script span dl l')) []
      (okq (isb (if c_module c then Module z dl l else Script z dl l)) [])).
    { intros l' E s. w HS. w HS. apply okq_intro. red. destruct (c_module c); cbn; now rewrite E. }
    destruct (use_strict dl) eqn:Eu.
    + rewrite Bool.orb_true_r in HL. eapply W_ok; [exact HL|]. intros l' E. now apply Hk.
    + rewrite Bool.orb_false_r in HL. replace (with_strict (c_strict c) c) with c in HL by now destruct c.
      eapply W_ok; [exact HL|]. intros l' E. now apply Hk.
Qed.

End Fwd.
