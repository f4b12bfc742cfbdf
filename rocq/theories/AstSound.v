(** * AstSound: every node of a derived tree is in its place. *)

From Verif Require Import Base Tokens CharReader Lexer LexSpec LexerFacts Ast Prog TokChain ParseState Parser
  Grammar GrammarFacts AstSpec StaticSem.
Local Open Scope string_scope.
Local Open Scope list_scope.

Section AstSound.
Context {PF : Platform}.
Variable D : str.

(** ** The tokens of a derivation are tokens of the source *)

Definition seg (ts : list token) : Prop := exists l1 l2, is_log D (l1 ++ ts ++ l2).

Definition segk := seg.

Lemma seg_l a b : seg (a ++ b) -> seg a.
Proof. intros (l1 & l2 & H). exists l1, (b ++ l2). now rewrite <- app_assoc in H. Qed.
Lemma seg_r a b : seg (a ++ b) -> seg b.
Proof. intros (l1 & l2 & H). exists (l1 ++ a), l2. now rewrite <- !app_assoc in *. Qed.
Lemma seg_hd t b : seg (t :: b) -> seg [t].
Proof. apply (seg_l [t] b). Qed.
Lemma seg_tl t b : seg (t :: b) -> seg b.
Proof. apply (seg_r [t] b). Qed.

Lemma seg_chain ts : seg ts -> exists l pre f, chain D [] true (l ++ ts) pre f.
Proof.
  intros (l1 & l2 & H). rewrite app_assoc in H. apply is_log_app in H. destruct H as (pre & f & H). eauto.
Qed.

Lemma seg_tok t : seg [t] -> exists pre f pre1 f1, tok_at D pre f t pre1 f1.
Proof.
  intros H. destruct (seg_chain _ H) as (l & pre & f & Hc).
  apply chain_split in Hc. destruct Hc as (pre1 & f1 & _ & Hc). inversion Hc; subst. eauto.
Qed.

(** A word token that is not a keyword is spelt differently from all keywords, and is not empty. *)
Lemma seg_ident t x : seg [t] -> t_value t = VIdentifier x -> x <> [] /\ forall k, x <> keyword_str k.
Proof.
  intros H E. destruct (seg_tok _ H) as (pre & f & pre1 & f1 & Ht).
  inversion Ht as [html st gap s after v g b ED Htr Hc Hl Hb1 Hb2 Et|html gap s after v g b ED Htr Hl Hb Et]; subst t; cbn in E; subst v.
  - inversion Hl; subst. match goal with H : word_value _ _ |- _ => destruct H as [(k & _ & Hk)|[Hk Hv]] end; [discriminate|].
    injection Hv as <-. split; [|exact Hk]. match goal with H : word _ _ |- _ => inversion H end; discriminate.
  - inversion Hl.
Qed.

(** ** Ends of statements *)

(** The token that ends at [p] is a semicolon, or what follows it is the end of
    the source, a [}], or a token on a later line. *)
Definition statement_end (p : nat) : Prop :=
  exists toks pre f,
    chain D [] true toks pre f /\ tfin toks = p /\
    ((exists l t, toks = l ++ [t] /\ isp PSemiColon t) \/
     eos_at D pre f \/
     exists t pre' f', tok_at D pre f t pre' f' /\ (isp PBracketClose t \/ t_fol t = true)).

Definition semicolon_ok (n : node) : Prop :=
  match n with
  | SExpr sp _ | SImport sp _ _ _ _ | XDefaultExpr sp _ | XNamed sp _ _ | XNamespace sp _ _ =>
    statement_end (sp_end sp)
  | _ => True
  end.

Lemma terminated_end ts semi : seg (ts ++ semi) -> terminated D ts semi -> statement_end (tfin (ts ++ semi)).
Proof.
  intros Hs. destruct semi as [|t [|]]; cbn [terminated]; [|intros Ht|intros []].
  - rewrite app_nil_r. intros (toks & pre & f & Hc & Hf & H). exists toks, pre, f. auto.
  - destruct (seg_chain _ Hs) as (l & pre & f & Hc). exists (l ++ ts ++ [t]), pre, f. split; [exact Hc|].
    rewrite app_assoc, !tfin_snoc. split; [reflexivity|]. left. exists (l ++ ts), t. auto.
Qed.

(** ** Everything together *)

Definition node_ok (e : env) (n : node) : Prop :=
  return_ok e n /\ await_ok e n /\ yield_ok e n /\ super_ok e n /\ module_ok e n /\ idents_legal e n /\
  targets_ok e n /\ delete_ok e n /\ shape_ok n /\ prec_ok n /\ semicolon_ok n.

Notation sound := (everywhere false node_ok).

Definition compat (c : ctx) (e : env) : Prop :=
  (c_return c = true -> v_fn e = true) /\ c_await c = v_await e /\ c_yield c = v_yield e /\
  (c_in_method c = true -> v_method e = true) /\ (c_super_call c = true -> v_super e = true) /\
  c_strict c = v_strict e /\ c_module c = v_module e.

Definition level_prec (l : level) : nat :=
  match l with
  | LvCoalesce => 3 | LvOr => 4 | LvAnd => 5 | LvBitOr => 6 | LvBitXor => 7 | LvBitAnd => 8
  | LvEquality => 9 | LvRelational => 10 | LvShift => 11 | LvAdditive => 12 | LvMultiplicative => 13
  | LvExponent => 14
  end.

Definition sort_prec (s : sort) : nat :=
  match s with
  | YAssign | YArrow => 1
  | YCond => 2
  | YBin l => level_prec l
  | YUnary => 15
  | YUpdate => 16
  | YLhs | YLhs0 | YOpt | YRec | YMember | YTerm | YPrimary | YFunction | YClass => 17
  | _ => 0
  end.

(** The sort of the members of a list or option. *)
Definition esort (s : sort) : sort :=
  match s with
  | YSep s' | YMany s' | YList s' _ | YRList s' _ _ => s'
  | YInit => YAssign | YHeritage => YLhs | YClassBody hs => YClassElem hs
  | _ => YExpr
  end.

Definition rsort (s : sort) : sort := match s with YRList _ r _ => r | _ => YExpr end.

Definition good1 (s : sort) (e : env) (n : node) : Prop :=
  sort_prec s <= prec n /\
  match s with
  | YClass => forall e0, in_class e0 = e -> sound e0 n
  | YClassElem hs => sound (with_method (hs && is_constructor n) e) n
  | _ => sound e n
  end.

Definition good (s : sort) (e : env) (it : item) : Prop :=
  match it with
  | I n => good1 s e n
  | L l => Forall (good1 (esort s) e) l
  | O o => optP (good1 (esort s) e) o
  | R l r => Forall (good1 (esort s) e) l /\ optP (good1 (rsort s) e) r
  | RO l r => Forall (sound e) (cat_options l) /\ optP (sound e) r
  | Im d ns nm => (forall i, In i (opt_list d ++ opt_list ns) -> legal_name e (id_name i)) /\
      Forall (sound e) (match nm with Some l => l | None => [] end)
  end.

Lemma sound_intro e n :
  node_ok e n -> Forall (fun p => sound (fst p) (snd p)) (child_envs false e n) -> sound e n.
Proof.
  intros H1 H2. apply everywhere_intro; [exact H1|]. intros e1 n1 Hin.
  rewrite Forall_forall in H2. apply (H2 _ Hin).
Qed.

Lemma Forall_pair e l : Forall (sound e) l -> Forall (fun p => sound (fst p) (snd p)) (map (pair e) l).
Proof. intros H. apply Forall_map. exact H. Qed.

Lemma good1_sound s e n :
  match s with YClass | YClassElem _ => False | _ => True end -> good1 s e n -> sound e n.
Proof. intros Hs [_ H]. destruct s; try exact H; destruct Hs. Qed.

Lemma Forall_good s e l :
  match s with YClass | YClassElem _ => False | _ => True end -> Forall (good1 s e) l -> Forall (sound e) l.
Proof. intros Hs. apply Forall_impl. intros n. now apply good1_sound. Qed.

Lemma not_in (x : str) l : existsb (str_eqb x) l = false -> ~ In x l.
Proof.
  intros H Hin. assert (E : existsb (str_eqb x) l = true); [|congruence].
  apply existsb_exists. exists x. split; [exact Hin|]. unfold str_eqb. now destruct (list_eq_dec _ x x).
Qed.

(** Identifiers. *)
Lemma legal c e t i : compat c e -> seg [t] -> ident_tok c t i -> legal_name e (id_name i).
Proof.
  intros (_ & Ha & Hy & _ & _ & Hs & _) Hg [_ [Hi|(k & Hk & Hal & Hn)]].
  - destruct (seg_ident _ _ Hg Hi) as [_ Hne].
    assert (H : forall l, (forall x, In x l -> exists k, x = keyword_str k) -> ~ In (id_name i) l).
    { intros l Hl Hin. destruct (Hl _ Hin) as [k Hk]. now apply (Hne k). }
    split; [|split; [|split]].
    + apply H. intros x Hin. apply in_map_iff in Hin. destruct Hin as (w & <- & Hin). revert w Hin.
      apply Forall_forall. repeat first [apply Forall_nil|apply Forall_cons];
        match goal with |- exists k, chars ?w = _ =>
          match eval vm_compute in (keyword_from_str (chars w)) with Some ?k => exists k; reflexivity end end.
    + intros _. apply H. intros x Hin. apply in_map_iff in Hin. destruct Hin as (w & <- & Hin). revert w Hin.
      apply Forall_forall. repeat first [apply Forall_nil|apply Forall_cons];
        match goal with |- exists k, chars ?w = _ =>
          match eval vm_compute in (keyword_from_str (chars w)) with Some ?k => exists k; reflexivity end end.
    + intros _. apply (Hne KAwait).
    + intros _. apply (Hne KYield).
  - unfold legal_name. rewrite Hn, <- Ha, <- Hy, <- Hs. unfold keyword_context in Hal.
    destruct (c_await c), (c_yield c), (c_strict c), k; cbn in Hal; try discriminate Hal;
      (split; [apply not_in; vm_compute; reflexivity|]);
      (split; [intros HH; first [discriminate HH | apply not_in; vm_compute; reflexivity]|]);
      (split; intros HH; first [discriminate HH | vm_compute; discriminate]).
Qed.

Lemma legal1 c e t i : ident_tok c t i -> compat c e -> seg [t] -> legal_name e (id_name i).
Proof. eauto using legal. Qed.

Ltac segs :=
  repeat match goal with
  | H : seg (_ :: _ :: _) |- _ => pose proof (seg_hd _ _ H); apply seg_tl in H
  | H : seg (_ ++ _) |- _ => pose proof (seg_l _ _ H); apply seg_r in H
  | H : seg (_ :: ?b) |- _ => lazymatch b with [] => fail | _ => pose proof (seg_hd _ _ H); apply seg_tl in H end
  end.

Lemma compat_weaken c c' e e' : compat c e ->
  ((c_return c' = true -> v_fn e' = true) /\ c_await c' = v_await e' /\ c_yield c' = v_yield e' /\
  (c_in_method c' = true -> v_method e' = true) /\ (c_super_call c' = true -> v_super e' = true) /\
  c_strict c' = v_strict e' /\ c_module c' = v_module e') -> compat c' e'.
Proof. auto. Qed.

Ltac cpt :=
  match goal with H : compat _ _ |- _ =>
    let H1 := fresh in let H2 := fresh in let H3 := fresh in let H4 := fresh in let H5 := fresh in
    let H6 := fresh in let H7 := fresh in pose proof H as (H1 & H2 & H3 & H4 & H5 & H6 & H7);
    repeat split; cbn; try first [assumption | reflexivity | discriminate | now intros; discriminate | congruence | tauto]
  end.

Lemma no_idents e n : own_idents e n = [] -> idents_legal e n.
Proof. unfold idents_legal. intros -> e' i []. Qed.

Lemma simple_of c e n : compat c e -> simple_target c n -> simple e n.
Proof.
  intros HC. induction n; cbn; auto. destruct HC as (_ & _ & _ & _ & _ & Hs & _). rewrite <- Hs. tauto.
Qed.

Lemma simple_prec e n : simple e n -> 17 <= prec n.
Proof. destruct n; cbn; try lia; intros []. Qed.

Lemma ids1 e n e' i : own_idents e n = [(e', i)] -> legal_name e' (id_name i) -> idents_legal e n.
Proof. unfold idents_legal. intros -> Hl e1 i1 [E|[]]. injection E as <- <-. exact Hl. Qed.

Lemma ids_opt c e n o ts : own_idents e n = map (pair e) (opt_list o) -> compat c e -> seg ts ->
  opt_name c o ts -> idents_legal e n.
Proof.
  unfold idents_legal. intros -> HC Hs Ho e1 i1 Hin. apply in_map_iff in Hin. destruct Hin as (i & E & Hin).
  injection E as <- <-. destruct ts as [|t [|]]; [cbn in Ho; subst o; destruct Hin| |destruct Ho].
  destruct Ho as (j & -> & Hj). destruct Hin as [<-|[]]. eapply legal; eauto.
Qed.

Lemma prec_opt s e o : optP (good1 s e) o -> optP (fun x => sort_prec s <= prec x) o.
Proof. destruct o; cbn; auto. now intros []. Qed.

Lemma prec_list s e l : Forall (good1 s e) l -> Forall (fun x => sort_prec s <= prec x) l.
Proof. apply Forall_impl. now intros a []. Qed.

Ltac use_compat :=
  match goal with H : compat _ _ |- _ => destruct H as (? & ? & ? & ? & ? & ? & ?); solve [auto | congruence] end.
Ltac idl :=
  first [ apply no_idents; reflexivity
        | eapply ids1; [reflexivity|]; eapply legal1; eassumption ].

Ltac nok :=
  unfold node_ok;
  cbn [return_ok await_ok yield_ok super_ok module_ok targets_ok delete_ok shape_ok prec_ok semicolon_ok optP prec];
  repeat match goal with |- _ /\ _ => split end;
  try exact Logic.I;
  try match goal with
  | |- idents_legal _ _ => idl
  | |- _ <= _ => cbn in *; lia
  | |- v_fn _ = _ => use_compat
  | |- v_await _ = _ => use_compat
  | |- v_yield _ = _ => use_compat
  | |- v_super _ = _ => use_compat
  | |- v_method _ = _ => use_compat
  | |- v_module _ = _ => use_compat
  | |- optP _ _ => solve [eapply (prec_opt YAssign); eassumption | eapply (prec_opt YLhs); eassumption]
  | |- simple _ _ => eapply simple_of; eassumption
  | |- simple _ _ \/ _ => left; eapply simple_of; eassumption
  end.

Lemma sound_leaf e n : node_ok e n -> children n = [] -> sound e n.
Proof.
  intros H Hc. apply sound_intro; [exact H|]. rewrite <- (child_envs_children false e n) in Hc.
  apply map_eq_nil in Hc. rewrite Hc. constructor.
Qed.

Lemma Forall_opt s e o :
  match s with YClass | YClassElem _ => False | _ => True end -> optP (good1 s e) o -> Forall (sound e) (opt_list o).
Proof. intros Hs H. destruct o; cbn in *; constructor; [|constructor]. eapply good1_sound; eauto. Qed.

Ltac inst1 IH E := specialize (IH E ltac:(solve [cpt]) ltac:(assumption)).
Ltac ihs en :=
  repeat match goal with
  | IH : forall e, compat ?c e -> seg ?ts -> good _ e _ |- _ =>
    first [ inst1 IH en
          | lazymatch c with
            | function_ctx _ ?g ?a => inst1 IH (in_function a g en)
            | arrow_body_ctx _ ?a => inst1 IH (in_arrow false a en)
            | with_strict true _ => inst1 IH (in_class en)
            | with_return true (with_strict (_ || contains_strict ?ds) _) => inst1 IH (in_body ds en)
            end ];
    cbn [good esort rsort] in IH
  end.

Ltac g1 := repeat match goal with H : good1 _ _ _ |- _ => let Hp := fresh "Hp" in destruct H as [Hp H]; cbn [sort_prec] in Hp; cbn iota in H end.

Ltac fa :=
  repeat first
  [ apply Forall_nil | apply Forall_cons | apply Forall_app; split | apply Forall_pair ];
  cbn [fst snd];
  try first
  [ assumption
  | solve [eapply good1_sound; [|eassumption]; exact Logic.I]
  | solve [eapply Forall_good; [|eassumption]; exact Logic.I]
  | solve [eapply Forall_opt; [|eassumption]; exact Logic.I] ];
  try match goal with
  | |- sound _ (ArgExpr _) => snd1
  | |- sound _ (EIdentRef _) => snd1
  | |- sound _ (TplString _) => snd1
  | |- sound _ (TplExpr _) => snd1
  | |- sound _ ElemElision => snd1
  | |- sound _ LitNull => snd1
  | |- sound _ (LitBoolean _) => snd1
  | |- sound _ (LitArray _) => snd1
  | |- sound _ (LitObject _) => snd1
  | |- sound _ CalleeSuper => snd1
  | |- sound _ CalleeImport => snd1
  | |- sound _ (ObjSuper _) => snd1
  | |- sound _ (FormalParameters _ _ _) => snd1
  | |- sound _ (BindElement _ _ _) => snd1
  | |- sound _ (BindIdent _) => snd1
  | |- sound _ (SVariable _ _ _) => snd1
  | |- sound _ (LitTemplate _) => snd1
  end
with snd1 := apply sound_intro; [nok | cbn [child_envs children map opt_list app]; fa].
Ltac node := g1; split; [cbn in *; lia|]; snd1.

Lemma str_part_sound e s : Forall (good1 YExpr e) (str_part s).
Proof.
  unfold str_part. destruct (is_empty s); constructor; [|constructor]. split; [cbn; lia|].
  apply sound_intro; [nok|constructor].
Qed.

Lemma inv_method c m ts : der D YMethod c (I m) ts ->
  exists st k c' tst pre n tn p tp b tb sp,
    ts = tst ++ pre ++ tn ++ tp ++ tb /\ static_prefix c st tst /\ mhead c k c' pre /\
    der D YName c (I n) tn /\ m = Method sp n k p b (c_yield c') (c_await c') st.
Proof. intros H. inversion H; subst. repeat eexists; eassumption. Qed.

Lemma const_tok_name c m t ts :
  der D YMethod c (I m) (t :: ts) -> constructor_tok t -> is_constructor m = true.
Proof.
  intros H Ht.
  assert (NK : forall k, ~ isk k t) by (unfold isk; intros k E; destruct Ht as [E1|[d E1]]; congruence).
  assert (NP : forall p, ~ isp p t) by (unfold isp; intros p E; destruct Ht as [E1|[d E1]]; congruence).
  destruct (inv_method _ _ _ H) as (st & k & c' & tst & pre & n & tn & p & tp & b & tb & sp & E & H1 & H2 & H3 & ->).
  destruct tst as [|u [|]]; [| |destruct H1].
  2:{ destruct H1 as (_ & _ & H1). injection E as <- _. now apply NK in H1. }
  cbn in H1. subst st. cbn [app] in E.
  assert (k = MKMethod /\ pre = []) as [-> ->].
  { destruct H2; cbn [app] in E; try (split; reflexivity); injection E as <- _; exfalso;
      first [eapply NK; eassumption | eapply NP; eassumption]. }
  cbn [app] in E. cbn [is_constructor].
  inversion H3; subst; cbn [app] in E; injection E as <- _.
  - match goal with H : str_tok _ _ |- _ => unfold str_tok in H; destruct Ht as [E|[d E]]; [congruence|]; rewrite E in H; injection H as Hv _ end.
    cbn [is_constructor_name]. rewrite <- Hv. reflexivity.
  - destruct Ht as [E|[d E]]; congruence.
  - exfalso. eapply NP; eassumption.
  - match goal with H : name_tok _ _ |- _ => destruct H as [_ [H|(k & H & _)]]; [|exfalso; eapply NK; eassumption];
      destruct Ht as [E|[d E]]; [|congruence]; rewrite E in H; injection H as Hv end.
    cbn [is_constructor_name]. rewrite <- Hv. reflexivity.
Qed.

Lemma rlist_members s r p c l o ts : der D (YRList s r p) c (R l o) ts ->
  Forall (fun x => exists ts, der D s c (I x) ts) l /\ optP (fun x => exists ts, der D r c (I x) ts) o.
Proof.
  intros H. remember (YRList s r p) as s0 eqn:E0. remember (R l o) as it eqn:E1. revert l o E1.
  induction H; intros l0 o0 E1; try discriminate E0; injection E0 as -> -> ->; injection E1 as <- <-; cbn [optP]; eauto.
  destruct (IHder2 eq_refl _ _ eq_refl). eauto.
Qed.

Lemma asgarr_rest c l o ts : der D YAsgArr c (RO l o) ts -> optP (fun x => exists ts, der D YAsgTarget c (I x) ts) o.
Proof.
  intros H. remember YAsgArr as s0 eqn:E0. remember (RO l o) as it eqn:E1. revert l o E1.
  induction H; intros l0 o0 E1; try discriminate E0; injection E1 as <- <-; cbn [optP]; eauto.
Qed.

Lemma inv_pat c p ts : der D YPat c (I p) ts -> pat_shape p.
Proof. intros H. inversion H; exact Logic.I. Qed.
Lemma inv_bindelem c p ts : der D YBindElem c (I p) ts -> elem_shape p.
Proof. intros H. inversion H; subst. cbn. eapply inv_pat; eassumption. Qed.
Lemma inv_params c p ts : der D YParams c (I p) ts -> params_shape p.
Proof.
  intros H. inversion H; subst. match goal with H : der D (YRList _ _ _) _ _ _ |- _ => apply rlist_members in H; destruct H as [Hl Hr] end.
  split.
  - eapply Forall_impl; [|exact Hl]. intros b (tb & Hb). eapply inv_bindelem; eassumption.
  - destruct r as [x|]; [|exact Logic.I]. destruct Hr as [tx Hx]. eapply inv_pat; eassumption.
Qed.

Lemma inv_asg c p ts : der D YAsg c (I p) ts -> pattern p.
Proof. intros H. inversion H; exact Logic.I. Qed.
Lemma inv_asgtarget c e p ts : compat c e -> der D YAsgTarget c (I p) ts -> valid_target e p.
Proof.
  intros HC H. inversion H; subst; [right; eapply inv_asg; eassumption|left; eapply simple_of; eassumption].
Qed.
Lemma inv_fordecl c e p ts : compat c e -> der D YForDecl c (I p) ts ->
  valid_target e p \/ exists sp k q, p = ForBinding sp k q.
Proof.
  intros HC H. inversion H; subst; [right; eauto|left; right; eapply inv_asg; eassumption
    |left; left; eapply simple_of; eassumption].
Qed.

Lemma inv_body c b ts : der D YBody c (I b) ts -> (strict_body b <-> use_strict (body_directives b) = true).
Proof. intros H. inversion H; subst. reflexivity. Qed.

Lemma method_shape sp n k p b g a st c c' tp tb :
  der D YParams c (I p) tp -> der D YBody c' (I b) tb -> method_checks k p b ->
  shape_ok (Method sp n k p b g a st).
Proof.
  intros Hp Hb. apply inv_params in Hp. apply inv_body in Hb. destruct k; cbn [method_checks shape_ok]; unfold method_checks.
  - rewrite (early_method_spec _ _ Hp). tauto.
  - apply (early_getter_spec _ Hp).
  - rewrite (early_setter_spec _ _ Hp). tauto.
Qed.

(** The name of a declaration without a name. *)
Lemma empty_legal e : legal_name e [].
Proof.
  split; [apply not_in; vm_compute; reflexivity|]. split; [intros _; apply not_in; vm_compute; reflexivity|].
  split; intros _; vm_compute; discriminate.
Qed.

Lemma decl_legal c e p i ts : compat c e -> seg ts -> decl_name c p i ts -> legal_name e (id_name i).
Proof.
  intros HC Hs. destruct ts as [|t [|]]; cbn [decl_name]; [intros [_ ->]; apply empty_legal| |intros []].
  intros H. eapply legal; eassumption.
Qed.

Lemma ids_map_opt c e n o ts e1 : own_idents e n = map (pair e1) (opt_list o) -> compat c e1 -> seg ts ->
  opt_name c o ts -> idents_legal e n.
Proof.
  unfold idents_legal. intros -> HC Hs Ho e2 i1 Hin. apply in_map_iff in Hin. destruct Hin as (i & E & Hin).
  injection E as <- <-. destruct ts as [|t [|]]; [cbn in Ho; subst o; destruct Hin| |destruct Ho].
  destruct Ho as (j & -> & Hj). destruct Hin as [<-|[]]. eapply legal; eauto.
Qed.

Lemma end_of ts semi : segk (ts ++ semi) -> terminated D ts semi -> statement_end (sp_end (span_of (ts ++ semi))).
Proof. apply terminated_end. Qed.

Lemma level_bin l b t o : map_operator l b t = Some o ->
  match o with inl x => bin_prec x | inr x => log_prec x end = level_prec l.
Proof.
  unfold map_operator. destruct l, (t_value t); try discriminate;
    repeat match goal with |- match ?x with _ => _ end = _ -> _ => destruct x; try discriminate end; intros [= <-]; reflexivity.
Qed.

Lemma next_prec l : sort_prec (next_sort l) = S (level_prec l).
Proof. now destruct l. Qed.
Lemma next_plain l : match next_sort l with YClass | YClassElem _ => False | _ => True end.
Proof. now destruct l. Qed.

Lemma opt_sound e o : optP (sound e) o -> Forall (sound e) (opt_list o).
Proof. destruct o; cbn; auto. Qed.

Lemma class_elems hs e l : Forall (good1 (YClassElem hs) e) l ->
  Forall (fun p => sound (fst p) (snd p)) (map (fun m => (with_method (hs && is_constructor m)%bool e, m)) l).
Proof. intros H. apply Forall_map. eapply Forall_impl; [|exact H]. now intros m []. Qed.

Ltac ender :=
  match goal with H : terminated D ?a ?b, HK : segk ?ts |- statement_end (sp_end ?sp) =>
    let E := fresh "E" in
    assert (E : ts = a ++ b) by (cbn [app]; repeat (rewrite <- app_assoc; cbn [app]); reflexivity);
    subst sp; first [apply end_of; assumption | rewrite E in *; apply end_of; assumption] end.

Theorem der_good s c it ts : der D s c it ts -> forall e, compat c e -> seg ts -> good s e it.
Proof.
  induction 1; intros en HC HS; try subst ts; pose proof (HS : segk _) as HK; segs.
  all: lazymatch goal with
    | |- good YPropDef _ (I (DefMethod _)) => idtac | |- good YMethod _ _ => idtac | |- _ => ihs en end; cbn [good esort rsort].
  all: try solve [match goal with |- good1 _ _ _ => g1; split; [cbn in *; lia|assumption] end].
  all: try solve [fa | split; fa; exact Logic.I].
  all: try solve [node].
  - destruct IHder2. split; [constructor; assumption|assumption].
  - split; [cbn; lia|]. apply sound_intro; [nok; apply (prec_list YAssign _ _ IHder)|cbn [child_envs children]; fa].
  - node. right. split; [eapply inv_asg; eassumption|reflexivity].
  - destruct IHder as [Hp Hs]. rewrite next_prec in Hp. split; [cbn; lia|].
    pose proof (next_plain l). destruct (next_sort l); try exact Hs; contradiction.
  - destruct IHder1 as [Hp1 Hs1]. cbn in Hp1. apply level_bin in H1.
    assert (Hs2 : sound en r) by (eapply good1_sound; [apply next_plain|eassumption]).
    destruct IHder2 as [Hp2 _]. rewrite next_prec in Hp2. cbn iota in Hs1.
    destruct o; cbn [create_expr]; (split; [cbn [sort_prec prec]; lia|]);
      (apply sound_intro; [nok; lia|cbn [child_envs children map]; fa]).
  - node. destruct o; try exact Logic.I. destruct HC as (_ & _ & _ & _ & _ & Es & _). rewrite <- Es. intros Hst.
    specialize (H2 eq_refl Hst). revert H2. clear. induction e; cbn; tauto.
  - node. eapply (Forall_good YExpr); [exact Logic.I|apply str_part_sound].
  - constructor; [node|apply str_part_sound].
  - constructor; [node|]. apply Forall_app. split; [apply str_part_sound|assumption].
  - destruct l; cbn [literal_node]; node; (apply sound_leaf; [nok|reflexivity]).
  - destruct IHder as [Hp Hs]. split; [exact Hp|]. now apply Hs.
  - constructor; [node|assumption].
  - specialize (IHder (with_method (has_computed_name m && v_super en) en) ltac:(cpt) ltac:(assumption)). cbn [good] in IHder.
    node.
  - specialize (IHder2 (with_function (c_await c) false (with_method (v_super en) en)) ltac:(cpt) ltac:(assumption)).
    specialize (IHder3 (with_function (c_await c) (c_yield c) (with_method (v_super en) en)) ltac:(cpt) ltac:(assumption)).
    specialize (IHder1 (with_method (v_super en) en) ltac:(cpt) ltac:(assumption)).
    cbn [good] in *.
    match goal with H : exists x, n = NameComputed x |- _ => destruct H as [nx ->] end.
    pose proof (method_shape sp (NameComputed nx) MKMethod p b (c_yield c) (c_await c) false _ _ _ _ ltac:(eassumption) ltac:(eassumption) ltac:(eassumption)) as [Hnd Hst].
    node. cbn [has_computed_name andb]. snd1; assumption.
  - specialize (IHder2 (with_function (c_await c') false en)).
    specialize (IHder3 (with_function (c_await c') (c_yield c') en)).
    assert (compat (with_yield false c') (with_function (c_await c') false en)) by (destruct H1; cpt).
    assert (compat c' (with_function (c_await c') (c_yield c') en)) by (destruct H1; cpt).
    specialize (IHder2 ltac:(assumption) ltac:(assumption)). specialize (IHder3 ltac:(assumption) ltac:(assumption)).
    specialize (IHder1 en HC ltac:(assumption)). cbn [good] in *.
    node. eapply (method_shape sp n k p b (c_yield c') (c_await c') st); eassumption.
  - destruct IHder. node.
  - assert (IH2 : Forall (sound (in_body ds en)) l).
    { eapply (Forall_good YItem); [exact Logic.I|]. apply IHder2; [|assumption]. cpt. unfold contains_strict. now f_equal. }
    node.
  - node. eapply ids_map_opt; [reflexivity| | |eassumption]; [cpt|assumption].
  - split; [cbn; lia|]. intros e0 <-. apply sound_intro; [nok|].
    + eapply ids_map_opt; [reflexivity|eassumption| |eassumption]. assumption.
    + cbn [child_envs]. fa. now apply class_elems.
  - specialize (IHder (with_method (hs && is_constructor m)%bool en)). split; [cbn; lia|]. cbn iota.
    eapply (good1_sound YMethod); [exact Logic.I|]. apply IHder; [|assumption].
    assert (Hk : (hs && k)%bool = true -> (hs && is_constructor m)%bool = true).
    { destruct hs; [|discriminate]. destruct k; [|discriminate]. intros _. cbn. eapply const_tok_name; eauto. }
    clear - HC Hk. cpt.
  - destruct IHder. node.
  - destruct IHder. node. now apply opt_sound.
  - destruct IHder2. split; [constructor|]; try assumption. eapply (good1_sound YBindElem); [exact Logic.I|assumption].
  - assert (HT : optP (valid_target en) r).
    { apply rlist_members in H1. destruct H1 as [_ H1]. destruct r; cbn in *; [|exact Logic.I].
      destruct H1. eapply inv_asgtarget; eassumption. }
    destruct IHder. node. assumption.
  - assert (HT : optP (valid_target en) r).
    { apply asgarr_rest in H1. destruct r; cbn in *; [|exact Logic.I].
      destruct H1. eapply inv_asgtarget; eassumption. }
    destruct IHder. node; [assumption|]. now apply opt_sound.
  - destruct IHder2. split; [constructor|]; try assumption. eapply (good1_sound YAsgElem); [exact Logic.I|assumption].
  - node. eapply inv_asgtarget; eassumption.
  - node. eapply inv_asgtarget; eassumption.
  - node. assumption.
  - node. eapply ids1; [reflexivity|]. eapply decl_legal; [eassumption| |eassumption]; assumption.
  - split; [cbn; lia|]. apply sound_intro; [nok|].
    + eapply ids1; [reflexivity|]. eapply decl_legal; [| |eassumption]; [cpt|assumption].
    + cbn [child_envs]. fa. now apply class_elems.
  - node; ender.
  - destruct IHder as [Hi Hn]. node; try ender.
    intros e1 i1 Hin. cbn [own_idents] in Hin. apply in_map_iff in Hin. destruct Hin as (i & E & Hin).
      injection E as <- <-. now apply Hi.
  - split; [|constructor]. intros i0 [<-|[]]. eapply legal1; eassumption.
  - split; [|constructor]. intros i0 Hin. apply in_app_iff in Hin. destruct Hin as [Hin|[<-|[]]]; [|eapply legal1; eassumption].
    destruct td as [|u [|v [|]]]; try contradiction; [subst d; destruct Hin|].
    destruct H0 as (j & -> & Hj & _). destruct Hin as [<-|[]]. segs. eapply legal1; eassumption.
  - split; [|fa]. intros i0 Hin. rewrite app_nil_r in Hin.
    destruct td as [|u [|v [|]]]; try contradiction; [subst d; destruct Hin|].
    destruct H0 as (j & -> & Hj & _). destruct Hin as [<-|[]]. segs. eapply legal1; eassumption.
  - node; ender.
  - node; ender.
  - node; ender.
  - node; ender.
  - node. eapply ids_map_opt; [reflexivity|eassumption| |eassumption]. assumption.
  - node. eapply ids_map_opt; [reflexivity|eassumption| |eassumption]. assumption.
  - node. destruct h; [left; discriminate|right; auto].
  - node; ender.
  - node; eapply inv_fordecl; eassumption.
  - node; try (eapply inv_fordecl; eassumption).
    destruct ta as [|u [|]]; try contradiction; [subst a; exact Logic.I|].
    destruct H1 as (-> & Ha & _). use_compat.
  - assert (IH2 : Forall (sound (in_program ds en)) l).
    { eapply (Forall_good YItem); [exact Logic.I|]. apply IHder2; [|assumption]. change (contains_strict ds) with (use_strict ds).
      destruct HC as (HC1 & HC2 & HC3 & HC4 & HC5 & HC6 & HC7).
      destruct (use_strict ds) eqn:Eu; repeat split; cbn; try rewrite Eu; try rewrite orb_true_r; try rewrite orb_false_r; auto. }
    pose proof HC as (_ & _ & _ & _ & _ & _ & Em).
    destruct (c_module c) eqn:Ec; node; congruence.
Qed.

End AstSound.
