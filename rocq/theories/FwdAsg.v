(** * FwdAsg: the parser on written assignment patterns.

    A pattern is first read as an array or object literal. Reading it so can fail, at the initial value
    of a property written as a name, [{a = 1}]; then the parser starts again and reads it as a pattern. *)

From Verif Require Import Base Tokens PeekReader CharReader Lexer LexSpec Ast Prog TokChain ParseState Parser
  ParseRuns Source Stream AstSpec StaticSem Layout Bare Written Starts Forward Fwd1 Fwd2 Fwd3 Fwd4 Fwd5 Fwd6 Fwd9.
Local Open Scope string_scope.
Local Open Scope list_scope.
Local Open Scope prog_scope.

Definition is_lit (x : node) : bool :=
  match x with ELiteral _ (LitArray _) | ELiteral _ (LitObject _) => true | _ => false end.
Lemma is_lit_bare x : is_lit (bare x) = is_lit x.
Proof. destruct x; try reflexivity. cbn [bare is_lit]. match goal with |- context [bare ?v] => now destruct v end. Qed.
Lemma is_lit_inv x : is_lit x = true -> exists sp l, x = ELiteral sp (LitArray l) \/ x = ELiteral sp (LitObject l).
Proof.
  destruct x; intros H; try discriminate H. cbn [is_lit] in H. match type of H with context [match ?v with _ => _ end] => destruct v end; try discriminate H; eauto.
Qed.

Definition asg_parts (x : node) : option (node * option node) := match x with AsgElement _ p i => Some (p, i) | _ => None end.

Section Fwd.
Context {PF : Platform}.
Variable D : str.
Variable st : lexer_state.
Variable full : list token.
Hypothesis HS : setting D st full.

Notation W := (wpt D st full).
Notation P := (P D st full).
Notation ME := (ME D st full).
Notation PSeq2 := (PSeq2 D st full).
Notation PElems := (PElems D st full).
Notation PElem := (PElem D st full).
Notation PProps := (PProps D st full).
Notation PProp := (PProp D st full).
Notation PName := (PName D st full).
Notation PInit := (PInit D st full).
Notation PParams := (PParams D st full).
Notation PConcise := (PConcise D st full).
Notation PForLeft := (PForLeft D st full).

(** ** Failing at an initial value *)

Definition bad_err (e : perr) : Prop := pe_kind e = PInitializedNameNotAllowed.
Definition bad {A : Set} : result A perr -> list token -> Prop := errx bad_err (fun _ => True).
Lemma bad_intro {A : Set} e ts : bad_err e -> @bad A (Err e) ts.
Proof. intros H. split; [exact Logic.I|]. now exists e. Qed.
Lemma W_bad {A B : Set} (n : nt B) (k : B -> prg A) ts : W (body B n) ts bad -> W (pbind (pcall n) k) ts bad.
Proof. apply W_errx. Qed.
Lemma W_bad_try {A B : Set} (n : nt B) (k : result B perr -> prg A) ts Q :
  W (body B n) ts bad -> (forall e rest, bad_err e -> W (k (Err e)) rest Q) -> W (pbind (ptry n) k) ts Q.
Proof. intros H Hk. eapply W_errx_try; [exact H|]. intros e rest He _. now apply Hk. Qed.

Definition bracket (ts : list token) : Prop :=
  exists t us, ts = t :: us /\ (t_value t = VPunct PBraceOpen \/ t_value t = VPunct PBracketOpen).
Definition literal (e : node) : Prop := exists l, e = ELiteral z (LitArray l) \/ e = ELiteral z (LitObject l).

Definition Bad (c : ctx) (ts : list token) : Prop :=
  forall rest, stops 1 c rest -> W (body node (NAssignment c)) (ts ++ rest) bad.
Definition Cov (c : ctx) (ts : list token) : Prop := (exists e, ME 1 c ts e) \/ Bad c ts.

Definition PAsg (c : ctx) (ts : list token) (p : node) : Prop :=
  bracket ts /\
  (forall rest, ord_hd rest -> W (body _ (NAsgPattern c)) (ts ++ rest) (okq (isb p) rest)) /\
  ((exists e, literal e /\ ME 19 c ts e) \/ (forall rest, W (body _ (NPrimary c)) (ts ++ rest) bad)).
Definition PAsgT (c : ctx) (ts : list token) (p : node) : Prop :=
  (forall rest, stops 2 c rest -> W (body _ (NAsgTarget c)) (ts ++ rest) (okq (isb p) rest)) /\
  Cov c ts /\
  (forall t us b, pu PEqual t -> ord_hd us -> ME 1 c us b -> exists e, ME 1 c (ts ++ t :: us) e).
Definition PAsgE (c : ctx) (ts : list token) (p : node) : Prop :=
  (forall rest, stops 1 (with_in true c) rest -> W (body _ (NAsgElement c)) (ts ++ rest) (okq (isb p) rest)) /\ Cov c ts.
Definition PAsgs (c : ctx) (ts : list token) (l : list (option node)) (r : option node) : Prop :=
  (forall acc rest, ord_hd rest -> W (body _ (NArrayAsgLoop c acc)) (ts ++ rest)
    (okq (fun p => map (option_map bare) (fst p) = map (option_map bare) acc ++ l /\ option_map bare (snd p) = r) rest)) /\
  ((exists l', PElems c ts l') \/ (forall acc rest, W (body _ (NArrayLoop c acc)) (ts ++ rest) bad)).
Definition PAsgProps (c : ctx) (ts : list token) (l : list node) (r : option node) : Prop :=
  (forall acc rest, ord_hd rest -> W (body _ (NObjectAsgLoop c acc)) (ts ++ rest)
    (okq (fun p => map bare (fst p) = map bare acc ++ l /\ option_map bare (snd p) = r) rest)) /\
  ((exists l', PProps c ts l') \/ (forall acc rest, W (body _ (NObjectLoop c acc)) (ts ++ rest) bad)).
Definition PAsgProp (c : ctx) (ts : list token) (a : node) : Prop :=
  (forall acc rest Q, sep PBracketClose rest ->
    (forall p, bare p = a ->
       W (consume_list_delimiter (VPunct PBracketClose);? pcall (NObjectAsgLoop c (acc ++ [p]))) rest Q) ->
    W (body _ (NObjectAsgLoop c acc)) (ts ++ rest) Q) /\
  ((exists d, PProp c ts d) \/
   (forall acc rest, sep PBracketClose rest -> W (body _ (NObjectLoop c acc)) (ts ++ rest) bad)).
Definition PAsgSeq (c : ctx) (ts : list token) : Prop :=
  (exists l e, PSeq2 c ts l /\ ME 0 c ts e) \/
  ((forall start acc rest, stops 1 c rest ->
     W (pbind (pcall (NAssignment c)) (fun e => pcall (NSequence c start (acc ++ [e])))) (ts ++ rest) bad) /\
   (forall rest, stops 1 c rest -> W (body _ (NExpr c)) (ts ++ rest) bad)).

(** ** A literal is an expression *)

Lemma bracket_starts c ts : bracket ts -> starts 19 c ts.
Proof. intros (t & us & -> & [E|E]); apply starts_kw; now rewrite E. Qed.
Lemma bracket_front ts : bracket ts -> exists t us, ts = t :: us /\ front (t_value t).
Proof. intros (t & us & -> & H). exists t, us. split; [reflexivity|]. unfold front. tauto. Qed.

Lemma literal_up c ts e : bracket ts -> ME 19 c ts e -> ME 16 c ts e.
Proof.
  intros Hb H. pose proof (bracket_starts c ts Hb) as Hs. apply (PL_P16 D st full); [eapply starts_le; [|exact Hs]; lia|].
  apply (PN_PL D st full HS); [eapply starts_le; [|exact Hs]; lia| |].
  - destruct Hb as (t & us & -> & Ht). intros t' u us' E Hsp. injection E as -> ->.
    destruct Hsp as [E|E], Ht as [F|F]; congruence.
  - apply (PM_PN D st full). apply (P19_PM D st full HS); assumption.
Qed.
Lemma literal_ME c ts e k : k <= 16 -> bracket ts -> ME 19 c ts e -> ME k c ts e.
Proof.
  intros Hk Hb H. apply (ME_le D st full HS 16 k); [exact Hk|lia|eapply starts_le; [|apply bracket_starts; exact Hb]; lia|].
  now apply literal_up.
Qed.

Lemma bad_conditional c ts rest : bracket ts -> W (body _ (NPrimary c)) (ts ++ rest) bad -> 
  W (body _ (NConditionalOrArrow c)) (ts ++ rest) bad.
Proof.
  intros Hb H. destruct (bracket_front ts Hb) as (t & us & -> & Hf). cbn [app] in *. wbody. w HS.
  apply W_bad_try; [apply fail_conditional; assumption|]. intros e r He. unfold bad_err in He. rewrite He.
  destruct (Nat.eqb _ _); w HS; now apply bad_intro.
Qed.

(** After the failure the pattern is read; without an [=] the failure stands. *)
Lemma bad_assign c ts p rest Q : ord_hd rest -> bracket ts ->
  (forall rest, ord_hd rest -> W (body _ (NAsgPattern c)) (ts ++ rest) (okq (isb p) rest)) ->
  (forall rest, W (body _ (NPrimary c)) (ts ++ rest) bad) ->
  (forall start e x, bad_err e -> bare x = p ->
     W (let? o := parse_optional_assignment_operator in
        match o with
        | Some AAssign => pcall (NAssignRight c start x AAssign)
        | _ => perror e
        end) rest Q) ->
  W (body node (NAssignment c)) (ts ++ rest) Q.
Proof.
  intros Hr Hb Hp Hx Hk. specialize (Hp rest Hr). specialize (Hx rest). pose proof (bad_conditional c ts rest Hb Hx) as HC.
  destruct (bracket_front ts Hb) as (t & us & -> & Hf). cbn [app] in *.
  destruct Hb as (t' & us' & E & Ht). injection E as <- <-.
  apply assign_opener; [exact HS|exact Hf|]. apply wpt_sfx. intros Hsfx. apply W_bad_try; [exact HC|]. intros e r He. pose proof He as He'. unfold bad_err in He'.
  rewrite He'. eapply wpt_b_rewind; [exact HS|oh|exact Hsfx|]. w HS. w HS.
  destruct Ht as [Ht|Ht]; rewrite ?(value_is_true (VPunct PBracketOpen) t), ?(value_is_true (VPunct PBraceOpen) t) by exact Ht; cbn [negb andb];
    rewrite ?Bool.andb_false_r; (eapply W_ok; [exact Hp|]; intros x Hxx; now apply Hk).
Qed.

Lemma asg_bad c ts p : bracket ts ->
  (forall rest, ord_hd rest -> W (body _ (NAsgPattern c)) (ts ++ rest) (okq (isb p) rest)) ->
  (forall rest, W (body _ (NPrimary c)) (ts ++ rest) bad) -> Bad c ts.
Proof.
  intros Hb Hp Hx rest Hs. eapply bad_assign; [oh|exact Hb|exact Hp|exact Hx|]. intros start e x He _.
  eapply no_assign_op; [exact Hs|]. w HS. now apply bad_intro.
Qed.

Lemma asg_cov c ts p : PAsg c ts p -> Cov c ts.
Proof.
  intros (Hb & Hp & [(e & _ & He)|Hx]).
  - left. exists e. apply literal_ME; [lia|exact Hb|exact He].
  - right. eapply asg_bad; eassumption.
Qed.

(** ** Destructuring assignment *)

Lemma sem_assign_pattern c ts p t us b : PAsg c ts p -> pu PEqual t -> ord_hd us -> ME 1 c us b ->
  ME 1 c (ts ++ t :: us) (EAssign z AAssign p b).
Proof.
  intros (Hb & Hp & Hcov) Ht Hus H rest Hs. change (nt_of 1 c) with (NAssignment c). rewrite <- app_assoc. cbn [app]. unfold pu in Ht.
  assert (HR : forall s x, bare x = p ->
    W (body node (NAssignRight c s x AAssign)) (us ++ rest) (okq (isb (EAssign z AAssign p b)) rest)).
  { intros s x Hx. wbody. change (NAssignment c) with (nt_of 1 c). eapply W_ok; [apply H; exact Hs|].
    intros y Hyy. w HS. w HS. apply okq_intro. red. cbn. now rewrite Hx, Hyy. }
  destruct Hcov as [(e & Hl & He)|Hx].
  - assert (H2 : ME 3 c ts e) by (apply literal_ME; [lia|exact Hb|exact He]).
    assert (H3 : P 2 c ts e) by (apply PB_P2; exact H2).
    specialize (H3 (t :: us ++ rest)). specialize (Hp (t :: us ++ rest) ltac:(oh)). change (nt_of 2 c) with (NConditional c) in H3.
    assert (H4 : stops 2 c (t :: us ++ rest)) by stp. specialize (H3 H4).
    destruct (bracket_front ts Hb) as (t0 & us0 & -> & Hf). cbn [app] in *.
    destruct Hb as (t' & us' & E & Ht0). injection E as <- <-.
    apply assign_opener; [exact HS|exact Hf|]. apply wpt_sfx. intros Hsfx.
    eapply wpt_b_ok_try with (P := isb e) (rest := t :: us ++ rest).
    + wbody. w HS. eapply wpt_b_ok_try; [exact H3|]. intros x Hx. w HS. apply okq_intro. exact Hx.
    + intros x Hx. eapply (an_assign_op D st full HS AAssign); [exact Ht|oh|]. cbv beta iota.
      assert (HN : W (pop (ORewind t0);? let? pattern := pcall (NAsgPattern c) in consume_assert (VPunct PEqual);? pret pattern)
        (us ++ rest) (okq (isb p) (us ++ rest))).
      { eapply wpt_b_rewind; [exact HS|oh|exact Hsfx|]. eapply W_ok; [exact Hp|]. intros y Hy. w HS. w HS. now apply okq_intro. }
      apply wpt_bind. unfold normalize_left_side_assignment.
      assert (E : exists sp l', x = ELiteral sp (LitArray l') \/ x = ELiteral sp (LitObject l')).
      { apply is_lit_inv. rewrite <- is_lit_bare. red in Hx. rewrite Hx. destruct Hl as (l & [->| ->]); reflexivity. }
      destruct E as (sp & l' & [->| ->]); (eapply wpt_conseq; [exact HN|]; intros r ts' (-> & y & -> & Hy); w HS; now apply HR).
  - eapply bad_assign; [oh|exact Hb|exact Hp|exact Hx|]. intros start e x He Hxp.
    eapply (an_assign_op D st full HS AAssign); [exact Ht|oh|]. w HS. now apply HR.
Qed.

(** ** Patterns *)

Lemma sem_asg_array c o ts l r : pu PBraceOpen o -> PAsgs c ts l r -> PAsg c (o :: ts) (AsgArray z l r).
Proof.
  intros Ho [H Hcov]. pose proof Ho as Ho'. tokval. split; [exists o, ts; auto|]. split.
  - intros rest Hrest. cbn [app]. wbody. w HS. rewrite Ho. w HS. wbody. w HS. w HS.
    eapply W_ok; [apply (H [] rest Hrest)|]. intros [p q] [Hp Hq]. w HS. w HS. apply okq_intro. red. cbn in *. now rewrite Hp, Hq.
  - destruct Hcov as [(l' & Hl)|Hx].
    + left. exists (ELiteral z (LitArray l')). split; [exists l'; auto|]. now apply sem_array.
    + right. intros rest. cbn [app]. wbody. w HS. rewrite Ho. w HS. wbody. w HS. w HS. apply W_bad. apply Hx.
Qed.
Lemma sem_asg_object c o ts l r : pu PBracketOpen o -> ord_hd ts -> PAsgProps c ts l r -> PAsg c (o :: ts) (AsgObject z l r).
Proof.
  intros Ho Hts [H Hcov]. pose proof Ho as Ho'. tokval. split; [exists o, ts; auto|]. split.
  - intros rest Hrest. cbn [app]. wbody. w HS. rewrite Ho. w HS. wbody. w HS. w HS.
    eapply W_ok; [apply (H [] rest Hrest)|]. intros [p q] [Hp Hq]. w HS. w HS. apply okq_intro. red. cbn in *. now rewrite Hp, Hq.
  - destruct Hcov as [(l' & Hl)|Hx].
    + left. exists (ELiteral z (LitObject l')). split; [exists l'; auto|]. now apply sem_object.
    + right. intros rest. cbn [app]. wbody. w HS. rewrite Ho. w HS. wbody. w HS. w HS. apply W_bad. apply Hx.
Qed.

Lemma sem_target_pattern c ts p : PAsg c ts p -> PAsgT c ts p.
Proof.
  intros H. split; [|split; [eapply asg_cov; exact H|]].
  - intros rest Hs. destruct H as (Hb & Hp & _). specialize (Hp rest ltac:(oh)). destruct Hb as (t & us & -> & Ht). cbn [app] in *.
    wbody. w HS. destruct Ht as [->| ->]; (w HS; exact Hp).
  - intros t us b Ht Hus Hb. exists (EAssign z AAssign p b). now apply sem_assign_pattern.
Qed.
Lemma sem_target c ts a : starts 17 c ts -> ME 17 c ts a -> target_ok (c_strict c) a ->
  not_first [VPunct PBraceOpen; VPunct PBracketOpen; VKeyword KAsync] ts -> PAsgT c ts a.
Proof.
  intros Hst H Hok Hnf. split; [|split].
  - intros rest Hs.
    assert (H1 : W (body _ (NLeftHandSide c)) (ts ++ rest) (okq (isb a) rest)).
    { apply (PL_read D st full c ts a rest H); [eapply stops_le; [|exact Hs]; lia|]. eapply stops16_opt. eapply stops_le; [|exact Hs]; lia. }
    destruct Hst as (u & us & -> & Hu & _). cbn [app] in *. wbody. w HS.
    assert (HE : W (let? e := pcall (NLeftHandSide c) in ofres (check_simple "Invalid destructuring assignment target" c e);? pret e)
       (u :: us ++ rest) (okq (isb a) rest)).
    { eapply W_ok; [exact H1|]. intros x Hx. eapply wpt_b_ofres; [apply target_check; now rewrite Hx|]. w HS. now apply okq_intro. }
    cbn [not_first In] in Hnf. destruct (t_value u) as [| |[]| | | |]; try exact HE; exfalso; intuition.
  - left. exists a. apply (ME_le D st full HS 16 1); [lia|lia|eapply starts_le; [|exact Hst]; lia|]. now apply PL_P16.
  - intros t us b Ht Hus Hb. exists (EAssign z AAssign a b). eapply sem_assign; try eassumption; try exact HS.
    destruct ts; [auto|]. cbn [not_first In] in *. intuition.
Qed.

Lemma sem_asg_elem c ts p us i : starts 1 c ts -> PAsgT c ts p -> PInit c us i -> PInit (with_in true c) us i ->
  (forall t us', us = t :: us' -> ord_hd us') -> PAsgE c (ts ++ us) (AsgElement z p i).
Proof.
  intros (t0 & ts' & -> & _) (H & Hcov & Hass) Hi Hi' Ho. split.
  - intros rest Hs. rewrite <- app_assoc. specialize (H (us ++ rest)). cbn [app] in *. wbody. w HS. eapply W_ok; [apply H|].
    + destruct Hi as [[-> _]|(t & us' & a & -> & _ & Ht & _)]; cbn [app].
      * apply stops_in'. eapply stops_le; [|exact Hs]. lia.
      * stp.
    + intros x Hx. apply (init_read D st full HS (with_in true c) us i rest _ _ Hi' Hs).
      intros i' E. w HS. w HS. apply okq_intro. red. cbn. now rewrite Hx, E.
  - destruct Hi as [[-> ->]|(t & us' & a & -> & -> & Ht & Ha)].
    + rewrite app_nil_r. exact Hcov.
    + left. eapply Hass; [exact Ht|eapply Ho; reflexivity|exact Ha].
Qed.

(** *** Elements of arrays *)

Lemma sem_asgs_end c t : pu PBraceClose t -> PAsgs c [t] [] None.
Proof.
  intros H. split; [|left; exists []; now apply sem_elems_end].
  intros acc rest Hr. tokval. wbody. cbn [app]. w HS. rewrite H. w HS. w HS. apply okq_intro. cbn. now rewrite app_nil_r.
Qed.
Lemma starts_felem c ts : starts 1 c ts -> head (felem c) ts.
Proof. intros H. apply starts_head in H. eapply head_le; [|exact H]. apply felem_exp. Qed.

Lemma sem_asgs_rest c d ts p cl : pu PTripleDot d -> ord_hd ts -> PAsgT c ts p -> pu PBraceClose cl ->
  PAsgs c (d :: ts ++ [cl]) [] (Some p).
Proof.
  intros Hd Hts (H & Hcov & _) Hc. pose proof Hd as Hd'. pose proof Hc as Hc'. tokval. split.
  - intros acc rest Hr. nrm. wbody. w HS. rewrite Hd. w HS. eapply W_ok; [apply (H (cl :: rest)); stp|].
    intros x Hx. w HS. cbn [negb]. w HS. apply okq_intro. cbn. rewrite app_nil_r. now rewrite Hx.
  - destruct Hcov as [(e & He)|Hx].
    + left. exists [ElemSpread e]. apply (sem_elems_last D st full HS c (d :: ts)); [apply head_cons; now rewrite Hd| |exact Hc'].
      now apply sem_elem_spread.
    + right. intros acc rest. nrm. wbody. w HS. apply W_bad. wbody. w HS. rewrite Hd. w HS. apply W_bad. apply Hx. stp.
Qed.
Lemma sem_asgs_hole c t ts l r : pu PComma t -> ord_hd ts -> PAsgs c ts l r -> PAsgs c (t :: ts) (None :: l) r.
Proof.
  intros H Hts [Hl Hcov]. pose proof H as H'. tokval. split.
  - intros acc rest Hr. cbn [app]. wbody. w HS. rewrite H. w HS. w HS. eapply wpt_conseq; [apply (Hl (acc ++ [None]) rest Hr)|].
    intros r0 ts' (-> & [l' r'] & -> & E1 & E2). apply okq_intro. cbn in *. split; [|exact E2]. rewrite E1, map_app, <- app_assoc. reflexivity.
  - destruct Hcov as [(l' & He)|Hx].
    + left. exists (ElemElision :: l'). now apply sem_elems_hole.
    + right. intros acc rest. cbn [app]. wbody. w HS. eapply W_ok with (P := fun e => e = ElemElision) (rest := ts ++ rest).
      * wbody. w HS. rewrite H. w HS. w HS. now apply okq_intro.
      * intros x ->. cbn [is_elision]. w HS. w HS. apply Hx.
Qed.

Lemma asgs_elem c acc u us {Q : result (list (option node) * option node) perr -> list token -> Prop} : fexp 1 c (t_value u) = true ->
  W (let? e := pcall (NAsgElement c) in pcall (NArrayAsgLoop c (acc ++ [Some e]))) (u :: us) Q -> W (body _ (NArrayAsgLoop c acc)) (u :: us) Q.
Proof. intros Hu H. wbody. w HS. destruct (t_value u) as [| |[]| | | |] eqn:Ev; try discriminate Hu; exact H. Qed.

Lemma bad_elem c ts rest acc : starts 1 c ts -> Bad c ts -> stops 1 c rest -> W (body _ (NArrayLoop c acc)) (ts ++ rest) bad.
Proof.
  intros (u & us & -> & Hu & _) Hx Hs. specialize (Hx rest Hs). cbn [app] in *. wbody.
  apply wpt_b_maybe_no; [apply value_is_false; intros E; rewrite E in Hu; discriminate Hu|].
  apply W_bad. wbody. w HS. destruct (t_value u) as [| |[]| | | |]; try discriminate Hu; apply W_bad; exact Hx.
Qed.

Lemma sem_asgs_last c ts a t : starts 1 c ts -> PAsgE c ts a -> pu PBraceClose t -> PAsgs c (ts ++ [t]) [Some a] None.
Proof.
  intros Hst [H Hcov] Ht. pose proof Ht as Ht'. tokval. split.
  - intros acc rest Hr. rewrite <- app_assoc. specialize (H (t :: rest) ltac:(stp)). destruct Hst as (u & us & -> & Hu & _). cbn [app] in *.
    apply asgs_elem; [exact Hu|]. eapply W_ok; [exact H|]. intros x Hx. w HS.
    destruct (sem_asgs_end c t Ht') as [E _]. specialize (E (acc ++ [Some x]) rest Hr). eapply wpt_conseq; [exact E|].
    intros r ts' (-> & [l' r'] & -> & Hl & Hrr). apply okq_intro. cbn in *. split; [|exact Hrr].
    rewrite Hl, map_app, app_nil_r. cbn. now rewrite Hx.
  - destruct Hcov as [(e & He)|Hx].
    + left. exists [ElemExpr e]. apply sem_elems_last; [exact HS|now apply starts_felem|now apply sem_elem|exact Ht'].
    + right. intros acc rest. rewrite <- app_assoc. apply bad_elem; [exact Hst|exact Hx|stp].
Qed.
Lemma sem_asgs_more c ts a t us l r : starts 1 c ts -> PAsgE c ts a -> pu PComma t -> ord_hd us -> PAsgs c us l r ->
  PAsgs c (ts ++ t :: us) (Some a :: None :: l) r.
Proof.
  intros Hst [H Hcov] Ht Hus HL. destruct (sem_asgs_hole c t us l r Ht Hus HL) as [HL1 _]. destruct HL as [_ HL2]. pose proof Ht as Ht'. tokval. split.
  - intros acc rest Hr. rewrite <- app_assoc. specialize (H ((t :: us) ++ rest) ltac:(stp)). destruct Hst as (u & vs & -> & Hu & _). cbn [app] in *.
    apply asgs_elem; [exact Hu|]. eapply W_ok; [exact H|]. intros x Hx. w HS.
    specialize (HL1 (acc ++ [Some x]) rest Hr). cbn [app] in HL1. eapply wpt_conseq; [exact HL1|].
    intros r0 ts' (-> & [l' r'] & -> & E1 & E2). apply okq_intro. cbn in *. split; [|exact E2].
    rewrite E1, map_app, <- app_assoc. cbn. now rewrite Hx.
  - destruct Hcov as [(e & He)|Hx].
    + pose proof (sem_elem D st full c ts e Hst He) as HE. destruct HL2 as [(l' & Hl')|Hx].
      * left. exists (ElemExpr e :: l'). apply sem_elems_more; try assumption. now apply starts_felem.
      * right. intros acc rest. destruct HE as [_ HE]. rewrite <- app_assoc. specialize (HE ((t :: us) ++ rest) ltac:(stp)).
        destruct Hst as (u & vs & -> & Hu & _). cbn [app] in *. wbody.
        apply wpt_b_maybe_no; [apply value_is_false; intros E; rewrite E in Hu; discriminate Hu|].
        eapply W_ok; [exact HE|]. intros x Hxx. rewrite <- elision_bare, Hxx. cbn [is_elision].
        eapply wpt_b_delim_comma; [exact HS|exact Ht|]. w HS. apply Hx.
    + right. intros acc rest. rewrite <- app_assoc. apply bad_elem; [exact Hst|exact Hx|stp].
Qed.

(** *** Properties *)

Lemma sem_asgprops_end c t : pu PBracketClose t -> PAsgProps c [t] [] None.
Proof.
  intros H. split; [|left; exists []; now apply sem_props_end].
  intros acc rest Hr. tokval. wbody. cbn [app]. w HS. rewrite H. w HS. w HS. apply okq_intro. cbn. now rewrite app_nil_r.
Qed.
Lemma sem_asgprops_rest c d ts p cl : pu PTripleDot d -> ord_hd ts -> PAsgT c ts p -> pu PBracketClose cl ->
  PAsgProps c (d :: ts ++ [cl]) [] (Some p).
Proof.
  intros Hd Hts (H & Hcov & _) Hc. pose proof Hd as Hd'. pose proof Hc as Hc'. tokval. split.
  - intros acc rest Hr. nrm. wbody. w HS. rewrite Hd. w HS. eapply W_ok; [apply (H (cl :: rest)); stp|].
    intros x Hx. w HS. cbn [negb]. w HS. apply okq_intro. cbn. rewrite app_nil_r. now rewrite Hx.
  - destruct Hcov as [(e & He)|Hx].
    + left. exists [DefSpread e]. apply (sem_props_last D st full HS c (d :: ts)); [apply head_cons; now rewrite Hd| |exact Hc'].
      now apply sem_prop_spread.
    + right. intros acc rest. nrm. wbody. w HS. apply W_bad. wbody. w HS. vis. w HS. apply W_bad. apply Hx. stp.
Qed.
Lemma sep_close close t rest : t_value t = VPunct PComma \/ t_value t = VPunct close -> sep close (t :: rest).
Proof. intros H. now exists t, rest. Qed.
Lemma fname_prop v : fname v = true -> fprop v = true.
Proof. intros H. destruct v as [| |[]| | | |]; first [reflexivity|exact H]. Qed.

Lemma sem_asgprops_last c ts a t : head fname ts -> PAsgProp c ts a -> pu PBracketClose t -> PAsgProps c (ts ++ [t]) [a] None.
Proof.
  intros Hst [H Hcov] Ht. pose proof Ht as Ht'. tokval. split.
  - intros acc rest Hr. rewrite <- app_assoc. cbn [app]. apply H; [apply sep_close; auto|]. intros x Hx.
    apply wpt_b_delim_close; [exact Ht|discriminate|]. w HS.
    destruct (sem_asgprops_end c t Ht') as [E _]. specialize (E (acc ++ [x]) rest Hr). eapply wpt_conseq; [exact E|].
    intros r ts' (-> & [l' r'] & -> & Hl & Hrr). apply okq_intro. cbn in *. split; [|exact Hrr].
    rewrite Hl, map_app, app_nil_r. cbn. now rewrite Hx.
  - destruct Hcov as [(e & He)|Hx].
    + left. exists [e]. apply sem_props_last; [exact HS| |exact He|exact Ht']. eapply head_le; [|exact Hst]. apply fname_prop.
    + right. intros acc rest. rewrite <- app_assoc. apply Hx. apply sep_close. auto.
Qed.
Lemma sem_asgprops_more c ts a t us l r : head fname ts -> PAsgProp c ts a -> pu PComma t -> ord_hd us -> PAsgProps c us l r ->
  PAsgProps c (ts ++ t :: us) (a :: l) r.
Proof.
  intros Hst [H Hcov] Ht Hus [HL1 HL2]. pose proof Ht as Ht'. tokval. split.
  - intros acc rest Hr. rewrite <- app_assoc. cbn [app]. apply H; [apply sep_close; auto|]. intros x Hx.
    eapply wpt_b_delim_comma; [exact HS|exact Ht|]. w HS. eapply wpt_conseq; [apply (HL1 (acc ++ [x]) rest Hr)|].
    intros r0 ts' (-> & [l' r'] & -> & E1 & E2). apply okq_intro. cbn in *. split; [|exact E2].
    rewrite E1, map_app, <- app_assoc. cbn. now rewrite Hx.
  - assert (Hh : head fprop ts) by (eapply head_le; [|exact Hst]; apply fname_prop). destruct Hcov as [(e & He)|Hx].
    + destruct HL2 as [(l' & Hl')|Hx].
      * left. exists (e :: l'). now apply sem_props_more.
      * right. intros acc rest. rewrite <- app_assoc. specialize (He ((t :: us) ++ rest)).
        destruct Hh as (u & vs & -> & Hu). cbn [app] in *. specialize (He ltac:(apply sep_close; auto)). wbody.
        apply wpt_b_maybe_no; [apply value_is_false; intros E; rewrite E in Hu; discriminate Hu|].
        eapply W_ok; [exact He|]. intros x Hxx. w HS. eapply wpt_b_delim_comma; [exact HS|exact Ht|]. w HS. apply Hx.
    + right. intros acc rest. rewrite <- app_assoc. apply Hx. apply sep_close. auto.
Qed.

Lemma single_read c x t e us : name c x t ->
  ~ In (t_value t) [VKeyword KStatic; VKeyword KAsync; VKeyword KGet; VKeyword KSet] -> t_value e = VPunct PEqual ->
  W (body _ (NPropertyDefinition c)) (t :: e :: us) (okq (isb (DefIdentRef (id x))) (e :: us)).
Proof.
  intros H Hn He. pose proof (ident_read D st full HS c x t (e :: us) H) as HI.
  apply name_isname in H. wbody. w HS. vis. w HS.
  assert (N3 : t_value t <> VPunct PBraceOpen) by (intros E; rewrite E in H; discriminate H).
  unfold is_object_method_definition. w HS. w HS. w HS. w HS. w HS. w HS. w HS.
  assert (E : match t_value t with
          | VPunct PStar | VPunct PBraceOpen | VKeyword KStatic => true
          | VKeyword KAsync => true
          | VKeyword KGet | VKeyword KSet => true
          | _ => false
          end = false).
  { destruct (t_value t) as [[]| |[]| | | |]; try reflexivity; try discriminate H; exfalso; apply Hn; cbn; auto. }
  cbn [negb orb]. rewrite E. eapply W_ok; [exact HI|]. intros i Hi. w HS. apply okq_intro. red. cbn. now rewrite Hi.
Qed.

Lemma sem_asgprop_single c x t us i : name c x t ->
  ~ In (t_value t) [VKeyword KStatic; VKeyword KAsync; VKeyword KGet; VKeyword KSet] -> PInit c us i ->
  PAsgProp c (t :: us) (AsgSingle z (id x) i).
Proof.
  intros Hname Hn Hi. split.
  - intros acc rest Q Hsep Hk.
    assert (HI : W (body _ (NSingleAsg c)) (t :: us ++ rest) (okq (isb (AsgSingle z (id x) i)) rest)).
    { wbody. w HS. eapply W_ok; [apply (ident_read D st full HS c x t (us ++ rest) Hname)|]. intros j Hj.
      apply (init_read D st full HS c us i rest _ _ Hi); [eapply sep_stops; [exact Hsep|cbn; auto]|].
      intros i' Hi'. w HS. w HS. apply okq_intro. red. cbn. now rewrite Hj, Hi'. }
    apply name_isname in Hname. cbn [app]. wbody. w HS.
    assert (E : W (let? colon := peek_matches (VPunct PColon) in
      if (value_is (VPunct PBraceOpen) (Some t) || colon)%bool then
        let? p := pcall (NNamedAsg c) in
        consume_list_delimiter (VPunct PBracketClose);?
        pcall (NObjectAsgLoop c (acc ++ [p]))
      else
        let? p := pcall (NSingleAsg c) in
        consume_list_delimiter (VPunct PBracketClose);?
        pcall (NObjectAsgLoop c (acc ++ [p]))) (t :: us ++ rest) Q).
    { apply wpt_b_peek_matches; [exact HS|clr|]. replace (value_is (VPunct PColon) (hdo (tl (t :: us ++ rest)))) with false.
      - rewrite (value_is_false (VPunct PBraceOpen)) by (intros E; rewrite E in Hname; discriminate Hname). cbn [orb].
        eapply W_ok; [exact HI|]. intros p Hp. now apply Hk.
      - cbn [tl]. destruct Hi as [[-> _]|(e & us' & a & -> & _ & He & _)].
        + destruct Hsep as (s & r' & -> & [E|E]); cbn; rewrite E; reflexivity.
        + cbn. now rewrite He. }
    destruct (t_value t) as [| |[]| | | |]; try discriminate Hname; exact E.
  - destruct Hi as [[-> _]|(e & us' & a & -> & _ & He & _)].
    + left. exists (DefIdentRef (id x)). now apply sem_prop_short.
    + right. intros acc rest _. cbn [app]. wbody.
      apply wpt_b_maybe_no; [apply value_is_false; apply name_isname in Hname; intros E; rewrite E in Hname; discriminate Hname|].
      eapply W_ok; [apply (single_read c x t e (us' ++ rest) Hname Hn He)|]. intros p Hp. w HS.
      destruct p; try discriminate Hp. cbn [is_def_ident_ref andb]. w HS. w HS. now apply bad_intro.
Qed.

Lemma sem_asgprop_named c ns n t ts p i : name_start c ns -> PName c ns n -> pu PColon t -> ord_hd ts -> PAsgE c ts (AsgElement z p i) ->
  PAsgProp c (ns ++ t :: ts) (AsgNamed z n p i).
Proof.
  intros Hn Hname Ht Hts [H Hcov]. pose proof Ht as Ht'. split.
  - intros acc rest Q Hsep Hk.
    assert (HI : W (body _ (NNamedAsg c)) (ns ++ t :: ts ++ rest) (okq (isb (AsgNamed z n p i)) rest)).
    { assert (exists u us, ns = u :: us) as (u & us & ->).
      { destruct Hn as [(u & -> & _)|(u & v & us & -> & _)]; eauto. }
      pose proof (Hname (t :: ts ++ rest)) as HP. tokval. cbn [app] in *.
      wbody. w HS. eapply W_ok; [exact HP|]. intros n' Hn'. w HS.
      eapply W_ok; [apply (H rest); eapply sep_stops; [exact Hsep|cbn; auto]|]. intros b' Hb'. w HS.
      destruct b'; try discriminate Hb'. w HS. apply okq_intro.
      red in Hb'. apply (f_equal asg_parts) in Hb'. cbn in Hb'. assert (E1 : bare b' = p) by congruence. match type of Hb' with Some (_, ?o) = _ => assert (E2 : o = i) by congruence end. red. cbn. now rewrite Hn', E1, E2. }
    tokval. rewrite <- app_assoc. destruct Hn as [(y & -> & Hy & Hb)|(o & u & us & -> & Ho & Hu)].
    + cbn [app] in *. wbody. w HS.
      assert (E : W (let? colon := peek_matches (VPunct PColon) in
        if (value_is (VPunct PBraceOpen) (Some y) || colon)%bool then
          let? p := pcall (NNamedAsg c) in
          consume_list_delimiter (VPunct PBracketClose);?
          pcall (NObjectAsgLoop c (acc ++ [p]))
        else
          let? p := pcall (NSingleAsg c) in
          consume_list_delimiter (VPunct PBracketClose);?
          pcall (NObjectAsgLoop c (acc ++ [p]))) (y :: t :: ts ++ rest) Q).
      { w HS. eapply W_ok; [exact HI|]. intros q Hq. now apply Hk. }
      destruct (t_value y) as [| |[]| | | |]; try discriminate Hy; try congruence; exact E.
    + cbn [app] in *. wbody. w HS. rewrite Ho. w HS. vis. eapply W_ok; [exact HI|]. intros q Hq. now apply Hk.
  - destruct Hcov as [(e & He)|Hx].
    + left. exists (DefNamed z n e). now apply sem_prop_named.
    + right. intros acc rest Hsep.
      assert (HB : W (body _ (NAssignment c)) (ts ++ rest) bad) by (apply Hx; eapply sep_stops; [exact Hsep|cbn; auto]).
      pose proof (Hname (t :: ts ++ rest)) as HP. rewrite <- app_assoc. cbn [app]. tokval.
      assert (HD : W (body _ (NPropertyDefinition c)) (ns ++ t :: ts ++ rest) bad).
      { assert (HN : forall start n', W (body _ (NNamedDefinition c start n')) (t :: ts ++ rest) bad).
        { intros start n'. wbody. w HS. now apply W_bad. }
        destruct Hn as [(y & -> & Hy & Hb)|(o & u & us & -> & Ho & Hu)].
        - cbn [app] in *. wbody. w HS. vis. w HS. w HS. eapply W_ok; [exact HP|]. intros n' Hn'. w HS. now apply HN.
        - cbn [app] in *. wbody. w HS. vis. w HS. w HS. wbody. w HS.
          eapply W_ok; [exact HP|]. intros n' Hn'. w HS. w HS. now apply HN. }
      assert (exists u us, ns = u :: us /\ t_value u <> VPunct PBracketClose) as (u & us & -> & Hu).
      { destruct Hn as [(u & -> & Hu & _)|(u & v & us & -> & Hu & _)]; eexists _, _; (split; [reflexivity|]); [|congruence].
        intros E. rewrite E in Hu. discriminate Hu. }
      cbn [app] in *. wbody. apply wpt_b_maybe_no; [now apply value_is_false|]. now apply W_bad.
Qed.

(** ** Parameters of arrow functions *)

Lemma sem_asgseq_one c ts a : PAsgE c ts a -> PAsgSeq c ts.
Proof.
  intros [_ [(e & He)|Hx]].
  - left. exists [e], e. split; [now apply sem_seq2_one|]. now apply P1_P0.
  - right. split; intros.
    + apply W_bad. now apply Hx.
    + wbody. w HS. apply W_bad. now apply Hx.
Qed.
Lemma sem_asgseq_more c ts a t us : PAsgE c ts a -> pu PComma t -> ord_hd us -> PAsgSeq c us -> PAsgSeq c (ts ++ t :: us).
Proof.
  intros [_ H] Ht Hus Hl. pose proof Ht as Ht'. tokval. destruct H as [(e & He)|Hx].
  - destruct Hl as [(l & e2 & Hl & _)|[Hx1 Hx2]].
    + left. exists (e :: l), (ESequence z (e :: l)). split; [now apply sem_seq2_more|]. destruct Hl as [Hl _]. now apply sem_sequence.
    + right. split.
      * intros start acc rest Hs. rewrite <- app_assoc. cbn [app]. change (NAssignment c) with (nt_of 1 c).
        eapply W_ok; [apply (He (t :: us ++ rest)); stp|]. intros x Hxx. w HS. wbody. w HS. now apply Hx1.
      * intros rest Hs. rewrite <- app_assoc. cbn [app]. wbody. w HS. change (NAssignment c) with (nt_of 1 c).
        eapply W_ok; [apply (He (t :: us ++ rest)); stp|]. intros x Hxx. w HS. w HS. wbody. w HS. now apply (Hx1 start [x]).
  - right. split.
    + intros start acc rest Hs. rewrite <- app_assoc. apply W_bad. apply Hx. stp.
    + intros rest Hs. rewrite <- app_assoc. wbody. w HS. apply W_bad. apply Hx. stp.
Qed.

Lemma bad_paren c o us : t_value o = VPunct PParenOpen -> ord_hd us ->
  W (body node (NExpr (with_in true c))) us bad -> W (body node (NParenthesized c)) (o :: us) bad.
Proof. intros Ho Hus H. wbody. w HS. w HS. now apply W_bad. Qed.

Lemma bad_arrow c o us a rest : t_value o = VPunct PParenOpen -> ord_hd us -> value_is (VPunct PParenClose) (hdo us) = false -> stops 1 c rest ->
  W (body node (NExpr (with_in true c))) us bad ->
  W (let? x := pcall (NArrowExpr c) in perror (arrow_function_not_allowed x) : prg node) (o :: us) (errq (arrow_err a (tstart o)) rest) ->
  W (body _ (NAssignment c)) (o :: us) (okq (isb a) rest).
Proof.
  intros Ho Hus Hn Hs Hx HA. apply arrow_of_err; [exact HS|exact Ho|exact Hs|].
  apply wpt_sfx. intros Hsfx. wbody. w HS. apply wpt_b_peek_matches; [exact HS|clr|]. cbn [tl]. rewrite Hn.
  apply W_bad_try; [now apply bad_paren|]. intros e r He.
  replace (retries_as_arrow e) with true by (unfold retries_as_arrow; now rewrite He).
  eapply wpt_b_rewind; [exact HS|oh|exact Hsfx|]. exact HA.
Qed.

Lemma sem_arrow_cover c o es cl p r a bs b : pu PParenOpen o -> starts 1 (with_in true c) es -> ord_hd es -> PAsgSeq (with_in true c) es -> pu PParenClose cl ->
  PParams c (es ++ [cl]) p r -> pu PEqualGreater a -> t_fol a = false ->
  PConcise (arrow_ctx false c) bs b ->
  ME 1 c (o :: es ++ cl :: a :: bs) (EArrow z false false (FormalParameters z p r) b).
Proof.
  intros Ho Hst Hes [(l & e & _ & He)|[_ Hx]] Hc Hp Ha Hf Hb.
  - eapply sem_arrow; try eassumption; try exact HS. eapply starts_le; [|exact Hst]. lia.
  - intros rest Hs. change (nt_of 1 c) with (NAssignment c). nrm.
    pose proof (as_arrow D st full HS c o _ p r a bs b rest Ho Hp Ha Hf Hb Hs) as HA. rewrite <- app_assoc in HA. cbn [app] in HA.
    tokval. apply bad_arrow; [exact Ho|oh| |exact Hs| |exact HA].
    + destruct Hst as (u & us & -> & Hu & _). cbn [app hdo hd_error]. apply value_is_false. intros E. rewrite E in Hu. discriminate Hu.
    + apply Hx. stp.
Qed.
Lemma sem_arrow_cover_more c o es k d ps p r a bs b : pu PParenOpen o -> starts 1 (with_in true c) es -> ord_hd es -> PAsgSeq (with_in true c) es -> pu PComma k ->
  pu PTripleDot d -> PParams c (es ++ k :: d :: ps) p r -> pu PEqualGreater a -> t_fol a = false ->
  PConcise (arrow_ctx false c) bs b ->
  ME 1 c (o :: es ++ k :: d :: ps ++ a :: bs) (EArrow z false false (FormalParameters z p r) b).
Proof.
  intros Ho Hst Hes [(l & e & Hl & _)|[_ Hx]] Hk Hd Hp Ha Hf Hb.
  - eapply sem_arrow_more; try eassumption; exact HS.
  - intros rest Hs. change (nt_of 1 c) with (NAssignment c). nrm.
    pose proof (as_arrow D st full HS c o _ p r a bs b rest Ho Hp Ha Hf Hb Hs) as HA. rewrite <- app_assoc in HA. cbn [app] in HA.
    tokval. apply bad_arrow; [exact Ho|oh| |exact Hs| |exact HA].
    + destruct Hst as (u & us & -> & Hu & _). cbn [app hdo hd_error]. apply value_is_false. intros E. rewrite E in Hu. discriminate Hu.
    + apply Hx. stp.
Qed.

(** ** Loops *)

Lemma sem_forleft_pattern c ts p : (forall b, PAsg (with_in b c) ts p) -> PForLeft c ts p.
Proof.
  intros H s rest Hs.
  assert (N3 : t_value s <> VPunct PSemiColon) by (destruct Hs as [->| ->]; discriminate).
  assert (Hst : stops 1 (with_in false c) (s :: rest)).
  { cbn [stops]. unfold jn. destruct Hs as [->| ->]; cbn; lia. }
  assert (H0 : W (body _ (NExpr (with_in false c))) (ts ++ s :: rest)
    (fun r ts' => match r with Ok _ => value_is (VPunct PSemiColon) (hdo ts') = false | Err _ => True end)).
  { destruct (asg_cov _ _ _ (H false)) as [(e & He)|Hx].
    - pose proof (P1_P0 D st full _ _ _ He) as H0. eapply wpt_conseq; [apply (H0 (s :: rest))|].
      + cbn [stops]. unfold jn. destruct Hs as [->| ->]; cbn; lia.
      + intros r ts' (-> & x & -> & _). now apply value_is_false.
    - specialize (Hx (s :: rest) Hst). eapply wpt_conseq with (Q := bad).
      + wbody. w HS. now apply W_bad.
      + intros r ts' (_ & e & -> & _). exact Logic.I. }
  pose proof (H (c_in c)) as H1. rewrite with_in_same in H1. destruct H1 as (Hb & Hp & _). specialize (Hp (s :: rest)).
  assert (Ho : ord_hd (s :: rest)) by (destruct Hs as [E|E]; eapply ord_cons; eauto). specialize (Hp Ho).
  destruct Hb as (u & us & -> & Hu). cbn [app] in *.
  assert (Hf : fexp 17 c (t_value u) = true) by (destruct Hu as [->| ->]; reflexivity).
  assert (N : t_value u <> VPunct PSemiColon) by (destruct Hu as [->| ->]; discriminate). split.
  - wbody. w HS. apply wpt_b_call. wbody. w HS. apply (kind_none D st full HS c u _ _ _ 17 Hf). w HS. eapply wpt_conseq; [exact H0|].
    intros [x|e] ts' Hr; cbv beta iota; [w HS; exact Hr|apply wpt_ret; exact Logic.I].
  - wbody. w HS. apply (kind_none D st full HS c u _ _ _ 17 Hf). w HS. destruct Hu as [->| ->]; (w HS; exact Hp).
Qed.

End Fwd.
