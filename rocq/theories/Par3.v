(** * Par3: object literals, member access, assignment and binding patterns. *)

From Verif Require Import ParTac ParLib.
Local Open Scope string_scope.
Local Open Scope list_scope.
Local Open Scope prog_scope.

Section Par.
Context {PF : Platform}.
Variable D : str.
Variable m : bool.
Notation method_ok := (method_ok D m).

Lemma nxt_tok s t0 t : clean D s -> cur s = Ok t0 -> nxt s = Ok t -> tstart t < tend t /\ tend t <= blen D.
Proof.
  intros HC E En. destruct (step_consume_ok D s t0 HC E) as (s' & _ & HC' & _ & _ & En').
  eapply cur_tok; [exact HC'|]. congruence.
Qed.

Lemma err_nxt r0 ac toks s0 s e t0 t : r0 = ac ->
  Back D s0 toks s -> cur s = Ok t0 -> nxt s = Ok t -> (found D (t_value t) (t_span t) -> not_arrow D m e) -> pe_span e = t_span t ->
  ErrPost D m ac s0 s e.
Proof.
  intros _ HR E En Hn Es.
  assert (Hf : found D (t_value t) (t_span t)).
  { destruct (step_consume_ok D s t0 (Back_clean _ _ _ _ HR) E) as (s' & _ & HC' & _ & _ & En'). eapply found_cur; [exact HC'|]. congruence. }
  eapply err_here; eauto. right. rewrite Es.
  apply span_ok_tok. eapply nxt_tok; eauto. eapply Back_clean; eauto.
Qed.

(** An optional initializer. *)
Lemma W_init {A : Set} r ac s0 c toks s (k : option node -> prg A) (Q : A -> pst -> Prop) :
  Reach D s0 toks s -> toks <> [] -> c_module c = m ->
  (forall o to s', Reach D s0 (toks ++ to) s' -> der D YInit c (O o) to -> W D m r ac s0 (k o) s' Q) ->
  W D m r ac s0 (let? b := current_matches (VPunct PEqual) in
                 let? init := then_try b (pcall (NInitializer c)) in k init) s Q.
Proof.
  intros HR Hne Hm H. tcurm Hc; unfold then_try; wsimp; wb.
  - tcall a ts s1 HS1 HR1 Hne1 HG1. wb. apply W_ret. wsimp. eapply H; eauto.
  - apply W_ret. wsimp. apply (H None []); [now rewrite app_nil_r|constructor].
Qed.

(** A rest target that is not the last one. *)
Lemma err_rest ac s0 e so ts toks a c s msg u :
  Reach D s0 toks s -> der D so c (I e) ts -> spanned so = true -> ts <> [] -> toks = a ++ ts ->
  isp PTripleDot u -> a = [u] -> msg = msg_rest_last ->
  ErrPost D m ac s0 s (syntax_error msg (node_span e)).
Proof.
  intros HR Hd Hs Hne Et Hu Ea ->. eapply err_here; [apply Reach_Back; exact HR| |].
  2: { apply says_rest with (l := log s0) (u := u) (ts := ts); [|exact Hu|left; symmetry; exact (der_span _ _ _ _ _ Hd Hs)].
       pose proof (Back_log _ _ _ _ (Reach_Back _ _ _ _ HR)) as HL. rewrite Et, Ea in HL. exact HL. }
  right. cbn.
  rewrite (der_span _ _ _ _ _ Hd Hs). pose proof (Back_log _ _ _ _ (Reach_Back _ _ _ _ HR)) as HL.
  rewrite Et, app_assoc in HL. rewrite <- (app_nil_r ts), app_assoc, <- app_assoc in HL.
  apply is_log_sub in HL; auto. unfold span_ok, span_of. cbn. lia.
Qed.

Lemma ok_ObjectLiteral c : method_ok (NObjectLiteral c).
Proof.
  mstart. unfold parse_object_literal. tpos. tassert t s1 E1 Ev1 HR1 En1.
  tcall l ts s2 HS2 HR2 Hne2 HG2. destruct HG2 as (l' & -> & Hl & _). tspan. fin.
  eapply d_object; kfin.
Qed.

Lemma ok_ObjectLoop c acc : method_ok (NObjectLoop c acc).
Proof.
  mstart. unfold parse_object_loop. tmaybe t s1 E1 Ev1 HR1 Hn.
  - fin. exists []. rewrite app_nil_r. split; [reflexivity|]. split; [now constructor|auto].
  - tcall a ts s2 HS2 HR2 Hne2 HG2.
    assert (Hk : W D m 4 None s0 (consume_list_delimiter (VPunct PBracketClose);?
      pcall (NObjectLoop c (acc ++ [a]))) s2 (OkPost D (NObjectLoop c acc) s0)).
    { wb. eapply W_delim; [exact HR2| |].
      + intros t s3 Ht HR3. norm HR3. wsimp. tcall l tl s4 HS4 HR4 Hne4 HG4.
        destruct HG4 as (l' & -> & Hl & _). okp. exists (a :: l'). rewrite <- app_assoc. split; [reflexivity|].
        split; [eapply d_list_comma; kfin|contradiction].
      + intros Hc. wsimp. tcall l tl s4 HS4 HR4 Hne4 HG4.
        destruct HG4 as (l' & -> & Hl & He). specialize (He Hc). subst l'. okp. exists [a].
        rewrite app_nil_r. split; [reflexivity|]. split; [|contradiction].
        inversion Hl; subst. eapply d_list_last; kfin. }
    tcurm Hq; [|exact Hk]. tif Ei; [|exact Hk].
    tcur t E. apply W_err. eapply err_cur; [apply Reach_Back; exact HR2|exact E| |reflexivity]. 
    intros Hf. unfold not_arrow, says. cbn. now rewrite Hv in Hf.
Qed.

Lemma ok_PropertyDefinition c : method_ok (NPropertyDefinition c).
Proof.
  mstart. unfold parse_property_definition. tcur t E. tif Ev.
  - apply value_is_true in Ev. destruct Ev as (t' & [= <-] & Ev).
    tcons t1 s1 E1 HR1 En1. tcall a ts s2 HS2 HR2 Hne2 HG2. fin. eapply d_def_spread; kfin.
  - tpeekm. tif Ec.
    + tpos. tcall n tn s1 HS1 HR1 Hne1 HG1. tcall a ts s2 HS2 HR2 Hne2 HG2.
      destruct HG2 as (tc & e & te & -> & Hc & He & ->). okp. eapply d_def_named; kfin.
    + tif Eb.
      * apply value_is_true in Eb. destruct Eb as (t' & [= <-] & Eb).
        tcall a ts s2 HS2 HR2 Hne2 HG2. okp. exact HG2.
      * unfold is_object_method_definition. wb. traw. tpeekm. tpeekm. wb. apply W_ret. wsimp. tif Em.
        -- tcall a ts s2 HS2 HR2 Hne2 HG2. fin. now apply d_def_method.
        -- tcall a ts s2 HS2 HR2 Hne2 HG2. destruct HG2 as (t1 & -> & Hi). fin. now apply d_def_ident.
Qed.

Lemma ok_ComputedDefinition c : method_ok (NComputedDefinition c).
Proof.
  mstart. unfold parse_property_definition_with_computed_name. tpos.
  tcall n tn s1 HS1 HR1 Hne1 HG1. tcurm Hc.
  - tcall a ts s2 HS2 HR2 Hne2 HG2.
    destruct HG2 as (tc & e & te & -> & Hc' & He & ->). okp. eapply d_def_named; kfin.
  - tcall a ts s2 HS2 HR2 Hne2 HG2. destruct HG2 as (p & tp & b & tb & -> & Hp & Hb & Hck & ->).
    fin. eapply d_def_computed_method; kfin.
    inversion HG1; subst; eauto; exfalso;
      destruct HX as (t0 & E0 & Ev0); apply Reach_Back in HR1; apply Back_hd in HR1;
      destruct HR1 as (t0' & E0' & HH); rewrite E0 in E0'; injection E0' as <-;
      apply hd_rel_stable in HH; try (rewrite Ev0; cbn; tauto); subst;
      match goal with H : str_tok _ _ |- _ => unfold str_tok in H | H : name_tok _ _ |- _ => destruct H as (_ & [H|(k & H & _)]) | _ => idtac end; congruence.
Qed.

Lemma ok_NamedDefinition c start name : method_ok (NNamedDefinition c start name).
Proof.
  mstart. unfold parse_named_property_definition. tassert t s1 E1 Ev1 HR1 En1.
  tcall a ts s2 HS2 HR2 Hne2 HG2. tspan. fin. eauto 10.
Qed.

Lemma ok_MemberRight c start lhs : method_ok (NMemberRight c start lhs).
Proof.
  mstart. unfold parse_member_expr_right_side. tcall a ts s2 HS2 HR2 Hne2 HG2. tspan. fin. eauto.
Qed.

Lemma ok_MemberProperty c : method_ok (NMemberProperty c).
Proof.
  mstart. unfold parse_member_property. traw. destruct HX as [HX|HX]; destruct HX as (t & E & Ev); rewrite E, Ev.
  - tcons t1 s1 E1 HR1 En1. tcall a ts s2 HS2 HR2 Hne2 HG2. destruct HG2 as (t2 & -> & Hi).
    fin. now apply d_prop_dot.
  - tcall a ts s2 HS2 HR2 Hne2 HG2. destruct HG2 as (t1 & te & t2 & -> & H1 & He & H2). fin.
    eapply d_prop_computed; kfin.
Qed.

Lemma ok_ComputedProperty c : method_ok (NComputedProperty c).
Proof.
  mstart. unfold parse_computed_property. tassert t s1 E1 Ev1 HR1 En1.
  tcall a ts s2 HS2 HR2 Hne2 HG2. tassert t2 s3 E3 Ev3 HR3 En3. fin. exists t, ts, t2. auto.
Qed.

Lemma ok_OptionalMemberProperty c : method_ok (NOptionalMemberProperty c).
Proof.
  mstart. unfold parse_optional_member_property. traw.
  destruct HX as [HX|[HX|HX]]; destruct HX as (t & E & Ev); rewrite E, Ev.
  - tcons t1 s1 E1 HR1 En1. tcall a ts s2 HS2 HR2 Hne2 HG2. destruct HG2 as (t2 & -> & Hi).
    fin. exists false. split; [now apply d_optprop_ident|].
    split; [intros (t' & E' & Ev'); congruence|auto].
  - tcall a ts s2 HS2 HR2 Hne2 HG2. destruct HG2 as (t1 & te & t2 & -> & H1 & He & H2). fin.
    exists false. split; [eapply d_optprop_plain; kfin|].
    split; [intros (t' & E' & Ev'); congruence|auto].
  - tpeekm. tif Eb; tcons t1 s1 E1 HR1 En1.
    + tcall a ts s2 HS2 HR2 Hne2 HG2. destruct HG2 as (t2 & te & t3 & -> & H1 & He & H2). fin.
      exists true. split; [eapply d_optprop_computed; kfin|]. split; [auto|].
      intros H. exfalso. apply H. eexists; eauto.
    + tcall a ts s2 HS2 HR2 Hne2 HG2. destruct HG2 as (t2 & -> & Hi).
      fin. exists true. split; [now apply d_optprop_ident|]. split; [auto|].
      intros H. exfalso. apply H. eexists; eauto.
Qed.

Lemma ok_OptionalMember c start object : method_ok (NOptionalMember c start object).
Proof.
  mstart. unfold parse_optional_member_expr. tcurm Hc.
  - tcall a ts s2 HS2 HR2 Hne2 HG2. destruct HG2 as (b & Hb & H1 & H2). rewrite (H1 Hc) in *. tspan. fin.
    exists a, true. auto.
  - tcall a ts s2 HS2 HR2 Hne2 HG2. destruct HG2 as (b & Hb & H1 & H2). rewrite (H2 Hc) in *. tspan. fin.
    exists a, false. split; [auto|]. split; [contradiction|auto].
Qed.

Lemma ok_OptionalCall c start callee : method_ok (NOptionalCall c start callee).
Proof.
  mstart. unfold parse_optional_call_expr. tmaybe t s1 E1 Ev1 HR1 Hn.
  - tcall a ts s2 HS2 HR2 Hne2 HG2. destruct HG2 as (l & -> & Hl). wsimp. tspan. fin.
    exists l, ts. split; [auto|]. left. split; [eexists; eauto|]. exists t. auto.
  - tcall a ts s2 HS2 HR2 Hne2 HG2. destruct HG2 as (l & -> & Hl). wsimp. tspan. fin.
    exists l, ts. split; [auto|]. right. auto.
Qed.

Lemma ok_OptionalExpr c start object : method_ok (NOptionalExpr c start object).
Proof.
  mstart. unfold parse_optional_expr. traw.
  assert (Hdef : ~ curv s0 (VPunct PQuestionMarkDot) ->
     W D m 4 None s0 (pret object) s0 (OkPost D (NOptionalExpr c start object) s0)).
  { intros Hn. apply W_ret. ok0. intros te HL [Hte|(_ & _ & Hq)]; [now rewrite app_nil_r|contradiction]. }
  destruct (cur s0) as [t|] eqn:E0.
  2: { apply Hdef. intros (t & E & _). congruence. }
  assert (Hmem : curv s0 (VPunct PDot) \/ curv s0 (VPunct PBraceOpen) \/ curv s0 (VPunct PQuestionMarkDot) ->
    W D m 4 None s0 (let? o := pcall (NOptionalMember c start object) in pcall (NOptionalExpr c start o)) s0
     (OkPost D (NOptionalExpr c start object) s0)).
  { intros Hc. tcall a ts s1 HS1 HR1 Hne HG. destruct HG as (p & b & Hp & Hb & ->).
    tcall b' ts2 s2 HS2 HR2 Hne2 HG2. okp. intros te HL Hte. rewrite app_assoc. apply HG2.
    + eapply Left_step; eauto.
    + left. destruct Hte as [Hte|(Hte & Hnn & Hq)].
      * eapply d_opt_member; kfin. eapply Left_span_step; eauto.
      * rewrite (Hb Hq) in *. eapply d_opt_first_member; kfin. eapply Left_span_step; eauto. }
  assert (Hcall : 
    W D m 4 None s0 (let? o := pcall (NOptionalCall c start object) in pcall (NOptionalExpr c start o)) s0
     (OkPost D (NOptionalExpr c start object) s0)).
  { tcall a ts s1 HS1 HR1 Hne HG. destruct HG as (args & ta & Hargs & Hcase).
    tcall b' ts2 s2 HS2 HR2 Hne2 HG2. okp. intros te HL Hte. rewrite app_assoc. apply HG2.
    + eapply Left_step; eauto.
    + left. destruct Hcase as [(Hq & tq & -> & Htq & ->)|(Hq & -> & ->)].
      * destruct Hte as [Hte|(Hte & Hnn & _)].
        -- eapply d_opt_call; kfin. eapply Left_span_step; eauto.
        -- eapply d_opt_first_call; kfin. eapply Left_span_step; eauto.
      * destruct Hte as [Hte|(_ & _ & Hq')]; [|contradiction].
        eapply d_opt_plain_call; kfin. eapply Left_span_step; eauto. }
  assert (Hval : t_value t <> VPunct PQuestionMarkDot ->
    W D m 4 None s0 (ofres (validate_no_template_in_optional_chain t);? pret object) s0
     (OkPost D (NOptionalExpr c start object) s0)).
  { intros Hn. wb. apply W_ofres.
    - intros u _. apply Hdef. intros (t' & E & Ev). congruence.
    - intros e He. eapply err_cur; [apply Reach_Back; exact HR0|exact E0| |];
        unfold validate_no_template_in_optional_chain in He;
        destruct (t_value t) as [| | |l| | |] eqn:Hvt; try discriminate He; try (destruct l; try discriminate He);
        injection He as <-; first [intros Hf; eapply says_template; [cbn; rewrite ?Hvt in Hf; exact Hf|exact Logic.I]|reflexivity]. }
  destruct (t_value t) eqn:Ev; try (apply Hval; congruence).
  destruct p; try (apply Hval; congruence).
  - exact Hcall.
  - apply Hmem. right. left. eexists; eauto.
  - apply Hmem. left. eexists; eauto.
  - tpeekm. tif Ep; [exact Hcall|]. wb. apply W_peek. wsimp. wb.
    apply W_mono with (Q := fun _ s => s = s0).
    + intros _ s ->. apply Hmem. right. right. eexists; eauto.
    + destruct (rok (nxt s0)) as [tn|] eqn:En; [|now apply W_ret]. apply rok_some in En.
      apply W_ofres; [auto|].
      intros e He. eapply (err_nxt None); [reflexivity|apply Reach_Back; exact HR0|exact E0|exact En| |];
        unfold validate_no_template_in_optional_chain in He;
        destruct (t_value tn) as [| | |l| | |] eqn:Hvt; try discriminate He; try (destruct l; try discriminate He);
        injection He as <-; first [intros Hf; eapply says_template; [cbn; rewrite ?Hvt in Hf; exact Hf|exact Logic.I]|reflexivity].
Qed.

Lemma ok_AsgPattern c : method_ok (NAsgPattern c).
Proof.
  mstart. unfold parse_assignment_pattern. tcur t E. destruct (HX t E) as [Ev|Ev]; rewrite Ev.
  - tcall a ts s2 HS2 HR2 Hne2 HG2. okp. exact HG2.
  - tcall a ts s2 HS2 HR2 Hne2 HG2. okp. exact HG2.
Qed.

Lemma ok_ArrayAsg c : method_ok (NArrayAsg c).
Proof.
  mstart. unfold parse_array_assignment_pattern. tpos. tassert t s1 E1 Ev1 HR1 En1.
  tcall a ts s2 HS2 HR2 Hne2 HG2. destruct HG2 as (l & r & -> & Hl). wsimp. tspan. fin.
  eapply d_asg_array; kfin.
Qed.

Lemma ok_ArrayAsgLoop c acc : method_ok (NArrayAsgLoop c acc).
Proof.
  mstart. unfold parse_array_assignment_loop. tcur t E.
  assert (Hdef : W D m 12 (Some c) s0
    (let? e := pcall (NAsgElement c) in pcall (NArrayAsgLoop c (acc ++ [Some e]))) s0
    (OkPost D (NArrayAsgLoop c acc) s0)).
  { tcall a ts s1 HS1 HR1 Hne1 HG1. destruct HG1 as (sp & x & tx & o & to & -> & -> & Hx & Ho & ->).
    tcall b tb s2 HS2 HR2 Hne2 HG2. destruct HG2 as (l & r & -> & Hl). okp.
    exists (Some (AsgElement (span_of (tx ++ to)) x o) :: l), r. rewrite <- app_assoc. split; [reflexivity|].
    eapply (d_asgarr_elem _ _ _ (tx ++ to)); kfin; [now rewrite app_assoc|]. eapply d_asgelem; kfin. }
  destruct (t_value t) eqn:Ev; try exact Hdef. destruct p; try exact Hdef.
  - tcons t1 s1 E1 HR1 En1. fin. exists [], None. rewrite app_nil_r. split; [reflexivity|]. now constructor.
  - tcons t1 s1 E1 HR1 En1. tcall a ts s2 HS2 HR2 Hne2 HG2. tmaybe t2 s3 E3 Ev3 HR3 Hn.
    + fin. exists [], (Some a). rewrite app_nil_r. split; [reflexivity|]. eapply d_asgarr_rest; kfin.
    + apply W_err. eapply (err_rest _ _ _ _ _ _ [t1]); [exact HR2|exact HG2|reflexivity|exact Hne2|reflexivity| |reflexivity|reflexivity]. exact Ev.
  - tcons t1 s1 E1 HR1 En1. tcall a ts s2 HS2 HR2 Hne2 HG2. destruct HG2 as (l & r & -> & Hl). okp.
    exists (None :: l), r. rewrite <- app_assoc. split; [reflexivity|]. eapply d_asgarr_elision; kfin.
Qed.

Lemma ok_AsgElement c : method_ok (NAsgElement c).
Proof.
  mstart. unfold parse_assignment_element. tpos. tcall a ts s1 HS1 HR1 Hne1 HG1.
  eapply W_init; [exact HR1|exact Hne1|exact Hm|]. intros o to s2 HR2 Ho. norm HR2. tspan. fin.
  exists (span_of (ts ++ to)), a, ts, o, to. repeat (split; [solve [auto | f_equal; spn]|]). auto.
Qed.

Lemma ok_AsgTarget c : method_ok (NAsgTarget c).
Proof.
  mstart. unfold parse_destructuring_assignment_target. tcur t E.
  assert (Hdef : W D m 10 (Some c) s0
    (let? e := pcall (NLeftHandSide c) in
     ofres (check_simple "Invalid destructuring assignment target" c e);? pret e) s0
    (OkPost D (NAsgTarget c) s0)).
  { tcall a ts s1 HS1 HR1 Hne1 HG1. wb. apply W_ofres.
    - intros [] Hok. apply check_simple_ok in Hok. fin. now apply d_asgtarget_expr.
    - intros err Herr. eapply (err_simple D m _ _ _ _ _ _ _ ts _ [] []); eauto using Reach_Back.
      now rewrite app_nil_r. }
  assert (Hpat : t_value t = VPunct PBraceOpen \/ t_value t = VPunct PBracketOpen ->
    W D m 10 (Some c) s0 (pcall (NAsgPattern c)) s0 (OkPost D (NAsgTarget c) s0)).
  { intros Hv. tcall a ts s1 HS1 HR1 Hne1 HG1.
    - intros t' E'. uniq. exact Hv.
    - okp. now apply d_asgtarget_pattern. }
  destruct (t_value t) eqn:Ev; try exact Hdef. destruct p; try exact Hdef; apply Hpat; auto.
Qed.

Lemma ok_ObjectAsg c : method_ok (NObjectAsg c).
Proof.
  mstart. unfold parse_object_assignment_pattern. tpos. tassert t s1 E1 Ev1 HR1 En1.
  tcall a ts s2 HS2 HR2 Hne2 HG2. destruct HG2 as (l & r & -> & Hl & _). wsimp. tspan. fin.
  eapply d_asg_object; kfin.
Qed.

Lemma ok_ObjectAsgLoop c acc : method_ok (NObjectAsgLoop c acc).
Proof.
  mstart. unfold parse_object_assignment_loop. tcur t E.
  assert (Hk : forall p tp s1, Reach D s0 tp s1 -> tp <> [] -> der D YAsgProp c (I p) tp ->
    t_value t <> VPunct PBracketClose ->
    W D m 3 None s0 (consume_list_delimiter (VPunct PBracketClose);? pcall (NObjectAsgLoop c (acc ++ [p]))) s1
    (OkPost D (NObjectAsgLoop c acc) s0)).
  { intros p tp s1 HR1 Hne1 HG1 Hnc. wb. eapply W_delim; [exact HR1| |].
    - intros t' s3 Ht HR3. norm HR3. wsimp. tcall l tl s4 HS4 HR4 Hne4 HG4.
      destruct HG4 as (l' & r & -> & Hl & _). okp. exists (p :: l'), r. rewrite <- app_assoc.
      split; [reflexivity|]. split; [eapply d_rlist_comma; kfin|].
      intros (t2 & E2 & Ev2); congruence.
    - intros Hc. wsimp. tcall l tl s4 HS4 HR4 Hne4 HG4.
      destruct HG4 as (l' & r & -> & Hl & He). destruct (He Hc) as [-> ->]. okp. exists [p], None.
      rewrite app_nil_r. split; [reflexivity|]. split; [|intros (t2 & E2 & Ev2); congruence].
      inversion Hl; subst. eapply d_rlist_last; kfin. }
  assert (Hdef : t_value t <> VPunct PBracketClose -> W D m 3 None s0 (
    let? colon := peek_matches (VPunct PColon) in
    if (value_is (VPunct PBraceOpen) (Some t) || colon)%bool then
      let? p := pcall (NNamedAsg c) in
      consume_list_delimiter (VPunct PBracketClose);?
      pcall (NObjectAsgLoop c (acc ++ [p]))
    else
      let? p := pcall (NSingleAsg c) in
      consume_list_delimiter (VPunct PBracketClose);?
      pcall (NObjectAsgLoop c (acc ++ [p]))) s0 (OkPost D (NObjectAsgLoop c acc) s0)).
  { intros Hnc. tpeekm. tif Eb; tcall a ts s1 HS1 HR1 Hne1 HG1; eapply Hk; eauto. }
  destruct (t_value t) eqn:Ev; try (apply Hdef; congruence). destruct p; try (apply Hdef; congruence).
  - tcons t1 s1 E1 HR1 En1. fin. exists [], None. rewrite app_nil_r. split; [reflexivity|].
    split; [now constructor|auto].
  - tcons t1 s1 E1 HR1 En1. tcall a ts s2 HS2 HR2 Hne2 HG2. tmaybe t2 s3 E3 Ev3 HR3 Hn.
    + fin. exists [], (Some a). rewrite app_nil_r. split; [reflexivity|].
      split; [eapply d_rlist_rest; kfin|]. intros (t3 & E4 & Ev4); congruence.
    + apply W_err. eapply (err_rest _ _ _ _ _ _ [t1]); [exact HR2|exact HG2|reflexivity|exact Hne2|reflexivity| |reflexivity|reflexivity]. exact Ev.
Qed.

Lemma ok_NamedAsg c : method_ok (NNamedAsg c).
Proof.
  mstart. unfold parse_named_assignment_prop. tpos. tcall n tn s1 HS1 HR1 Hne1 HG1.
  tassert t s2 E2 Ev2 HR2 En2. tcall a ts s3 HS3 HR3 Hne3 HG3.
  destruct HG3 as (sp & x & tx & o & to & -> & -> & Hx & Ho & ->). tspan. fin.
  eapply d_asg_named; kfin.
Qed.

Lemma ok_SingleAsg c : method_ok (NSingleAsg c).
Proof.
  mstart. unfold parse_single_name_assignment_prop. tpos. tcall i ti s1 HS1 HR1 Hne1 HG1.
  destruct HG1 as (t & -> & Hi).
  eapply W_init; [exact HR1|exact Hne1|exact Hm|]. intros o to s2 HR2 Ho. norm HR2. tspan. fin.
  eapply d_asg_single; kfin.
Qed.

Lemma ok_BindPattern c : method_ok (NBindPattern c).
Proof.
  mstart. unfold parse_binding_pattern. tcur t E.
  assert (Hdef : W D m 2 None s0 (let? i := pcall (NIdentifier c) in pret (BindIdent i)) s0
    (OkPost D (NBindPattern c) s0)).
  { tcall a ts s1 HS1 HR1 Hne1 HG1. destruct HG1 as (t1 & -> & Hi). fin. now apply d_pat_ident. }
  destruct (t_value t) eqn:Ev; try exact Hdef. destruct p; try exact Hdef;
    tcall a ts s1 HS1 HR1 Hne1 HG1; okp; exact HG1.
Qed.

Lemma ok_ObjectBind c : method_ok (NObjectBind c).
Proof.
  mstart. unfold parse_object_binding_pattern. tpos. tassert t s1 E1 Ev1 HR1 En1.
  tcall a ts s2 HS2 HR2 Hne2 HG2. destruct HG2 as (l & r & -> & Hl & _). wsimp. tspan. fin.
  eapply d_pat_object; kfin.
Qed.

Lemma ok_ObjectBindLoop c acc : method_ok (NObjectBindLoop c acc).
Proof.
  mstart. unfold parse_object_binding_loop. tcur t E.
  assert (Hk : forall p tp s1, Reach D s0 tp s1 -> tp <> [] -> der D YBindProp c (I p) tp ->
    t_value t <> VPunct PBracketClose ->
    W D m 4 None s0 (consume_list_delimiter (VPunct PBracketClose);? pcall (NObjectBindLoop c (acc ++ [p]))) s1
    (OkPost D (NObjectBindLoop c acc) s0)).
  { intros p tp s1 HR1 Hne1 HG1 Hnc. wb. eapply W_delim; [exact HR1| |].
    - intros t' s3 Ht HR3. norm HR3. wsimp. tcall l tl s4 HS4 HR4 Hne4 HG4.
      destruct HG4 as (l' & r & -> & Hl & _). okp. exists (p :: l'), r. rewrite <- app_assoc.
      split; [reflexivity|]. split; [eapply d_rlist_comma; kfin|].
      intros (t2 & E2 & Ev2); congruence.
    - intros Hc. wsimp. tcall l tl s4 HS4 HR4 Hne4 HG4.
      destruct HG4 as (l' & r & -> & Hl & He). destruct (He Hc) as [-> ->]. okp. exists [p], None.
      rewrite app_nil_r. split; [reflexivity|]. split; [|intros (t2 & E2 & Ev2); congruence].
      inversion Hl; subst. eapply d_rlist_last; kfin. }
  assert (Hdef : t_value t <> VPunct PBracketClose -> W D m 4 None s0 (
    let? colon := peek_matches (VPunct PColon) in
    if (value_is (VPunct PBraceOpen) (Some t) || colon)%bool then
      let? p := pcall (NNamedBind c) in
      consume_list_delimiter (VPunct PBracketClose);?
      pcall (NObjectBindLoop c (acc ++ [p]))
    else
      let? p := pcall (NSingleBind c) in
      consume_list_delimiter (VPunct PBracketClose);?
      pcall (NObjectBindLoop c (acc ++ [p]))) s0 (OkPost D (NObjectBindLoop c acc) s0)).
  { intros Hnc. tpeekm. tif Eb; tcall a ts s1 HS1 HR1 Hne1 HG1; eapply Hk; eauto. }
  destruct (t_value t) eqn:Ev; try (apply Hdef; congruence). destruct p; try (apply Hdef; congruence).
  - tcons t1 s1 E1 HR1 En1. fin. exists [], None. rewrite app_nil_r. split; [reflexivity|].
    split; [now constructor|auto].
  - tcall a ts s2 HS2 HR2 Hne2 HG2. destruct HG2 as (td & tx & t1 & -> & H1 & Hx & H2).
    fin. exists [], (Some a). rewrite app_nil_r. split; [reflexivity|].
    split; [eapply d_rlist_rest; kfin|]. intros (t3 & E4 & Ev4); congruence.
Qed.

Lemma ok_SingleBind c : method_ok (NSingleBind c).
Proof.
  mstart. unfold parse_single_name_binding. tpos. tcall i ti s1 HS1 HR1 Hne1 HG1.
  destruct HG1 as (t & -> & Hi).
  eapply W_init; [exact HR1|exact Hne1|exact Hm|]. intros o to s2 HR2 Ho. norm HR2. tspan. fin.
  eapply d_bind_single; kfin.
Qed.

Lemma ok_NamedBind c : method_ok (NNamedBind c).
Proof.
  mstart. unfold parse_named_binding. tpos. tcall n tn s1 HS1 HR1 Hne1 HG1.
  tassert t s2 E2 Ev2 HR2 En2. tcall a ts s3 HS3 HR3 Hne3 HG3. tspan. fin.
  eapply d_bind_named; kfin.
Qed.

Lemma ok_ArrayBind c : method_ok (NArrayBind c).
Proof.
  mstart. unfold parse_array_binding_pattern. tpos. tassert t s1 E1 Ev1 HR1 En1.
  tcall a ts s2 HS2 HR2 Hne2 HG2. destruct HG2 as (l & r & -> & Hl & _). wsimp. tspan. fin.
  eapply d_pat_array; kfin.
Qed.

Lemma ok_ArrayBindLoop c acc : method_ok (NArrayBindLoop c acc).
Proof.
  mstart. unfold parse_array_binding_loop. tcur t E.
  assert (Hdef : t_value t <> VPunct PBraceClose -> W D m 4 None s0 (
    if (value_is (VPunct PBracketOpen) (Some t) || value_is (VPunct PBraceOpen) (Some t)
        || is_identifier_token (Some t) (keyword_context c))%bool then
      let? e := pcall (NBindElement c) in
      consume_list_delimiter (VPunct PBraceClose);?
      pcall (NArrayBindLoop c (acc ++ [Some e]))
    else let? t := consume in perror (unexpected_token t)) s0 (OkPost D (NArrayBindLoop c acc) s0)).
  { intros Hnc. tif Eb.
    - tcall a ts s1 HS1 HR1 Hne1 HG1. wb. eapply W_delim; [exact HR1| |].
      + intros t' s3 Ht HR3. norm HR3. wsimp. tcall l tl s4 HS4 HR4 Hne4 HG4.
        destruct HG4 as (l' & r & -> & Hl & _). okp. exists (Some a :: l'), r. rewrite <- app_assoc.
        split; [reflexivity|]. split; [eapply d_bindarr_comma; kfin|].
        intros (t2 & E2 & Ev2); congruence.
      + intros Hc. wsimp. tcall l tl s4 HS4 HR4 Hne4 HG4.
        destruct HG4 as (l' & r & -> & Hl & He). destruct (He Hc) as [-> ->]. okp. exists [Some a], None.
        rewrite app_nil_r. split; [reflexivity|]. split; [|intros (t2 & E2 & Ev2); congruence].
        inversion Hl; subst. eapply d_bindarr_last; kfin.
    - tcons t1 s1 E1 HR1 En1. terr_tok. }
  destruct (t_value t) eqn:Ev; try (apply Hdef; congruence). destruct p; try (apply Hdef; congruence).
  - tcons t1 s1 E1 HR1 En1. fin. exists [], None. rewrite app_nil_r. split; [reflexivity|].
    split; [now constructor|auto].
  - tcall a ts s2 HS2 HR2 Hne2 HG2. destruct HG2 as (td & tx & t1 & -> & H1 & Hx & H2).
    fin. exists [], (Some a). rewrite app_nil_r. split; [reflexivity|].
    split; [eapply d_bindarr_rest; kfin|]. intros (t3 & E4 & Ev4); congruence.
  - tcons t1 s1 E1 HR1 En1. tcall a ts s2 HS2 HR2 Hne2 HG2. destruct HG2 as (l & r & -> & Hl & _). okp.
    exists (None :: l), r. rewrite <- app_assoc. split; [reflexivity|].
    split; [eapply d_bindarr_elision; kfin|]. intros (t3 & E4 & Ev4); congruence.
Qed.

Lemma ok_BindElement c : method_ok (NBindElement c).
Proof.
  mstart. unfold parse_binding_element. tpos. tcall a ts s1 HS1 HR1 Hne1 HG1.
  eapply W_init; [exact HR1|exact Hne1|exact Hm|]. intros o to s2 HR2 Ho. norm HR2. tspan. fin.
  eapply d_bindelem; kfin.
Qed.

Lemma ok_BindRest c : method_ok (NBindRest c).
Proof.
  mstart. unfold parse_binding_rest_element. tassert t s1 E1 Ev1 HR1 En1.
  tcall a ts s2 HS2 HR2 Hne2 HG2. okp. exists t, ts. auto.
Qed.

Lemma ok_RestBind c p : method_ok (NRestBind c p).
Proof.
  mstart. unfold parse_rest_binding_ident. tassert t s1 E1 Ev1 HR1 En1.
  tcall a ts s2 HS2 HR2 Hne2 HG2. tcons t2 s3 E3 HR3 En3. tif Ev.
  - apply value_is_true in Ev. destruct Ev as (t' & [= <-] & Ev). fin. exists t, ts, t2. auto.
  - apply W_err. eapply err_here; [apply Reach_Back; exact HR3| |].
    2: { apply says_rest with (l := log s0) (u := t) (ts := ts).
         - pose proof (Back_log _ _ _ _ (Reach_Back _ _ _ _ HR3)) as HL.
           change (t :: ts ++ [t2]) with ((t :: ts) ++ [t2]) in HL. rewrite app_assoc in HL.
           eapply is_log_app. exact HL.
         - exact Ev1.
         - right. pose proof (der_span _ _ _ _ _ HG2 eq_refl) as Hsp. rewrite Hsp.
           change (mk_span (tstart t) (tfin ([t] ++ ts)) = mk_span (tstart t) (tfin ts)). rewrite tfin_app by nn. reflexivity. }
    right. cbn.
    rewrite (der_span _ _ _ _ _ HG2 eq_refl). apply Reach_Back in HR2.
    pose proof (Back_bounds _ _ _ _ HR2 ltac:(discriminate)) as HB.
    unfold span_ok, span_of. cbn. change (t :: ts) with ([t] ++ ts) in HB. rewrite tfin_app in HB by nn. cbn in HB. lia.
Qed.

End Par.
