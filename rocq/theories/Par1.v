(** * Par1: the methods of parser/src/lib.rs and parser/src/cover.rs, and the
    first part of parser/src/expr.rs, keep their promise. *)

From Verif Require Import ParTac ParLib.
Local Open Scope string_scope.
Local Open Scope list_scope.
Local Open Scope prog_scope.

Section Par.
Context {PF : Platform}.
Variable D : str.
Variable m : bool.
Notation method_ok := (method_ok D m).

Lemma ok_Identifier c : method_ok (NIdentifier c).
Proof.
  intros s0 (HC & Hm & HX). cbn [body].
  pose proof (Reach_refl _ _ HC) as HR0.
  destruct (is_identifier_token (rok (cur s0)) (keyword_context c)) eqn:EI.
  - destruct (cur s0) as [t|e] eqn:E; [|discriminate].
    destruct (step_consume_ok D s0 t HC E) as (s' & Es & HC' & El & Ep & En).
    assert (HR : Reach D s0 [t] s').
    { repeat split; auto. exists t. split; auto. apply hd_rel_refl. discriminate. }
    unfold parse_identifier, consume. do 2 apply wp_bind. unfold pop. cbn [wp]. rewrite Es. cbn [wp pret].
    cbn [rok is_identifier_token] in EI.
    assert (HF : forall i, ident_tok c t i -> Post D m (NIdentifier c) s0 (Ok i) s').
    { intros i Hi. exists [t]. split; [left; exact HR|]. split; [discriminate|]. exists t. auto. }
    destruct (t_value t) eqn:Ev; try discriminate EI.
    + rewrite EI. cbn [wp]. apply HF. split; [reflexivity|]. right. eauto.
    + cbn [wp]. apply HF. split; [reflexivity|]. left. exact Ev.
  - assert (HW : W D m (rank (NIdentifier c)) (actx (NIdentifier c)) s0 (parse_identifier c) s0 (fun _ _ => False)).
    { assert (HP : forall t, cur s0 = Ok t -> match t_value t with
          | VIdentifier _ => False
          | VKeyword k => is_allowed_as_identifier k (keyword_context c) = false
          | _ => True end).
      { intros t E. rewrite E in EI. cbn in EI. destruct (t_value t); auto. discriminate. }
      unfold parse_identifier. tcons t s1 E1 HR1 En1. specialize (HP t E1).
      destruct (t_value t) eqn:Ev; try terr_tok; [|contradiction].
      rewrite HP. terr_tok. }
    unfold W in HW. eapply wp_mono; [|exact HW]. intros [a|e] s'; cbn; [contradiction|]. auto.
Qed.

Lemma ok_IdentifierName : method_ok NIdentifierName.
Proof.
  mstart. unfold parse_identifier_name. tcons t s1 E1 HR1 En1.
  destruct (t_value t) eqn:Ev; try terr_tok; fin; exists t; (split; [reflexivity|]); (split; [reflexivity|]).
  - right. eauto.
  - left. exact Ev.
Qed.

Lemma ok_PropertyName c : method_ok (NPropertyName c).
Proof.
  mstart. unfold parse_property_name. tcur t E.
  assert (Hdef : W D m 1 None s0 (let? b := is_identifier_name in
    if b then let? i := pcall NIdentifierName in pret (NameIdent i)
    else let? t := consume in perror (unexpected_token t)) s0 (OkPost D (NPropertyName c) s0)).
  { wb. apply W_is_identifier_name. destruct (is_name_token _).
    - tcall i ts s1 HS HR Hne HG. fin. destruct HG as (t1 & -> & Ht). now apply d_name_ident.
    - tcons t1 s1 E1 HR1 En1. terr_tok. }
  destruct (t_value t) eqn:Ev; try exact Hdef.
  - destruct p; try exact Hdef.
    tcons t1 s1 E1 HR1 En1. tcall e ts s2 HS2 HR2 Hne HG. tassert t2 s3 E2 Ev2 HR3 En2. fin.
    eapply d_name_computed; kfin.
  - tcons t1 s1 E1 HR1 En1. rewrite Ev.
    destruct l; try terr_tok.
    + fin. apply d_name_string. exact Ev.
    + fin. apply d_name_number. exact Ev.
Qed.

Lemma ok_Directives c acc : method_ok (NDirectives c acc).
Proof.
  mstart. unfold parse_directive_prologue. wb. apply W_string_literal.
  destruct (is_string_literal _) eqn:Es; wsimp.
  - tcur t E. tcall stmt ts s1 HS1 HR1 Hne HG. destruct (directive_of stmt) as [d|] eqn:Ed.
    + eapply W_callB; [apply Reach_Back; eassumption|pre|rk|act|].
      intros a s' (ts2 & Hts2 & _ & HG2). cbn [G] in HG2. destruct HG2 as (ds & dl & -> & Hdl & Hmap).
      exists (ts ++ ts2). split; [|split; [discriminate|]].
      * destruct Hts2 as [HT|(Hw & HB & Hne2)].
        -- left. eapply Reach_trans; eauto.
        -- right. split; [reflexivity|]. split; auto. eapply Back_trans; eauto. now apply Reach_Back.
      * cbn [G]. exists (d :: ds), (stmt :: dl). rewrite <- app_assoc. split; [reflexivity|].
        split; [eapply d_many_cons; eauto|]. cbn [map]. congruence.
    + wb. eapply W_rewind_ok; [exact HR0|eassumption|apply Reach_Back; eassumption|].
      intros s' HB1 HB2 Hne2 Hhd. apply W_ret. exists []. split; [right; auto|]. split; [discriminate|].
      exists [], []. rewrite app_nil_r. split; auto. split; [constructor|reflexivity].
  - apply W_ret. exists []. split; [left; auto|]. split; [discriminate|].
    exists [], []. rewrite app_nil_r. split; auto. split; [constructor|reflexivity].
Qed.

Lemma ok_Program c : method_ok (NProgram c).
Proof.
  mstart. unfold parse_program. destruct HX as [Hp0 Hl0]. tpos. wb.
  eapply W_callB; [apply Reach_Back; eassumption|pre|rk|act|].
  intros ds s1 (td & Htd & _ & HG1). cbn [G] in HG1. destruct HG1 as (ds' & dl & -> & Hdl & Hmap).
  cbn [app]. wb.
  assert (HB1 : Back D s0 td s1) by (destruct Htd as [HT|(_ & HB & _)]; auto; now apply Reach_Back).
  assert (Hgen : forall c', c' = (if contains_strict ds' then with_strict true c else c) ->
    W D m 33 None s0 (pcall (NAllStmts c' [])) s1 (fun a s' => 
      W D m 33 None s0 (let? span := span_from (posof s0) in
       pret (if c_module c then Module span ds' a else Script span ds' a)) s' (OkPost D (NProgram c) s0))).
  { intros c' Hc'. eapply W_callB; [exact HB1| |rk|act|].
    { split; [|exact Logic.I]. rewrite Hc'. cbn. destruct (contains_strict ds'); exact Hm. }
    intros l s2 (tl & [HT|(Hx & _)] & _ & HG2); [|discriminate]. cbn [G] in HG2.
    destruct HG2 as (l' & -> & Hl' & He). cbn [app]. tspan. apply W_ret.
    assert (HR : Reach D s0 (td ++ tl) s2).
    { destruct Htd as [HTd|(_ & _ & Hne)]; [eapply Reach_trans; eauto|]. eapply Back_Reach; eauto.
      intros ->. destruct HT as (_ & Heq & _). rewrite <- (Heq eq_refl) in Hne. contradiction. }
    exists (td ++ tl). split; [left; exact HR|]. split; [discriminate|].
    cbn [G]. split; [|exact He]. eapply d_program; eauto.
    - rewrite <- Hc'. exact Hl'.
    - destruct (td ++ tl) as [|t0 tt] eqn:Et.
      + destruct HR as (_ & Heq & _). rewrite (Heq eq_refl) in *. unfold posof. rewrite He, Hp0. reflexivity.
      + spn. }
  destruct (contains_strict ds') eqn:Es; apply Hgen; reflexivity.
Qed.

Lemma ok_CoverParen c : method_ok (NCoverParen c).
Proof.
  mstart. unfold parse_cover_parenthesized_and_arrow_parameters. uniq. tcur t E. tpeekm.
  assert (Has : forall s, Back D s0 [] s ->
    W D m 5 (Some c) s0 (let? a := pcall (NArrowExpr c) in perror (arrow_function_not_allowed a)) s
      (OkPost D (NCoverParen c) s0)).
  { intros s HB. tcallb a ts s1 HS1 HR1 Hne HG. apply W_err. pose proof (der_span _ _ _ _ _ HG eq_refl) as Hsp.
    split; [apply clean_wf; eapply Reach_clean; eauto|]. exists ts.
    split; [destruct HR1 as ((_ & _ & El & _) & _); exact El|].
    split; [intros u Hu; eapply Back_starts; [apply Reach_Back; exact HR1|exact Hu]|].
    split; [split; [right; cbn; rewrite Hsp; eapply span_ok_of; [apply Reach_Back; exact HR1|exact Hne]|]|].
    { cbn. exists a, c, (log s0), ts. split; [reflexivity|]. split; [eapply Back_log, Reach_Back; exact HR1|].
      split; [exact Hne|]. split; [exact HG|exact Hsp]. }
    cbn. split; auto. exists t. split; auto. right.
    split; [rewrite Hsp; cbn; rewrite <- (Reach_posof _ _ _ _ HR1 Hne); unfold posof; rewrite E; reflexivity|].
    split; [assumption|]. exists c. auto. }
  destruct (value_is _ _).
  - apply Has. now apply Reach_Back.
  - wb. eapply W_try; [exact HR0|pre|rk|reflexivity| |].
    + intros e ts s1 HS1 HR1 Hne HG. cbn [G] in HG. norm HR1. specialize (Hne eq_refl). tcurm Hc.
      * wb. eapply W_rewind_ok; [exact HR0|eassumption|apply Reach_Back; exact HR1|].
        intros s' HB1 HB2 Hne2 Hhd. now apply Has.
      * fin. exact HG.
    + intros e s1 HE _. wsimp. destruct (retries_as_arrow e).
      * wb. eapply W_rewind_err; [exact HR0|eassumption|exact HE|].
        intros s' HB1 HB2 Hne2 Hhd. now apply Has.
      * apply W_err. eapply err_lift; [apply Reach_Back; exact HR0|exact HE|]. auto.
Qed.

Lemma ok_CoverAsync c : method_ok (NCoverAsync c).
Proof.
  mstart. unfold parse_cover_call_or_async_arrow_head. pose proof HX as HX'. tcur t E.
  tcall e ts s1 HS1 HR1 Hne HG. destruct HG as (t1 & i & ta & args & Ets & Hk & Hi & Hargs & ->).
  tcurm Hc.
  - wb. eapply W_rewind_ok; [exact HR0|eassumption|apply Reach_Back; exact HR1|].
    intros s' HB1 HB2 Hne2 Hhd. tcallb a ts2 s2 HS2 HR2 Hn HG2. okp. now apply d_assign_arrow.
  - fin. eapply d_assign_async_call; eauto.
Qed.

Lemma ok_CoveredCall c : method_ok (NCoveredCall c).
Proof.
  mstart. unfold parse_covered_call_expression. tpos. tcall i ts s1 HS1 HR1 Hne HG.
  destruct HG as (t & -> & Hi). destruct HX as (x & H & H0).
  assert (x = t) as <-.
  { symmetry. eapply Reach_cur_stable; eauto. rewrite H0. simpl. auto. }
  tcall a ts2 s2 HS2 HR2 Hne2 HG2. destruct HG2 as (args & Hargs & ->).
  okp. exists x, i, ts2, args. split; [reflexivity|]. split; [assumption|]. split; [auto|]. split; [auto|].
  f_equal. spn.
Qed.

Lemma ok_Expr c : method_ok (NExpr c).
Proof.
  mstart. unfold parse_expr. tpos. tcall e ts s1 HS1 HR1 Hne HG. tcurm Hc.
  - tcall a ts2 s2 HS2 HR2 Hne2 HG2. okp. apply HG2.
    + eapply Reach_Left; eauto.
    + now constructor.
    + auto.
  - fin. now apply d_expr_one.
Qed.

Lemma ok_Sequence c start acc : method_ok (NSequence c start acc).
Proof.
  mstart. unfold parse_expr_sequence. tmaybe t s1 E1 Ev1 HR1 Hn.
  - tcall e ts s2 HS2 HR2 Hne2 HG2. tcall a ts3 s3 HS3 HR3 Hne3 HG3. okp.
    intros te HL Hte _. specialize (HG3 (te ++ t :: ts)). rewrite <- app_assoc in HG3. apply HG3.
    + eapply Left_step; eauto.
    + eapply d_sep_snoc; eauto.
    + right. rewrite app_length. cbn. assert (acc <> []).
      { intros ->. inversion Hte. destruct l; discriminate. }
      destruct acc; [congruence|]. cbn. lia.
  - tspan. apply W_ret. exists []. split; [left; auto|]. split; [discriminate|].
    intros te HL Hte [Hc|Hl]; [contradiction|]. rewrite app_nil_r. apply d_expr_seq; auto.
    now apply Left_span.
Qed.

Lemma lit_pattern_pre c e ts s0 t0 s' so :
  clean D s0 -> forall s1, Reach D s0 ts s1 -> cur s0 = Ok t0 -> der D so c (I e) ts ->
  (forall t', cur s' = Ok t' -> hd_rel t0 t') ->
  match e with ELiteral _ (LitObject _) | ELiteral _ (LitArray _) => True | _ => False end ->
  forall t, cur s' = Ok t -> t_value t = VPunct PBraceOpen \/ t_value t = VPunct PBracketOpen.
Proof.
  intros HC s1 HR E Hd Hh He t Et. destruct e; try contradiction.
  apply der_literal_head in Hd. apply Hh in Et.
  destruct e; try contradiction; destruct Hd as (t1 & ts' & -> & Ht1);
    pose proof (Back_hd _ _ _ _ _ (Reach_Back _ _ _ _ HR)) as (t2 & E2 & R);
    rewrite E in E2; injection E2 as <-; apply hd_rel_sym in R;
    (apply hd_rel_stable in R; [|rewrite Ht1; simpl; auto]); subst t1;
    (apply hd_rel_stable in Et; [|rewrite Ht1; simpl; auto]); subst t; auto.
Qed.

Lemma assign_aassign t : assignment_operator t = Some AAssign -> isp PEqual t.
Proof.
  unfold assignment_operator, isp. destruct (t_value t) as [ | | p | | | | ]; try discriminate.
  destruct p; try discriminate. reflexivity.
Qed.

Lemma ok_Assignment c : method_ok (NAssignment c).
Proof.
  mstart. unfold parse_assignment_expr. tpos. traw.
  tif Ey.
  { apply andb_true_iff in Ey. destruct Ey as [Ey1 Ey2].
    tcall a ts s1 HS1 HR1 Hne HG. okp. exact HG. }
  destruct (value_is (VKeyword KAsync) _) eqn:Ea.
  { apply value_is_curv in Ea. tcall a ts s1 HS1 HR1 Hne HG. okp. exact HG. }
  tpeekm. tif Eb.
  { tcall a ts s1 HS1 HR1 Hne HG. okp. now apply d_assign_arrow. }
  tcur t0 E0. wb. eapply W_try; [exact HR0|pre|rk|reflexivity| |].
  - intros e ts s1 HS1 HR1 Hne HG. cbn [G] in HG. norm HR1. specialize (Hne eq_refl). clear HS1. wsimp.
    wb. eapply W_assign_op; [exact HR1| |].
    + intros t o s2 E1 Eo HR2 En2. wsimp.
      assert (Hs : forall o', assignment_operator t = Some o' ->
        W D m 27 None s0 (let? _ := ofres (early_errors_left_hand_side_expr c e) in
            pcall (NAssignRight c (posof s0) e o')) s2 (OkPost D (NAssignment c) s0)).
      { intros o' Eo'. wb. apply W_ofres.
        - intros [] Hok. wsimp. apply check_simple_ok in Hok. destruct HG as [HG|HG].
          2:{ apply der_arrow_shape in HG. destruct HG as (? & ? & ? & ? & ? & ->). contradiction. }
          tcall a ts2 s3 HS3 HR3 Hne3 HG3. destruct HG3 as (rr & Hrr & ->). okp.
          eapply d_assign_simple; kfin.
        - intros err Herr. destruct HG as [HG|HG]; eapply (err_simple D m _ _ _ _ _ _ _ ts _ [] [t]);
            eauto using Reach_Back. }
      assert (Hna : W D m 27 None s0 (let? _ := ofres (early_errors_left_hand_side_expr c e) in pret e) s2
         (fun a s' => a = e /\ s' = s2 /\ simple_target c e)).
      { wb. apply W_ofres.
        - intros [] Hok. apply W_ret. apply check_simple_ok in Hok. auto.
        - intros err Herr. destruct HG as [HG|HG]; eapply (err_simple D m _ _ _ _ _ _ _ ts _ [] [t]);
            eauto using Reach_Back. }
      destruct o; try (apply Hs; exact Eo).
      wb. unfold normalize_left_side_assignment.
      assert (Hdef : W D m 27 None s0 (let? _ := ofres (early_errors_left_hand_side_expr c e) in pret e) s2
         (fun a s' => W D m 27 None s0 (pcall (NAssignRight c (posof s0) a AAssign)) s'
            (OkPost D (NAssignment c) s0))).
      { eapply W_mono; [|exact Hna]. intros a s' (-> & -> & Hok). destruct HG as [HG|HG].
          2:{ apply der_arrow_shape in HG. destruct HG as (? & ? & ? & ? & ? & ->). contradiction. }
          tcall a ts2 s3 HS3 HR3 Hne3 HG3. destruct HG3 as (rr & Hrr & ->). okp.
          eapply d_assign_simple; kfin. }
      assert (Hpat : match e with ELiteral _ (LitObject _) | ELiteral _ (LitArray _) => True | _ => False end ->
        W D m 27 None s0 (let? _ := pop (ORewind t0) in let? pattern := pcall (NAsgPattern c) in
           let? _ := consume_assert (VPunct PEqual) in pret pattern) s2
         (fun a s' => W D m 27 None s0 (pcall (NAssignRight c (posof s0) a AAssign)) s'
            (OkPost D (NAssignment c) s0))).
      { intros He. wb. eapply W_rewind_ok; [exact HR0|eassumption|apply Reach_Back; exact HR2|].
        intros s3 HB3 _ Hne3 Hhd. wsimp. tcallb pp tp s4 HS4 HR4 Hne4 HG4.
        { destruct HG as [HG|HG]; (eapply lit_pattern_pre; [exact HC|exact HR1|exact E0|exact HG|exact Hhd|exact He]). }
        tassert t5 s5 E5 Ev5 HR5 En5. apply W_ret. tcall a ts2 s6 HS6 HR6 Hne6 HG6.
        destruct HG6 as (rr & Hrr & ->). okp. eapply d_assign_pattern; kfin. }
      destruct e; try exact Hdef. destruct e; try exact Hdef; apply Hpat; exact Logic.I.
    + wsimp. fin. destruct HG as [HG|HG]; [now apply d_assign_cond|now apply d_assign_arrow].
  - intros e s1 HE _. wsimp.
    assert (Hdef : W D m 27 None s0 (perror e) s1 (OkPost D (NAssignment c) s0)).
    { apply W_err. eapply err_lift; [apply Reach_Back; exact HR0|exact HE|]. auto. }
    destruct (pe_kind e) eqn:Ek; try exact Hdef.
    wb. eapply W_rewind_err; [exact HR0|eassumption|exact HE|].
    intros s2 HB2 _ Hne2 Hhd. wsimp.
    assert (Herr : forall toks s, Back D s0 toks s -> W D m 27 None s0 (perror e) s (OkPost D (NAssignment c) s0)).
    { intros toks s HB. apply W_err. eapply err_here; eauto.
      - destruct HE as (_ & ? & _ & _ & [Hs _] & _). exact Hs.
      - destruct HE as (_ & ? & _ & _ & [_ Hs] & _). unfold not_arrow, says in *. rewrite Ek in *. exact Hs. }
    assert (Hgo : (curv s2 (VPunct PBracketOpen) \/ curv s2 (VPunct PBraceOpen)) ->
      W D m 27 None s0 (let? pattern := pcall (NAsgPattern c) in
      let? o := parse_optional_assignment_operator in
      match o with
      | Some AAssign => pcall (NAssignRight c (posof s0) pattern AAssign)
      | _ => perror e
      end) s2 (OkPost D (NAssignment c) s0)).
    { intros Hc. tcallb pp tp s4 HS4 HR4 Hne4 HG4.
      { intros t Et. destruct Hc as [Hc|Hc]; uniq; auto. }
      wb. eapply W_assign_op; [exact HR4| |].
      - intros t o s5 E5 Eo HR5 En5. destruct o; try (eapply Herr; apply Reach_Back; exact HR5).
        tcall a ts2 s6 HS6 HR6 Hne6 HG6.
        destruct HG6 as (rr & Hrr & ->). apply assign_aassign in Eo. norm HR6. okp. eapply d_assign_pattern; kfin.
      - eapply Herr; apply Reach_Back; exact HR4. }
    tcurm Hc1; tcurm Hc2; auto. eapply Herr; eauto.
Qed.

Lemma ok_ConditionalOrArrow c : method_ok (NConditionalOrArrow c).
Proof.
  mstart. unfold parse_conditional_expr_or_arrow_function. tpos. wb.
  eapply W_try; [exact HR0|pre|rk|reflexivity| |].
  - intros e ts s1 HS1 HR1 Hne HG. cbn [G] in HG. norm HR1. specialize (Hne eq_refl). wsimp. fin. auto.
  - intros e s1 HE _. wsimp. cbn [actx] in HE.
    assert (Hdef : (match pe_kind e with
        | PArrowFunctionNotAllowed _ => sp_start (pe_span e) <> posof s0 | _ => True end) ->
        W D m 25 None s0 (perror e) s1 (OkPost D (NConditionalOrArrow c) s0)).
    { intros Hx. apply W_err. destruct HE as (Hw & toks & El & Ht & Hs & Ha).
      split; auto. exists toks. repeat (split; [solve [auto]|]). unfold arrow_clause in *.
      destruct (pe_kind e); auto. destruct Ha as (Hsp & t0 & E0 & Hd). split; auto. exists t0. split; auto.
      destruct Hd as [Hd|(Hd & _)]; auto. exfalso. apply Hx. rewrite <- Hd. unfold posof. rewrite E0. reflexivity. }
    destruct (Nat.eqb_spec (sp_start (pe_span e)) (posof s0)) as [Hsp|Hsp].
    + destruct (pe_kind e) eqn:Ek; try (apply Hdef; exact Logic.I).
      destruct HE as (Hw & toks & El & Ht & Hs & Ha). unfold arrow_clause in Ha. rewrite Ek in Ha.
      destruct Ha as (Hns & t0 & E0 & Hd). unfold posof in Hsp. rewrite E0 in Hsp.
      destruct Hd as [Hd|(_ & _ & c' & Ec & HR & Hne & Hder)]; [lia|]. injection Ec as <-.
      fin. auto.
    + apply Hdef. destruct (pe_kind e); auto.
Qed.

Lemma ok_AssignmentAsync c : method_ok (NAssignmentAsync c).
Proof.
  mstart. unfold parse_assignment_expr_async. wb. apply W_peek. wsimp.
  destruct (value_is (VPunct PEqualGreater) _).
  { tcall a ts s1 HS1 HR1 Hne HG. okp. now apply d_assign_arrow. }
  destruct (value_is (VPunct PParenOpen) _).
  { tcall a ts s1 HS1 HR1 Hne HG. okp. exact HG. }
  destruct (is_identifier_token _ _).
  { tcall a ts s1 HS1 HR1 Hne HG. okp. now apply d_assign_arrow. }
  eapply W_callE; [exact HR0|pre|rk|reflexivity| |].
  - intros e s' HE. eapply err_noparen; [|exact HE]. intros (t & Et & Hv). uniq. congruence.
  - intros a ts s1 HS1 HR1 Hne HG. cbn [G] in HG. norm HR1. specialize (Hne eq_refl). okp.
    now apply d_assign_cond.
Qed.

Lemma ok_AssignRight c start lhs o : method_ok (NAssignRight c start lhs o).
Proof.
  mstart. unfold parse_assignment. tcall a ts s1 HS1 HR1 Hne HG. tspan. fin. eauto.
Qed.

Lemma ok_Parenthesized c : method_ok (NParenthesized c).
Proof.
  mstart. unfold parse_parenthesized_expr.
  tpos. tassert t s1 E1 Ev1 HR1 En1. tcall e ts s2 HS2 HR2 Hne HG.
  tassert t2 s3 E2 Ev2 HR3 En2. tspan. fin.
  eapply d_paren; kfin.
Qed.

Lemma ok_Yield c : method_ok (NYield c).
Proof.
  mstart. unfold parse_yield_expr. tpos. tassert t s1 E1 Ev1 HR1 En1. wb.
  assert (Hgen : forall b, W D m 1 None s0 (let? e2 := expr_ended in
    if (b || e2)%bool then let? span := span_from (posof s0) in pret (EYield span None false)
    else let? delegate := maybe_consume (VPunct PStar) in
      let? argument := pcall (NAssignment c) in
      let? span := span_from (posof s0) in pret (EYield span (Some argument) delegate)) s1
      (OkPost D (NYield c) s0)).
  { intros b. wb. apply W_expr_ended. intros b2. destruct (b || b2)%bool; wsimp.
    - tspan. fin. eapply d_assign_yield; kfin.
    - tmaybe t2 s2 E2 Ev2 HR2 Hn.
      + tcall a ts s3 HS3 HR3 Hne3 HG3. tspan. fin.
        eapply d_assign_yield_arg with (tg := [t2]); kfin. split; [reflexivity|exact Ev2].
      + tcall a ts s3 HS3 HR3 Hne3 HG3. tspan. fin.
        eapply d_assign_yield_arg with (tg := []); kfin. }
  apply W_is_end; [eapply Reach_clean; eauto| |]; intros _; apply Hgen.
Qed.

Lemma ok_Conditional c : method_ok (NConditional c).
Proof.
  mstart. unfold parse_conditional_expr. tpos. tcall e ts s1 HS1 HR1 Hne HG. tcurm Hc.
  - tcons t s2 E2 HR2 En2. tcall a ta s3 HS3 HR3 Hne3 HG3. tassert t4 s4 E4 Ev4 HR4 En4.
    tcall b tb s5 HS5 HR5 Hne5 HG5. tspan. fin. eapply d_cond; kfin.
  - fin. now apply d_cond_bin.
Qed.

End Par.
