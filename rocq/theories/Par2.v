(** * Par2: unary to primary expressions and literals. *)

From Verif Require Import ParTac ParLib.
Local Open Scope string_scope.
Local Open Scope list_scope.
Local Open Scope prog_scope.

Section Par.
Context {PF : Platform}.
Variable D : str.
Variable m : bool.
Notation method_ok := (method_ok D m).

Lemma ok_Unary c : method_ok (NUnary c).
Proof.
  mstart. unfold parse_unary_expr. tpos. wb. eapply W_unary_op; [exact HR0| |].
  - intros t o s1 E1 Eo HR1 En1. norm HR1. wsimp.
    tcall a ts s2 HS2 HR2 Hne2 HG2. destruct HG2 as (e & He & Hd & ->). okp. eapply d_unary_op; kfin.
  - wsimp. assert (Hu : W D m 11 (Some c) s0 (pcall (NUpdate c)) s0 (OkPost D (NUnary c) s0)).
    { tcall a ts s2 HS2 HR2 Hne2 HG2. okp. now apply d_unary_update. }
    destruct (c_await c) eqn:Ea; [|exact Hu]. tcur t E. tif Ev; [|exact Hu].
    tcall a ts s2 HS2 HR2 Hne2 HG2. okp. exact HG2.
Qed.

Lemma ok_UnaryOp c start o : method_ok (NUnaryOp c start o).
Proof.
  mstart. unfold parse_unary_expr_with_operator. tcall a ts s1 HS1 HR1 Hne HG. wb.
  assert (Hk : (o = UDelete -> c_strict c = true -> deletable a) ->
    W D m 12 (Some c) s0 (let? span := span_from start in pret (EUnary span o a)) s1
      (OkPost D (NUnaryOp c start o) s0)).
  { intros Hd. tspan. fin. eauto. }
  destruct o; try (apply W_ret; apply Hk; discriminate).
  apply W_ofres.
  - intros x Hx. apply Hk. intros _. eapply delete_ok; eauto.
  - intros e He. apply delete_err in He. destruct He as (i & Hi & ->).
    eapply err_in; [apply Reach_Back; eassumption|reflexivity|].
    destruct (der_paren_ident _ _ _ _ _ _ HG Hi) as (t & Ht & Es & Hn). exists t. split; [exact Ht|]. split; [exact Es|].
    intros Hf. eapply says_delete; [cbn; rewrite Es; exact Hf|exact Hn].
Qed.

Lemma ok_Await c : method_ok (NAwait c).
Proof.
  mstart. unfold parse_await_expr. tpos. tassert t s1 E1 Ev1 HR1 En1.
  tcall a ts s2 HS2 HR2 Hne2 HG2. tspan. fin. eapply d_unary_await; kfin.
Qed.

Lemma ok_Update c : method_ok (NUpdate c).
Proof.
  mstart. unfold parse_update_expr. tpos. wb. eapply W_update_op; [exact HR0| |].
  - intros t o s1 E1 Eo HR1 En1. norm HR1. wsimp.
    tcall a ts s2 HS2 HR2 Hne2 HG2. destruct HG2 as (e & He & Hd & ->). okp. eapply d_update_prefix; kfin.
  - wsimp. tcall e ts s2 HS2 HR2 Hne2 HG2. wb. apply W_first_on_line. wsimp. tif Ef.
    { fin. now apply d_update_lhs. }
    wb. eapply W_update_op; [exact HR2| |].
    + intros t o s3 E3 Eo HR3 En3. rewrite E3 in Ef. cbn in Ef. wsimp. unfold parse_postfix_update_expr.
      wb. apply W_ofres.
      * intros [] Hok. apply check_simple_ok in Hok. tspan. fin. eapply d_update_postfix; kfin.
        rewrite (der_span _ _ _ _ _ HG2 eq_refl). cbn [sp_start span_of].
        rewrite (Reach_pos _ _ _ _ HR3) by nn. unfold span_of. rewrite (tsta_app ts) by auto. reflexivity.
      * intros err Herr. eapply (err_simple D m _ _ _ _ _ _ _ ts _ [] [t]); eauto using Reach_Back.
    + wsimp. fin. now apply d_update_lhs.
Qed.

Lemma ok_PrefixUpdate c start o : method_ok (NPrefixUpdate c start o).
Proof.
  mstart. unfold parse_prefix_update_expr. tcall a ts s1 HS1 HR1 Hne HG. wb. apply W_ofres.
  - intros [] Hok. apply check_simple_ok in Hok. tspan. fin. eauto.
  - intros err Herr. eapply (err_simple D m _ _ _ _ _ _ _ ts _ [] []); eauto using Reach_Back.
    now rewrite app_nil_r.
Qed.

Lemma ok_LeftHandSide c : method_ok (NLeftHandSide c).
Proof.
  mstart. unfold parse_left_hand_side_expr. tpos. traw. tpeekm.
  set (p := value_is (VPunct PParenOpen) (rok (nxt s0))).
  wb. eapply W_mono with (Q := fun e s => exists ts, Reach D s0 ts s /\ ts <> [] /\ der D YLhs0 c (I e) ts).
  - intros e s1 (ts & HR1 & Hne & HG). tcurm Hc.
    + tif En.
      * tcons t s2 E2 HR2 En2. terr_tok.
      * tcall a ts2 s2 HS2 HR2 Hne2 HG2. okp. cbn. apply d_lhs_opt. apply HG2; [eapply Reach_Left; eauto|].
        right. auto.
    + fin. now apply d_lhs0.
  - tif E1.
    { tcall a ts s1 HS1 HR1 Hne HG. eauto. }
    tif E2.
    { apply andb_true_iff in E2. destruct E2 as [E2 _]. apply value_is_curv in E2.
      tcall a ts s1 HS1 HR1 Hne HG. eauto. }
    tpos. tcall a ts s1 HS1 HR1 Hne HG. tcall b ts2 s2 HS2 HR2 Hne2 HG2. exists (ts ++ ts2).
    split; [assumption|]. split; [nn|]. apply d_lhs0_rec. apply HG2; [eapply Reach_Left; eauto|].
    now apply d_rec_member.
Qed.

Lemma ok_RecursiveCall c start e : method_ok (NRecursiveCall c start e).
Proof.
  mstart. unfold parse_recursive_call_expression. traw.
  assert (Hdef : W D m 4 None s0 (pret e) s0 (OkPost D (NRecursiveCall c start e) s0)).
  { apply W_ret. ok0. intros te HL Hte. now rewrite app_nil_r. }
  destruct (cur s0) as [t|] eqn:E0; [|exact Hdef].
  assert (Hmem : curv s0 (VPunct PDot) \/ curv s0 (VPunct PBraceOpen) ->
    W D m 4 None s0 (let? e := pcall (NMemberRight c start e) in pcall (NRecursiveCall c start e)) s0
     (OkPost D (NRecursiveCall c start e) s0)).
  { intros Hc. tcall a ts s1 HS1 HR1 Hne HG. destruct HG as (p & Hp & ->).
    tcall b ts2 s2 HS2 HR2 Hne2 HG2. okp. intros te HL Hte. rewrite app_assoc. apply HG2.
    + eapply Left_step; eauto.
    + eapply d_rec_prop; kfin. eapply Left_span_step; eauto. }
  destruct (t_value t) eqn:Ev; try exact Hdef.
  - destruct p; try exact Hdef.
    + tcall a ts s1 HS1 HR1 Hne HG. destruct HG as (args & Hargs & ->).
      tcall b ts2 s2 HS2 HR2 Hne2 HG2. okp. intros te HL Hte. rewrite app_assoc. apply HG2.
      * eapply Left_step; eauto.
      * eapply d_rec_call; kfin. eapply Left_span_step; eauto.
    + apply Hmem. right. eexists; eauto.
    + apply Hmem. left. eexists; eauto.
  - destruct l; try exact Hdef.
    tcall a ts s1 HS1 HR1 Hne HG. destruct HG as (p & Hp & ->).
    tcall b ts2 s2 HS2 HR2 Hne2 HG2. okp. intros te HL Hte. rewrite app_assoc. apply HG2.
    + eapply Left_step; eauto.
    + eapply d_rec_template; kfin. eapply Left_span_step; eauto.
Qed.

Lemma ok_CallExpr c start callee : method_ok (NCallExpr c start callee).
Proof.
  mstart. unfold parse_call_expr. tcall a ts s1 HS1 HR1 Hne HG. destruct HG as (l & -> & Hl).
  wsimp. tspan. fin. eauto.
Qed.

Lemma ok_SuperCall c : method_ok (NSuperCall c).
Proof.
  mstart. unfold parse_super_call_expr. tpos. tassert t s1 E1 Ev1 HR1 En1.
  tcall a ts s2 HS2 HR2 Hne HG. destruct HG as (l & -> & Hl). wsimp. tspan.
  destruct (c_super_call c) eqn:Ec; wsimp.
  - fin. eapply d_lhs0_super; kfin.
  - terr_begins says_super.
Qed.

Lemma ok_ImportCall c : method_ok (NImportCall c).
Proof.
  mstart. unfold parse_import_call_expr. tpos. tcons t s1 E1 HR1 En1. uniq.
  tcall a ts s2 HS2 HR2 Hne HG. destruct HG as (t1 & e & te & t2 & -> & Ht1 & He & Ht2 & ->). wsimp. tspan.
  fin. eapply d_lhs0_import; kfin.
Qed.

Lemma ok_ImportArgument c : method_ok (NImportArgument c).
Proof.
  mstart. unfold parse_import_argument. tpos. tassert t s1 E1 Ev1 HR1 En1.
  tcall a ts s2 HS2 HR2 Hne HG. tassert t3 s3 E3 Ev3 HR3 En3. tspan. fin.
  exists t, a, ts, t3. repeat (split; [solve [auto]|]). f_equal. spn.
Qed.

Lemma ok_NewOrMember c : method_ok (NNewOrMember c).
Proof.
  mstart. unfold parse_new_or_member_expr. tpos. tcall a ts s1 HS1 HR1 Hne HG.
  tcall b ts2 s2 HS2 HR2 Hne2 HG2. okp. apply HG2; [eapply Reach_Left; eauto|]. now apply d_member_term.
Qed.

Lemma ok_NewOrMemberLoop c start e : method_ok (NNewOrMemberLoop c start e).
Proof.
  mstart. unfold parse_new_or_member_loop. traw.
  assert (Hdef : W D m 4 None s0 (pret e) s0 (OkPost D (NNewOrMemberLoop c start e) s0)).
  { apply W_ret. ok0. intros te HL Hte. now rewrite app_nil_r. }
  destruct (cur s0) as [t|] eqn:E0; [|exact Hdef].
  assert (Hmem : curv s0 (VPunct PDot) \/ curv s0 (VPunct PBraceOpen) ->
    W D m 4 None s0 (let? e := pcall (NMemberRight c start e) in pcall (NNewOrMemberLoop c start e)) s0
     (OkPost D (NNewOrMemberLoop c start e) s0)).
  { intros Hc. tcall a ts s1 HS1 HR1 Hne HG. destruct HG as (p & Hp & ->).
    tcall b ts2 s2 HS2 HR2 Hne2 HG2. okp. intros te HL Hte. rewrite app_assoc. apply HG2.
    + eapply Left_step; eauto.
    + eapply d_member_prop; kfin. eapply Left_span_step; eauto. }
  assert (Htpl : W D m 4 None s0 (let? e := pcall (NTaggedTemplate c start e) in pcall (NNewOrMemberLoop c start e)) s0
     (OkPost D (NNewOrMemberLoop c start e) s0)).
  { tcall a ts s1 HS1 HR1 Hne HG. destruct HG as (p & Hp & ->).
    tcall b ts2 s2 HS2 HR2 Hne2 HG2. okp. intros te HL Hte. rewrite app_assoc. apply HG2.
    + eapply Left_step; eauto.
    + eapply d_member_template; kfin. eapply Left_span_step; eauto. }
  destruct (t_value t) eqn:Ev; try exact Hdef; try exact Htpl.
  - destruct p; try exact Hdef; apply Hmem; [right|left]; eexists; eauto.
  - destruct l; try exact Hdef; exact Htpl.
Qed.

Lemma ok_TaggedTemplate c start callee : method_ok (NTaggedTemplate c start callee).
Proof.
  mstart. unfold parse_tagged_template. tcall a ts s1 HS1 HR1 Hne HG. tspan. fin. eauto.
Qed.

Lemma ok_MemberTerminal c : method_ok (NMemberTerminal c).
Proof.
  mstart. unfold parse_member_expr_from_terminal. tcur t E. tpeekm.
  assert (Hp : W D m 7 (Some c) s0 (pcall (NPrimary c)) s0 (OkPost D (NMemberTerminal c) s0)).
  { tcall a ts s1 HS1 HR1 Hne HG. okp. now apply d_term_primary. }
  destruct (t_value t) eqn:Ev; try exact Hp. destruct k; try exact Hp.
  - tif Ed; [|exact Hp]. apply value_is_true in Ed. destruct Ed as (t1 & E1 & Ev1). apply rok_some in E1.
    tcall a ts s1 HS1 HR1 Hne HG.
    { split; [eexists; eauto|eauto]. }
    okp. exact HG.
  - tif Ed.
    + apply value_is_true in Ed. destruct Ed as (t1 & E1 & Ev1). apply rok_some in E1.
      tcall a ts s1 HS1 HR1 Hne HG.
      { split; [eexists; eauto|eauto]. }
      okp. exact HG.
    + tcall a ts s1 HS1 HR1 Hne HG. okp. exact HG.
  - tcall a ts s1 HS1 HR1 Hne HG. okp. exact HG.
Qed.

Lemma ok_NewExpr c : method_ok (NNewExpr c).
Proof.
  mstart. unfold parse_new_expr. tpos. tcons t s1 E1 HR1 En1. uniq.
  tcall e ts s2 HS2 HR2 Hne2 HG2. tcall a ta s3 HS3 HR3 Hne3 HG3. destruct a as [sp args]. wsimp. tspan. fin.
  destruct HG3 as [(-> & [= -> ->])|(Hta & l & [= -> ->] & Hl)].
  - rewrite app_nil_r in *. eapply d_term_new; kfin.
  - eapply d_term_new_args; kfin.
Qed.

Lemma ok_SuperProperty c : method_ok (NSuperProperty c).
Proof.
  mstart. unfold parse_super_property. tpos. tcons t s1 E1 HR1 En1. uniq.
  assert (Hgo : curv s1 (VPunct PDot) \/ curv s1 (VPunct PBraceOpen) ->
    W D m 1 None s0 (if negb (c_in_method c) then
    let? span := span_from (posof s0) in
    perror (syntax_error "`super` property access only valid inside methods" span)
  else pcall (NMemberRight c (posof s0) (ObjSuper (t_span t)))) s1 (OkPost D (NSuperProperty c) s0)).
  { intros Hc. destruct (c_in_method c) eqn:Ei; wsimp.
    - tcall a ts s2 HS2 HR2 Hne HG. destruct HG as (p & Hp & ->). okp. eapply d_term_super; kfin.
    - tspan. terr_begins says_super. }
  tcurm Hc1; tcurm Hc2; auto. tspan. terr_begins says_super.
Qed.

Lemma ok_ImportMeta c : method_ok (NImportMeta c).
Proof.
  mstart. unfold parse_import_meta. destruct HX as (HX & t1 & Et1 & Ht1). tpos. tcons t s1 E1 HR1 En1. uniq.
  rewrite Et1 in En1. tcons t2 s2 E2 HR2 En2.
  tcall i ts s3 HS3 HR3 Hne3 HG3. destruct HG3 as (t3 & -> & Hi). tif Em.
  - apply W_err. eapply err_in; [apply Reach_Back; eassumption|reflexivity|].
    exists t3. split; [simpl; auto|]. split; [apply Hi|].
    intros Hf. unfold not_arrow, says. cbn. split; [reflexivity|]. exists (t_value t3). split; [rewrite (proj1 Hi); exact Hf|]. destruct (proj2 Hi) as [Hx|(k & Hx & _ & Hy)]; eauto.
  - apply negb_false_iff in Em. apply str_eqb_true in Em. tspan. fin. eapply d_term_import_meta; kfin.
Qed.

Lemma ok_NewTarget c : method_ok (NNewTarget c).
Proof.
  mstart. unfold parse_new_target. destruct HX as (HX & t1 & Et1 & Ht1). tpos. tcons t s1 E1 HR1 En1. uniq.
  rewrite Et1 in En1. tcons t2 s2 E2 HR2 En2.
  tcall i ts s3 HS3 HR3 Hne3 HG3. destruct HG3 as (t3 & -> & Hi). tif Em.
  - apply W_err. eapply err_in; [apply Reach_Back; eassumption|reflexivity|].
    exists t3. split; [simpl; auto|]. split; [apply Hi|].
    intros Hf. unfold not_arrow, says. cbn. split; [reflexivity|]. exists (t_value t3). split; [rewrite (proj1 Hi); exact Hf|]. destruct (proj2 Hi) as [Hx|(k & Hx & _ & Hy)]; eauto.
  - apply negb_false_iff in Em. apply str_eqb_true in Em. tspan. fin. eapply d_term_new_target; kfin.
Qed.

Lemma ok_Arguments c : method_ok (NArguments c).
Proof.
  mstart. unfold parse_arguments. tpos. tassert t s1 E1 Ev1 HR1 En1.
  tcall l ts s2 HS2 HR2 Hne2 HG2. destruct HG2 as (l' & -> & Hl & _). tspan. fin.
  exists l'. split; [f_equal; spn|]. eapply d_args; kfin.
Qed.

Lemma ok_ArgumentsLoop c acc : method_ok (NArgumentsLoop c acc).
Proof.
  mstart. unfold parse_arguments_loop. tmaybe t s1 E1 Ev1 HR1 Hn.
  - fin. exists []. rewrite app_nil_r. split; [reflexivity|]. split; [now constructor|auto].
  - tcall a ts s2 HS2 HR2 Hne2 HG2. wb. eapply W_delim; [exact HR2| |].
    + intros t s3 Ht HR3. norm HR3. wsimp. tcall l tl s4 HS4 HR4 Hne4 HG4.
      destruct HG4 as (l' & -> & Hl & _). okp. exists (a :: l'). rewrite <- app_assoc. split; [reflexivity|].
      split; [eapply d_list_comma; kfin|contradiction].
    + intros Hc. wsimp. tcall l tl s4 HS4 HR4 Hne4 HG4.
      destruct HG4 as (l' & -> & Hl & He). specialize (He Hc). subst l'. okp. exists [a].
      rewrite app_nil_r. split; [reflexivity|]. split; [|contradiction].
      inversion Hl; subst. eapply d_list_last; kfin.
Qed.

Lemma ok_Argument c : method_ok (NArgument c).
Proof.
  mstart. unfold parse_argument. tmaybe t s1 E1 Ev1 HR1 Hn.
  - tcall e ts s2 HS2 HR2 Hne2 HG2. fin. eapply d_arg_spread; kfin.
  - tcall e ts s2 HS2 HR2 Hne2 HG2. fin. now apply d_arg.
Qed.

Lemma ok_OptionalArguments c : method_ok (NOptionalArguments c).
Proof.
  mstart. unfold parse_optional_arguments. tcurm Hc.
  - tcall a ts s2 HS2 HR2 Hne2 HG2. destruct HG2 as (l & -> & Hl). wsimp. fin. right. split; eauto.
  - apply W_ret. ok0. auto.
Qed.

Lemma W_literal s0 (c : ctx) s toks r ac :
  Back D s0 toks s ->
  W D m r ac s0 parse_literal s (fun a s' => exists t, Reach D s0 (toks ++ [t]) s' /\
     der D YPrimary c (I a) [t] /\ cur s = Ok t /\
     exists l, t_value t = VLiteral l /\ a = ELiteral (t_span t) (literal_node l)).
Proof.
  intros HB. unfold parse_literal. tconsB t s1 E1 HR1 En1.
  destruct (t_value t) eqn:Ev; try terr_tok. apply W_ret. exists t. split; [assumption|]. split; [now apply d_literal|]. eauto.
Qed.

Lemma W_reread_regexp (s0 : pst) (c : ctx) t0 r ac : Reach D s0 [] s0 ->
  cur s0 = Ok t0 -> (forall l, t_value t0 <> VLiteral l) ->
  W D m r ac s0 (pop (OReread ls_regex_allowed);? parse_regexp_literal) s0 (OkPost D (NPrimary c) s0).
Proof.
  intros HR E0 Hl0. wb. eapply W_reread; [exact HR|]. intros s' HB0 HB. wsimp.
  unfold parse_regexp_literal. wb. eapply W_mono; [|eapply (W_literal _ c); exact HB].
  intros a s1 (t & HR1 & Hd & Ec & l & Hl & ->). wsimp. wb. apply W_debug; [|wsimp; fin; exact Hd].
  intros Hf. exfalso. destruct HB0 as (_ & _ & _ & Hh). destruct (Hh t Ec) as (t1 & E1 & _ & [->|[_ Hu]]).
  - rewrite E0 in E1. injection E1 as <-. now apply (Hl0 l).
  - rewrite Hl in Hu. destruct l; try destruct Hu. discriminate Hf.
Qed.

Lemma ok_Primary c : method_ok (NPrimary c).
Proof.
  mstart. unfold parse_primary_expr. tcur t E.
  assert (Hdef : (forall l, t_value t <> VLiteral l) ->
     W D m 6 (Some c) s0 (parse_primary_other c) s0 (OkPost D (NPrimary c) s0)).
  { intros Hnl. unfold parse_primary_other. wb. apply W_is_identifier. wsimp. tif Ei.
    - unfold parse_identifier_reference. tcall i ts s1 HS1 HR1 Hne HG. destruct HG as (t1 & -> & Hi).
      fin. now apply d_primary_ident.
    - now apply (W_reread_regexp _ _ t). }
  assert (Hlit : forall l, (forall t', cur s0 = Ok t' -> der D YPrimary c (I (ELiteral (t_span t') l)) [t']) ->
     W D m 6 (Some c) s0 (consume_literal l) s0 (OkPost D (NPrimary c) s0)).
  { intros l Hl. unfold consume_literal. tcons t1 s1 E1 HR1 En1. fin. now apply Hl. }
  destruct (t_value t) eqn:Ev; try (apply Hdef; discriminate).
  - destruct k; try (apply Hdef; discriminate).
    + wb. apply W_followed. wsimp. tif Ef; [|apply Hdef; discriminate].
      tcall a ts s1 HS1 HR1 Hne HG. okp. now apply d_primary_function.
    + tcall a ts s1 HS1 HR1 Hne HG. okp. now apply d_primary_class.
    + apply Hlit. intros t' Et'. uniq. now apply d_false.
    + tcall a ts s1 HS1 HR1 Hne HG. okp. now apply d_primary_function.
    + apply Hlit. intros t' Et'. uniq. now apply d_null.
    + unfold parse_this_expr. tassert t1 s1 E1 Ev1 HR1 En1. fin. now apply d_this.
    + apply Hlit. intros t' Et'. uniq. now apply d_true.
  - destruct p; try (apply Hdef; discriminate).
    + tcall a ts s1 HS1 HR1 Hne HG. okp. exact HG.
    + tcall a ts s1 HS1 HR1 Hne HG. okp. exact HG.
    + tcall a ts s1 HS1 HR1 Hne HG. okp. exact HG.
    + apply (W_reread_regexp _ _ t); [assumption|assumption|]. rewrite Ev. discriminate.
  - eapply W_mono; [|eapply (W_literal _ c); apply Reach_Back; exact HR0].
    intros a s1 (t1 & HR1 & Hd & _). okp. exact Hd.
  - tcall a ts s1 HS1 HR1 Hne HG. okp. exact HG.
Qed.

Lemma ok_Initializer c : method_ok (NInitializer c).
Proof.
  mstart. unfold parse_initializer. tassert t s1 E1 Ev1 HR1 En1. tcall a ts s2 HS2 HR2 Hne HG. okp.
  eapply d_init; kfin.
Qed.

Lemma W_next s0 c l s toks (Q : node -> pst -> Prop) r ac :
  Reach D s0 toks s -> c_module c = m ->
  (toks = [] -> r = rank (NBinary c l) /\ ac = Some c) ->
  (forall a ts s', Reach D s ts s' -> Reach D s0 (toks ++ ts) s' -> ts <> [] ->
     der D (next_sort l) c (I a) ts -> Q a s') ->
  W D m r ac s0 (parse_next_level c l) s Q.
Proof.
  intros HR Hm Hnil H. unfold parse_next_level.
  destruct (next_level l) as [l'|] eqn:El.
  - eapply W_call; [exact HR|split; [exact Hm|exact Logic.I]| | |reflexivity|].
    + intros Hn. destruct (Hnil Hn) as [-> ->]. destruct l; try discriminate El; injection El as <-; cbn; lia.
    + intros Hn. destruct (Hnil Hn) as [-> ->]. right. reflexivity.
    + intros a ts s' HS HR' Hne HG. eapply H; eauto. unfold next_sort. rewrite El. exact HG.
  - eapply W_call; [exact HR|split; [exact Hm|exact Logic.I]| | |reflexivity|].
    + intros Hn. destruct (Hnil Hn) as [-> ->]. cbn. lia.
    + intros Hn. destruct (Hnil Hn) as [-> ->]. right. reflexivity.
    + intros a ts s' HS HR' Hne HG. eapply H; eauto. unfold next_sort. rewrite El. exact HG.
Qed.

Lemma ok_Binary c l : method_ok (NBinary c l).
Proof.
  mstart. unfold parse_binary. tpos. wb. eapply W_next; [exact HR0|exact Hm|auto|].
  intros a ts s1 HS1 HR1 Hne HG. norm HR1. wsimp.
  tcall b ts2 s2 HS2 HR2 Hne2 HG2. okp. apply HG2; [eapply Reach_Left; eauto|]. now apply d_bin_next.
Qed.

Lemma ok_BinaryLoop c l start e : method_ok (NBinaryLoop c l start e).
Proof.
  mstart. unfold parse_binary_loop. traw.
  assert (Hdef : W D m 1 None s0 (pret e) s0 (OkPost D (NBinaryLoop c l start e) s0)).
  { apply W_ret. ok0. intros te HL Hte. now rewrite app_nil_r. }
  destruct (cur s0) as [t|] eqn:E0; [|exact Hdef].
  destruct (map_operator l (c_in c) t) as [o|] eqn:Eo; [|exact Hdef].
  tcons t1 s1 E1 HR1 En1.
  wb. eapply W_next; [exact HR1|exact Hm|discriminate|].
  intros a ts s2 HS2 HR2 Hne2 HG2. norm HR2. wsimp. tspan.
  tcall b ts2 s3 HS3 HR3 Hne3 HG3. okp. intros te HL Hte.
  specialize (HG3 (te ++ t1 :: ts)). rewrite <- app_assoc in HG3. apply HG3.
  - eapply Left_step; eauto.
  - eapply d_bin; kfin. eapply (Left_span_step _ _ _ _ (t1 :: ts)); eauto.
Qed.

Lemma ok_TemplateExpr c : method_ok (NTemplateExpr c).
Proof.
  mstart. unfold parse_template_literal_expr. tpos. tcall a ts s1 HS1 HR1 Hne HG. tspan. fin.
  eapply d_primary_template; kfin.
Qed.

Lemma ok_Template c : method_ok (NTemplate c).
Proof.
  mstart. unfold parse_template_literal. tcur t E.
  assert (Hdef : W D m 1 None s0 (let? head := consume in
    match t_value head with
    | VTemplateHead s =>
      let? parts := pcall (NTemplateParts c (str_part s)) in
      pret (LitTemplate parts)
    | _ => perror (unexpected_token head)
    end) s0 (OkPost D (NTemplate c) s0)).
  { tcons t1 s1 E1 HR1 En1. destruct (t_value t1) eqn:Ev1; try terr_tok.
    tcall a ts s2 HS2 HR2 Hne2 HG2. destruct HG2 as (ps & -> & Hps). fin. eapply d_template_head; kfin. }
  destruct (t_value t) eqn:Ev; try exact Hdef.
  tcons t1 s1 E1 HR1 En1. rewrite Ev. destruct l; try terr_tok. fin. now apply d_template_plain.
Qed.

Lemma ok_TemplateParts c acc : method_ok (NTemplateParts c acc).
Proof.
  mstart. unfold parse_template_literal_parts. tcall e ts s1 HS1 HR1 Hne1 HG1.
  wb. eapply W_reread; [exact HR1|]. intros s2 _ HB2. wsimp. tconsB t s3 E3 HR3 En3.
  destruct (t_value t) eqn:Ev; try terr_tok.
  - tcall a ts2 s4 HS4 HR4 Hne4 HG4. destruct HG4 as (ps & -> & Hps). okp.
    exists (TplExpr e :: str_part s ++ ps). rewrite <- !app_assoc. split; [reflexivity|].
    eapply d_tpl_middle; kfin.
  - fin. exists (TplExpr e :: str_part s). split; [reflexivity|]. eapply d_tpl_tail; kfin.
Qed.

Lemma ok_ArrayLiteral c : method_ok (NArrayLiteral c).
Proof.
  mstart. unfold parse_array_literal. tpos. tassert t s1 E1 Ev1 HR1 En1.
  tcall l ts s2 HS2 HR2 Hne2 HG2. destruct HG2 as (l' & -> & Hl & _). tspan. fin.
  eapply d_array; kfin.
Qed.

Lemma ok_ArrayLoop c acc : method_ok (NArrayLoop c acc).
Proof.
  mstart. unfold parse_array_loop. tmaybe t s1 E1 Ev1 HR1 Hn.
  - fin. exists []. rewrite app_nil_r. split; [reflexivity|]. split; [now constructor|auto].
  - tcall a ts s2 HS2 HR2 Hne2 HG2. destruct HG2 as [(-> & t & -> & Ht)|(Ha & HG2)].
    + cbn [is_elision]. wb. apply W_ret. wsimp. tcall l tl s4 HS4 HR4 Hne4 HG4.
      destruct HG4 as (l' & -> & Hl & _). okp. exists (ElemElision :: l'). rewrite <- app_assoc.
      split; [reflexivity|]. split; [eapply d_arr_elision; kfin|contradiction].
    + rewrite Ha. wb. eapply W_delim; [exact HR2| |].
      * intros t s3 Ht HR3. norm HR3. wsimp. tcall l tl s4 HS4 HR4 Hne4 HG4.
        destruct HG4 as (l' & -> & Hl & _). okp. exists (a :: l'). rewrite <- app_assoc. split; [reflexivity|].
        split; [eapply d_arr_comma; kfin|contradiction].
      * intros Hc. wsimp. tcall l tl s4 HS4 HR4 Hne4 HG4.
        destruct HG4 as (l' & -> & Hl & He). specialize (He Hc). subst l'. okp. exists [a].
        rewrite app_nil_r. split; [reflexivity|]. split; [|contradiction].
        inversion Hl; subst. eapply d_arr_last; kfin.
Qed.

Lemma ok_ArrayElement c : method_ok (NArrayElement c).
Proof.
  mstart. unfold parse_array_element. tcur t E.
  assert (Hdef : W D m 28 None s0 (let? e := pcall (NAssignment c) in pret (ElemExpr e)) s0
    (OkPost D (NArrayElement c) s0)).
  { tcall a ts s1 HS1 HR1 Hne HG. fin. right. split; [reflexivity|]. now apply d_elem. }
  destruct (t_value t) eqn:Ev; try exact Hdef. destruct p; try exact Hdef.
  - tcons t1 s1 E1 HR1 En1. tcall a ts s2 HS2 HR2 Hne2 HG2. fin. right. split; [reflexivity|].
    eapply d_elem_spread; kfin.
  - tcons t1 s1 E1 HR1 En1. fin. left. split; [reflexivity|]. eexists; eauto.
Qed.

End Par.
