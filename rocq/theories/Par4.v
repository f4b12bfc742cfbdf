(** * Par4: functions, classes and methods. *)

From Coq Require Import Permutation.
From Verif Require Import StaticSem ParTac ParLib.
Local Open Scope string_scope.
Local Open Scope list_scope.
Local Open Scope prog_scope.

Section Par.
Context {PF : Platform}.
Variable D : str.
Variable m : bool.
Notation method_ok := (method_ok D m).

Lemma ok_ArrowExpr c : method_ok (NArrowExpr c).
Proof.
  mstart. unfold parse_arrow_function_expr. tpos. tcall a ts s1 HS1 HR1 Hne HG. okp.
  apply (HG []); [reflexivity|]. eapply Reach_posof; eauto.
Qed.

Lemma ok_AsyncArrowExpr c : method_ok (NAsyncArrowExpr c).
Proof.
  mstart. unfold parse_async_arrow_function_expr. tpos. tassert t s1 E1 Ev1 HR1 En1.
  tcall a ts s2 HS2 HR2 Hne HG. okp.
  apply (HG [t]); [split; [reflexivity|exact Ev1]|]. eapply Reach_posof; eauto. nn.
Qed.

Lemma ok_Arrow c start asy : method_ok (NArrow c start asy).
Proof.
  mstart. unfold parse_arrow_function. tcall a ts s1 HS1 HR1 Hne HG. destruct a as [bp p]. wsimp.
  tassert t s2 E2 Ev2 HR2 En2. destruct (t_fol t) eqn:Ef; [terr_tok|].
  tcall b tb s3 HS3 HR3 Hne3 HG3. tspan. fin. intros pre Hpre ->.
  assert (Esp : mk_span (tsta (pre ++ ts ++ t :: tb)) (pos s3) = span_of (pre ++ ts ++ t :: tb)).
  { unfold span_of. f_equal. rewrite tfin_app by nn. eapply Reach_pos; eauto. nn. }
  rewrite Esp. cbn [fst snd] in HG. destruct HG as [(-> & t0 & i & -> & Hi & ->)|(-> & Hp)].
  - eapply d_arrow_ident; kfin.
  - eapply d_arrow_params; kfin.
Qed.

Lemma ok_ArrowParameters c : method_ok (NArrowParameters c).
Proof.
  mstart. unfold parse_arrow_function_parameters. wb. apply W_is_identifier. wsimp. tif Ei.
  - tcall a ts s1 HS1 HR1 Hne HG. destruct HG as (t & i & -> & Hi & ->). fin. left. split; [reflexivity|].
    exists t, i. auto.
  - tcall a ts s1 HS1 HR1 Hne HG. fin. right. auto.
Qed.

Lemma ok_ConciseBody c : method_ok (NConciseBody c).
Proof.
  mstart. unfold parse_concise_body. tcurm Hc.
  - tcall a ts s1 HS1 HR1 Hne HG. okp. now apply d_concise_body.
  - tcall a ts s1 HS1 HR1 Hne HG. okp. now apply d_concise_expr.
Qed.

Lemma ok_ArrowIdent c : method_ok (NArrowIdent c).
Proof.
  mstart. unfold parse_arrow_identifier_argument. tpos. tcall a ts s1 HS1 HR1 Hne HG.
  destruct HG as (t & -> & Hi). tspan. fin. exists t, a. split; [auto|]. split; [auto|].
  rewrite (Reach_span _ _ _ _ HR1) by nn. reflexivity.
Qed.

Lemma ok_FunctionExpr c : method_ok (NFunctionExpr c).
Proof.
  mstart. unfold parse_function_expr. tpos. tassert t s1 E1 Ev1 HR1 En1.
  tmaybe t2 s2 E2 Ev2 HR2 Hn.
  - tcall a ts s3 HS3 HR3 Hne3 HG3. destruct HG3 as (o & to & p & tp & b & tb & -> & Ho & Hp & Hb & ->).
    okp. cbn. eapply (d_function _ _ _ false [] t true [t2]); kfin. cbn. auto.
  - tcall a ts s3 HS3 HR3 Hne3 HG3. destruct HG3 as (o & to & p & tp & b & tb & -> & Ho & Hp & Hb & ->).
    okp. cbn. eapply (d_function _ _ _ false [] t false []); kfin.
Qed.

Lemma ok_AsyncFunctionExpr c : method_ok (NAsyncFunctionExpr c).
Proof.
  mstart. unfold parse_async_function_expr. tpos. tassert t0 s1 E1 Ev1 HR1 En1.
  tassert t s1' E1' Ev1' HR1' En1'. wb. apply W_debug; [eapply split_async_panic; eassumption|]. wsimp.
  tmaybe t2 s2 E2 Ev2 HR2 Hn.
  - tcall a ts s3 HS3 HR3 Hne3 HG3. destruct HG3 as (o & to & p & tp & b & tb & -> & Ho & Hp & Hb & ->).
    okp. cbn. eapply (d_function _ _ _ true [t0] t true [t2]); kfin; cbn; auto.
  - tcall a ts s3 HS3 HR3 Hne3 HG3. destruct HG3 as (o & to & p & tp & b & tb & -> & Ho & Hp & Hb & ->).
    okp. cbn. eapply (d_function _ _ _ true [t0] t false []); kfin; cbn; auto.
Qed.

Lemma ok_FunctionContent c start : method_ok (NFunctionContent c start).
Proof.
  mstart. unfold parse_function_expr_content. wb. apply W_is_identifier. wsimp. unfold then_try. wb. tif Ei.
  - wb. tcall i ti s1 HS1 HR1 Hne HG. destruct HG as (t & -> & Hi). apply W_ret. wsimp.
    tcall p tp s2 HS2 HR2 Hne2 HG2. tcall b tb s3 HS3 HR3 Hne3 HG3. tspan. fin.
    exists (Some i), [t], p, tp, b, tb. repeat (split; [solve [auto]|]). split; [cbn; eauto|]. auto.
  - apply W_ret. wsimp. tcall p tp s2 HS2 HR2 Hne2 HG2. tcall b tb s3 HS3 HR3 Hne3 HG3. tspan. fin.
    exists None, [], p, tp, b, tb. repeat (split; [solve [auto]|]). split; [cbn; eauto|]. auto.
Qed.

Lemma W_fn_tail c c' s0 s toks start i ti (Q : node -> pst -> Prop) r ac :
  Reach D s0 toks s -> toks <> [] -> c_module c' = m ->
  (exists s1 tk, Reach D s0 tk s1 /\ Reach D s1 ti s /\ decl_name c (posof s) i ti /\ toks = tk ++ ti) ->
  (forall p tp b tb s', Reach D s0 (toks ++ tp ++ tb) s' -> decl_name c (tsta tp) i ti ->
     der D YParams c' (I p) tp -> der D YBody c' (I b) tb ->
     Q (SFunctionDecl (mk_span start (pos s')) (c_await c') (c_yield c') i p b) s') ->
  W D m r ac s0 (pcall (NFunctionDeclContent c' start i)) s Q.
Proof.
  intros HR Hne Hm' (s1 & tk & HR1 & HS & Hd & ->) H. tcall a ts s2 HS2 HR2 Hne2 HG2.
  destruct HG2 as (p & tp & b & tb & -> & Hnep & Hp & Hb & ->). eapply H; eauto.
  - rewrite <- app_assoc. exact HR2.
  - rewrite (Reach_posof _ _ _ _ HS2) in Hd by nn. rewrite tsta_app in Hd by auto. exact Hd.
Qed.

Lemma W_fn_ident s0 c s toks (Q : ident -> pst -> Prop) r ac :
  Reach D s0 toks s -> toks <> [] -> c_module c = m ->
  (forall i ti s', Reach D s0 (toks ++ ti) s' -> Reach D s ti s' -> decl_name c (posof s') i ti -> Q i s') ->
  W D m r ac s0 (pcall (NFunctionIdentifier c)) s Q.
Proof.
  intros HR Hne Hm H. tcall a ts s2 HS2 HR2 Hne2 HG2. destruct HG2 as [(t & -> & Hi)|(-> & Hd & ->)].
  - eapply (H a [t]); auto.
  - destruct HS2 as (_ & Hs & _). rewrite (Hs eq_refl) in *.
    apply (H _ []); auto.
    + apply Reach_refl. eapply Reach_clean; eauto.
    + cbn; auto.
Qed.

Lemma ok_FunctionDecl c : method_ok (NFunctionDecl c).
Proof.
  mstart. unfold parse_function_declaration. tpos. tassert t s1 E1 Ev1 HR1 En1.
  tmaybe t2 s2 E2 Ev2 HR2 Hn; wb;
    (eapply (W_fn_ident _ c); [eassumption|discriminate|exact Hm|]);
    intros i ti s3 HR3 HS3 Hd; wsimp.
  - eapply (W_fn_tail c); [exact HR3|nn|exact Hm| |].
    { exists s2, [t; t2]. split; [eassumption|]. split; [exact HS3|]. split; [exact Hd|reflexivity]. }
    intros p tp b tb s4 HR4 Hd' Hp Hb. norm HR4. okp. split; [|exact Logic.I]. cbn.
    eapply (d_decl_function _ _ _ false [] t true [t2]); kfin. cbn. auto.
  - eapply (W_fn_tail c); [exact HR3|nn|exact Hm| |].
    { exists s1, [t]. split; [eassumption|]. split; [exact HS3|]. split; [exact Hd|reflexivity]. }
    intros p tp b tb s4 HR4 Hd' Hp Hb. norm HR4. okp. split; [|exact Logic.I]. cbn.
    eapply (d_decl_function _ _ _ false [] t false []); kfin.
Qed.

Lemma ok_AsyncFunctionDecl c : method_ok (NAsyncFunctionDecl c).
Proof.
  mstart. unfold parse_async_function_declaration. tpos. tassert t0 s1 E1 Ev1 HR1 En1.
  tassert t s1' E1' Ev1' HR1' En1'. wb. apply W_debug; [eapply split_async_panic; eassumption|]. wsimp.
  tmaybe t2 s2 E2 Ev2 HR2 Hn; wb.
  - eapply (W_fn_ident _ c); [exact HR2|discriminate|exact Hm|].
    intros i ti s3 HR3 HS3 Hd. wsimp.
    eapply (W_fn_tail c); [exact HR3|nn|exact Hm| |].
    { exists s2, [t0; t; t2]. split; [eassumption|]. split; [exact HS3|]. split; [exact Hd|reflexivity]. }
    intros p tp b tb s4 HR4 Hd' Hp Hb. norm HR4. okp. split; [|exact Logic.I]. cbn.
    eapply (d_decl_function _ _ _ true [t0] t true [t2]); kfin; cbn; auto.
  - eapply (W_fn_ident _ c); [exact HR1'|discriminate|exact Hm|].
    intros i ti s3 HR3 HS3 Hd. wsimp.
    eapply (W_fn_tail c); [exact HR3|nn|exact Hm| |].
    { exists s1', [t0; t]. split; [eassumption|]. split; [exact HS3|]. split; [exact Hd|reflexivity]. }
    intros p tp b tb s4 HR4 Hd' Hp Hb. norm HR4. okp. split; [|exact Logic.I]. cbn.
    eapply (d_decl_function _ _ _ true [t0] t false []); kfin; cbn; auto.
Qed.

Lemma ok_FunctionDeclContent c start i : method_ok (NFunctionDeclContent c start i).
Proof.
  mstart. unfold parse_function_decl_content. tcall p tp s2 HS2 HR2 Hne2 HG2.
  tcall b tb s3 HS3 HR3 Hne3 HG3. tspan. fin. exists p, tp, b, tb. auto 10.
Qed.

Lemma ok_FunctionIdentifier c : method_ok (NFunctionIdentifier c).
Proof.
  mstart. unfold parse_function_identifier. traw.
  assert (Hdef : W D m 1 None s0 (pcall (NIdentifier c)) s0 (OkPost D (NFunctionIdentifier c) s0)).
  { tcall i ti s1 HS1 HR1 Hne HG. destruct HG as (t & -> & Hi). okp. left. eauto. }
  destruct (cur s0) as [t|] eqn:E; [|exact Hdef]. tif Eb; [|exact Hdef].
  apply andb_true_iff in Eb. destruct Eb as [Eb _]. apply W_ret. ok0. right. split; [auto|]. split; [auto|].
  unfold posof. rewrite E. reflexivity.
Qed.

Lemma ok_FormalParameters c : method_ok (NFormalParameters c).
Proof.
  mstart. unfold parse_formal_parameters. tpos. tassert t s1 E1 Ev1 HR1 En1.
  tcall a ts s2 HS2 HR2 Hne2 HG2. destruct HG2 as (l & r & -> & Hl & _). wsimp. tspan. fin.
  eapply d_params; kfin.
Qed.

Lemma ok_FormalLoop c acc : method_ok (NFormalLoop c acc).
Proof.
  mstart. unfold parse_formal_loop. tcur t E.
  assert (Hdef : t_value t <> VPunct PParenClose -> W D m 4 None s0 (
    let? p := pcall (NBindElement c) in
    consume_list_delimiter (VPunct PParenClose);?
    pcall (NFormalLoop c (acc ++ [p]))) s0 (OkPost D (NFormalLoop c acc) s0)).
  { intros Hnc. tcall a ts s1 HS1 HR1 Hne1 HG1. wb. eapply W_delim; [exact HR1| |].
    - intros t' s3 Ht HR3. norm HR3. wsimp. tcall l tl s4 HS4 HR4 Hne4 HG4.
      destruct HG4 as (l' & r & -> & Hl & _). okp. exists (a :: l'), r. rewrite <- app_assoc.
      split; [reflexivity|]. split; [eapply d_rlist_comma; kfin|].
      intros (t2 & E2 & Ev2); congruence.
    - intros Hc. wsimp. tcall l tl s4 HS4 HR4 Hne4 HG4.
      destruct HG4 as (l' & r & -> & Hl & He). destruct (He Hc) as [-> ->]. okp. exists [a], None.
      rewrite app_nil_r. split; [reflexivity|]. split; [|intros (t2 & E2 & Ev2); congruence].
      inversion Hl; subst. eapply d_rlist_last; kfin. }
  destruct (t_value t) eqn:Ev; try (apply Hdef; congruence). destruct p; try (apply Hdef; congruence).
  - tcons t1 s1 E1 HR1 En1. fin. exists [], None. rewrite app_nil_r. split; [reflexivity|].
    split; [now constructor|auto].
  - tcall a ts s2 HS2 HR2 Hne2 HG2. destruct HG2 as (td & tx & -> & H1 & Hx).
    tassert t1 s3 E3 Ev3 HR3 En3.
    fin. exists [], (Some a). rewrite app_nil_r. split; [reflexivity|].
    split; [eapply d_rlist_rest; kfin|]. intros (t3 & E4 & Ev4); congruence.
Qed.

Lemma ok_FunctionBody c : method_ok (NFunctionBody c).
Proof.
  mstart. unfold parse_function_body. tpos. tassert t s1 E1 Ev1 HR1 En1. wb.
  eapply W_callB; [apply Reach_Back; eassumption|pre|rk|act|].
  intros ds s2 (td & Htd & _ & HG1). cbn [G] in HG1. destruct HG1 as (ds' & dl & -> & Hdl & Hmap).
  cbn [app]. assert (HB1 : Back D s1 td s2) by (destruct Htd as [HT|(_ & HB & _)]; auto; now apply Reach_Back).
  pose proof (Back_trans _ _ _ _ _ _ (Reach_Back _ _ _ _ HR1) HB1) as HB2.
  tcallb l tl s3 HS3 HR3 Hne3 HG3. destruct HG3 as (l' & tl' & t1 & -> & -> & Hl & Ht1).
  tspan. fin. eapply d_body; kfin.
Qed.

Lemma ok_BodyStmts c acc : method_ok (NBodyStmts c acc).
Proof.
  mstart. unfold parse_function_body_stmt_list. tmaybe t s1 E1 Ev1 HR1 Hn.
  - fin. exists [], [], t. rewrite app_nil_r. repeat (split; [solve [auto | constructor]|]). exact Ev1.
  - tcall x tx s1 HS1 HR1 Hne1 HG1. tcall a ts s2 HS2 HR2 Hne2 HG2.
    destruct HG2 as (l & tl & t1 & -> & -> & Hl & Ht). okp. exists (x :: l), (tx ++ tl), t1.
    rewrite <- !app_assoc. split; [reflexivity|]. split; [reflexivity|]. split; [|exact Ht].
    eapply d_many_cons; kfin.
Qed.

Lemma ok_ClassDecl c : method_ok (NClassDecl c).
Proof.
  mstart. unfold parse_class_decl. tpos. tassert t s1 E1 Ev1 HR1 En1.
  tcall i ti s2 HS2 HR2 Hne2 HG2. tcall a ts s3 HS3 HR3 Hne3 HG3.
  destruct HG3 as (th & t1 & tl & -> & Hh & Ht1 & Hl). destruct a as [h l]. cbn [fst snd] in *. wsimp.
  tspan. fin. intros c0 ->. split; [|exact Logic.I]. eapply d_decl_class; kfin.
  destruct HG2 as [(t2 & -> & Hi)|(-> & Hd & ->)]; cbn [decl_name]; [exact Hi|]. split; [exact Hd|].
  destruct HS2 as (_ & Hs & _). rewrite (Hs eq_refl) in *. rewrite (Reach_posof _ _ _ _ HS3) by nn.
  now destruct th.
Qed.

Lemma ok_ClassIdentifier c : method_ok (NClassIdentifier c).
Proof.
  mstart. unfold parse_optional_class_identifier. traw.
  assert (Hdef : W D m 1 None s0 (pcall (NIdentifier c)) s0 (OkPost D (NClassIdentifier c) s0)).
  { tcall i ti s1 HS1 HR1 Hne HG. destruct HG as (t & -> & Hi). okp. left. eauto. }
  destruct (cur s0) as [t|] eqn:E; [|exact Hdef]. tif Eb; [|exact Hdef].
  apply andb_true_iff in Eb. destruct Eb as [Eb _]. apply W_ret. ok0. right. split; [auto|]. split; [auto|].
  unfold posof. rewrite E. reflexivity.
Qed.

Lemma ok_ClassExpr c : method_ok (NClassExpr c).
Proof.
  mstart. unfold parse_class_expr. tpos. tassert t s1 E1 Ev1 HR1 En1. wb. apply W_is_identifier. wsimp. wb.
  eapply W_mono with (Q := fun o s => exists to, Reach D s0 (t :: to) s /\ opt_name c o to).
  - intros o s2 (to & HR2 & Ho). tcall a ts s3 HS3 HR3 Hne3 HG3.
    destruct HG3 as (th & t1 & tl & -> & Hh & Ht1 & Hl). destruct a as [h l]. cbn [fst snd] in *. wsimp.
    tspan. fin. eapply d_class; kfin.
  - tif Ei.
    + wb. eapply W_try; [exact HR1|pre|rk|reflexivity| |].
      * intros i ti s2 HS2 HR2 Hne2 HG2. cbn [G] in HG2. destruct HG2 as (t1 & -> & Hi). wsimp. apply W_ret.
        exists [t1]. split; [exact HR2|]. cbn. eauto.
      * intros e s2 _ HX1. cbn [EX] in HX1. congruence.
    + apply W_ret. exists []. split; [exact HR1|reflexivity].
Qed.

Lemma ok_ClassTail c : method_ok (NClassTail c).
Proof.
  mstart. unfold parse_class_tail. tmaybe t s1 E1 Ev1 HR1 Hn; unfold then_try.
  - wb. tcall e te s2 HS2 HR2 Hne2 HG2. apply W_ret. wsimp. cbn [is_some].
    tcall a ts s3 HS3 HR3 Hne3 HG3. destruct HG3 as (t1 & tl & -> & Ht1 & Hl). fin.
    exists (t :: te), t1, tl. cbn [fst snd is_some]. repeat (split; [solve [auto]|]). split; [|auto].
    eapply d_heritage; kfin.
  - wb. apply W_ret. wsimp. cbn [is_some].
    tcall a ts s3 HS3 HR3 Hne3 HG3. destruct HG3 as (t1 & tl & -> & Ht1 & Hl). fin.
    exists [], t1, tl. cbn [fst snd is_some]. repeat (split; [solve [auto]|]). split; [|auto]. constructor.
Qed.

Lemma ok_ClassBody c hs : method_ok (NClassBody c hs).
Proof.
  mstart. unfold parse_class_body. tassert t s1 E1 Ev1 HR1 En1. tcall a ts s2 HS2 HR2 Hne2 HG2.
  destruct HG2 as (l & -> & Hl). okp. exists t, ts. auto.
Qed.

Lemma ok_ClassBodyLoop c hs acc : method_ok (NClassBodyLoop c hs acc).
Proof.
  mstart. unfold parse_class_body_loop. tcurm Hc.
  - destruct Hc as (t & E & Ev). tcons t1 s1 E1 HR1 En1. fin. exists []. rewrite app_nil_r. split; [auto|].
    now constructor.
  - tcurm Hs.
    + destruct Hs as (t & E & Ev). tcons t1 s1 E1 HR1 En1. tcall a ts s2 HS2 HR2 Hne2 HG2.
      destruct HG2 as (l & -> & Hl). okp. exists l. split; [auto|]. eapply d_classbody_semi; kfin.
    + tcall x tx s1 HS1 HR1 Hne1 HG1. tcall a ts s2 HS2 HR2 Hne2 HG2. destruct HG2 as (l & -> & Hl).
      okp. exists (x :: l). rewrite <- app_assoc. split; [auto|]. eapply d_classbody_elem; kfin.
Qed.

Lemma ok_ClassElement c hs : method_ok (NClassElement c hs).
Proof.
  mstart. unfold parse_class_element, current_matches_identifier_or_literal. wb. traw. wb. apply W_ret. wsimp.
  match goal with |- context [with_super_call_allowed (hs && ?x) _] => set (b := x) end.
  tcall a ts s1 HS1 HR1 Hne HG. okp. destruct ts as [|t ts]; [contradiction|].
  eapply (d_classelem _ _ _ b _ t ts); [reflexivity| |exact HG].
  subst b. destruct (cur s0) as [t0|] eqn:E0; [|discriminate]. intros Hb.
  assert (t = t0) as ->.
  { eapply Reach_cur_stable; [exact HR1|exact E0|]. destruct (t_value t0); try discriminate Hb; try (destruct l; try discriminate Hb); cbn; tauto. }
  unfold constructor_tok. destruct (t_value t0) as [|x| |l| | |]; try discriminate Hb.
  - left. apply str_eqb_true in Hb. congruence.
  - right. destruct l; try discriminate Hb. apply str_eqb_true in Hb. subst. eauto.
Qed.

Lemma ok_MethodDefinition c : method_ok (NMethodDefinition c).
Proof.
  mstart. unfold parse_method_definition. wb.
  eapply W_mono with (Q := fun st s => exists tst, static_prefix c st tst /\ Reach D s0 tst s).
  - intros st s1 (tst & Hst & HR1). tcur t E. tpeekm. wb. apply W_followed. wsimp.
    assert (Hoth : W D m 2 None s0 (let? span_start := position in
      let? name := pcall (NPropertyName c) in
      pcall (NMethod c span_start st name MKMethod)) s1 (OkPost D (NMethodDefinition c) s0)).
    { tpos. tcall n tn s2 HS2 HR2 Hne2 HG2. tcall a ts s3 HS3 HR3 Hne3 HG3.
      destruct HG3 as (p & tp & b & tb & -> & Hp & Hb & Hck & ->). okp.
      eapply (d_method _ _ _ _ c tst []); kfin; [constructor|].
      apply (Reach_span D s1); [exact (Reach_trans _ _ _ _ _ _ HS2 HS3)|]. cbn [app]. nn. }
    destruct (t_value t) eqn:Ev; try exact Hoth.
    + destruct k; try exact Hoth.
      * tif Eq; [|exact Hoth]. tcall a ts s2 HS2 HR2 Hne2 HG2. okp. now apply HG2.
      * tif Eq; [|exact Hoth]. tcall a ts s2 HS2 HR2 Hne2 HG2.
        { left. split; [auto|]. eexists; eauto. }
        okp. now apply HG2.
      * tif Eq; [|exact Hoth]. tcall a ts s2 HS2 HR2 Hne2 HG2.
        { right. split; [auto|]. eexists; eauto. }
        okp. now apply HG2.
    + destruct p; try exact Hoth. tcall a ts s2 HS2 HR2 Hne2 HG2. okp. now apply HG2.
  - destruct (c_static_method c) eqn:Es.
    + tpeekm. tif Ep.
      * tmaybe t s1 E1 Ev1 HR1 Hn.
        -- exists [t]. split; [|exact HR1]. cbn. auto.
        -- exists []. split; [reflexivity|exact HR0].
      * apply W_ret. exists []. split; [reflexivity|exact HR0].
    + apply W_ret. exists []. split; [reflexivity|exact HR0].
Qed.

Lemma ok_GeneratorMethod c st : method_ok (NGeneratorMethod c st).
Proof.
  mstart. unfold parse_generator_method. tpos. tassert t s1 E1 Ev1 HR1 En1.
  tcall n tn s2 HS2 HR2 Hne2 HG2. tcall a ts s3 HS3 HR3 Hne3 HG3.
  destruct HG3 as (p & tp & b & tb & -> & Hp & Hb & Hck & ->). okp. intros tst Hst.
  eapply (d_method _ _ _ _ _ tst [t]); kfin. now constructor.
Qed.

Lemma ok_Accessor c st k : method_ok (NAccessor c st k).
Proof.
  mstart. unfold parse_getter_or_setter. tpos. tcons t s1 E1 HR1 En1.
  tcall n tn s2 HS2 HR2 Hne2 HG2. tcall a ts s3 HS3 HR3 Hne3 HG3.
  destruct HG3 as (p & tp & b & tb & -> & Hp & Hb & Hck & ->). okp. intros tst Hst.
  eapply (d_method _ _ _ _ _ tst [t]); kfin.
  destruct HX as [(-> & H)|(-> & H)]; destruct H as (t' & E' & Ev'); rewrite E1 in E'; injection E' as <-;
    now constructor.
Qed.

Lemma ok_AsyncMethod c st : method_ok (NAsyncMethod c st).
Proof.
  mstart. unfold parse_async_method. tpos. tassert t s1 E1 Ev1 HR1 En1.
  tmaybe t2 s2 E2 Ev2 HR2 Hn.
  - tcall n tn s3 HS3 HR3 Hne3 HG3. tcall a ts s4 HS4 HR4 Hne4 HG4.
    destruct HG4 as (p & tp & b & tb & -> & Hp & Hb & Hck & ->). okp. intros tst Hst.
    eapply (d_method _ _ _ _ _ tst [t; t2]); kfin. constructor; [auto|]. cbn. auto.
  - tcall n tn s3 HS3 HR3 Hne3 HG3. tcall a ts s4 HS4 HR4 Hne4 HG4.
    destruct HG4 as (p & tp & b & tb & -> & Hp & Hb & Hck & ->). okp. intros tst Hst.
    eapply (d_method _ _ _ _ _ tst [t]); kfin. constructor; [auto|]. reflexivity.
Qed.

Lemma early_span k p b e :
  match k with
  | MKMethod => early_errors_method p (body_directives b)
  | MKGet => early_errors_getter p
  | MKSet => early_errors_setter p (body_directives b)
  end = Err e -> pe_span e = node_span p /\
    ((forall P : sort -> ctx -> node -> Prop, (forall c, P YParams c p) -> written D P (node_span p)) -> not_arrow D m e).
Proof.
  unfold early_errors_method, early_errors_getter, early_errors_setter, early_errors_forbidden_use_strict, rbind.
  destruct k; repeat match goal with
  | |- context [if ?x then _ else _] => destruct x eqn:?
  | |- context [match get_first_duplicate ?x with _ => _ end] => destruct (get_first_duplicate x) eqn:?
  end; intros [= <-]; (split; [reflexivity|]); intros Hw; cbn;
  repeat match goal with
  | H : (_ && _)%bool = true |- _ => apply andb_true_iff in H; destruct H
  | H : negb _ = true |- _ => apply negb_true_iff in H
  end.
  - apply says_use_strict. apply Hw. auto.
  - apply says_duplicate. apply Hw. intros _. split; [reflexivity|].
    match goal with E : get_first_duplicate _ = Some ?d |- _ =>
      apply first_duplicate_some in E; destruct E as (l1 & l2 & E);
      rewrite (proj1 (Permutation_count_occ (list_eq_dec N.eq_dec) _ _) (sort_perm (bound_names p)) d), E end.
    rewrite count_occ_app. cbn [count_occ]. destruct (list_eq_dec N.eq_dec _ _) as [_|Hx]; [lia|congruence].
  - apply says_getter. apply Hw. intros _. split; [reflexivity|].
    match goal with H : (_ || _)%bool = true |- _ => apply orb_true_iff in H; destruct H as [H|H] end;
      [left; destruct (params_bindings p); discriminate|right; destruct (params_rest p); discriminate].
  - apply says_use_strict. apply Hw. auto.
  - apply says_setter_rest. apply Hw. intros _. split; [reflexivity|]. destruct (params_rest p); discriminate.
  - apply says_setter. apply Hw. intros _. split; [reflexivity|].
    match goal with H : Nat.eqb _ _ = false |- _ => now apply Nat.eqb_neq in H end.
Qed.

Lemma ok_Method c start st name k : method_ok (NMethod c start st name k).
Proof.
  mstart. unfold parse_method. tcall p tp s2 HS2 HR2 Hne2 HG2. tcall b tb s3 HS3 HR3 Hne3 HG3. wb.
  apply W_ofres.
  - intros [] Hok. tspan. fin. exists p, tp, b, tb. repeat (split; [solve [auto]|]). auto.
  - intros e He. apply early_span in He. destruct He as [He Hn].
    eapply err_here; [apply Reach_Back; exact HR3| |].
    2: { apply Hn. intros P HP. exists (log s0), tp, YParams, (with_yield false c), p.
         split; [exact (Back_log _ _ _ _ (Reach_Back _ _ _ _ HR2))|]. rewrite <- (der_span _ _ _ _ _ HG2 eq_refl). auto 8. }
    right. rewrite He.
    rewrite (der_span _ _ _ _ _ HG2 eq_refl). eapply span_ok_of; [apply Reach_Back; exact HR2|auto].
Qed.

End Par.
