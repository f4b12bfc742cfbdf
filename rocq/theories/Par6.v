(** * Par6: import and export declarations. *)

From Verif Require Import ParTac ParLib Par2.
Local Open Scope string_scope.
Local Open Scope list_scope.
Local Open Scope prog_scope.

Section Par.
Context {PF : Platform}.
Variable D : str.
Variable m : bool.
Notation method_ok := (method_ok D m).

Ltac tsemi s HR := wb; eapply W_semi; [eassumption|nn|];
  let semi := fresh "semi" in let Hs := fresh "Hsemi" in
  intros semi s Hs HR; norm HR; wsimp.

Lemma from_last s a b t s' : Reach D s b s' -> t_value t = VKeyword KFrom -> b = a ++ [t] ->
  exists l t, log s' = l ++ [t] /\ isk KFrom t.
Proof. intros HR Hv ->. destruct (Reach_last _ _ _ _ _ HR) as [l E]. eauto. Qed.

Lemma ok_ModuleSpecifier : method_ok NModuleSpecifier.
Proof.
  mstart. unfold parse_module_specifier, parse_literal. wb. wb. tconsB t s1 E1 HR1 En1.
  destruct (t_value t) eqn:Ev; try terr_tok. apply W_ret. wsimp.
  assert (Hbad : (forall v d, l <> TLString v d) -> PanicOK D m).
  { intros Hl. right; right. split; [apply HX|]. destruct HX as [_ [(l0 & u & El & Hu)|Hs]].
    - exists (log s0), t, l. split; [now apply clean_cur_log|]. split; [exists l0, u; auto|]. auto.
    - unfold is_string_literal in Hs. rewrite E1 in Hs. cbn in Hs. rewrite Ev in Hs. destruct l as [v d| | |]; try discriminate Hs. now destruct (Hl v d). }
  destruct l; try (apply W_panic; apply Hbad; discriminate).
  fin. exists t. split; [reflexivity|]. exact Ev.
Qed.

Lemma ok_NamespaceImport c : method_ok (NNamespaceImport c).
Proof.
  mstart. unfold parse_namespace_import. tassert t s1 E1 Ev1 HR1 En1. tassert t1 s2 E2 Ev2 HR2 En2.
  tcall i ti s3 HS3 HR3 Hne3 HG3. destruct HG3 as (t2 & -> & Hi). okp. exists t, t1, t2. auto.
Qed.

Lemma ok_NamedImports c : method_ok (NNamedImports c).
Proof.
  mstart. unfold parse_named_imports. tassert t s1 E1 Ev1 HR1 En1. tcall l tl s2 HS2 HR2 Hne2 HG2.
  destruct HG2 as (l' & -> & Hl & _). okp. exists t, tl. auto.
Qed.

Lemma ok_NamedImportsLoop c acc : method_ok (NNamedImportsLoop c acc).
Proof.
  mstart. unfold parse_named_imports_loop. tcurm Hc.
  - tcons t s1 E1 HR1 En1. fin. exists []. rewrite app_nil_r. split; [auto|]. split; [now constructor|auto].
  - tcall i ti s1 HS1 HR1 Hne1 HG1. wb. eapply W_delim; [exact HR1| |].
    + intros t s2 Ht HR2. norm HR2. wsimp. tcall l tl s3 HS3 HR3 Hne3 HG3.
      destruct HG3 as (l' & -> & Hl & _). okp. exists (i :: l'). rewrite <- app_assoc. split; [auto|].
      split; [eapply d_list_comma; kfin|]. intros H. now destruct Hc.
    + intros Hc'. wsimp. tcall l tl s3 HS3 HR3 Hne3 HG3.
      destruct HG3 as (l' & -> & Hl & He). rewrite (He Hc') in *. okp. exists [i]. rewrite <- app_assoc. split; [auto|].
      split; [|intros H; now destruct Hc]. inversion Hl; subst. eapply d_list_last; kfin.
Qed.

Lemma ok_ImportSpecifier c : method_ok (NImportSpecifier c).
Proof.
  mstart. unfold parse_import_specifier. tpos. tcall n tn s1 HS1 HR1 Hne1 HG1. destruct HG1 as (t & -> & Hn).
  tmaybe t1 s2 E2 Ev2 HR2 Hx; unfold then_try; wb.
  - tcall i ti s3 HS3 HR3 Hne3 HG3. destruct HG3 as (t2 & -> & Hi). apply W_ret. wsimp. tspan. fin.
    eapply d_importspec_as; kfin.
  - apply W_ret. wsimp. tspan. fin. eapply d_importspec; kfin.
Qed.

Lemma ok_NamedExports : method_ok NNamedExports.
Proof.
  mstart. unfold parse_named_exports. tassert t s1 E1 Ev1 HR1 En1. tcall l tl s2 HS2 HR2 Hne2 HG2.
  destruct HG2 as (l' & -> & Hl & _). okp. exists t, tl. auto.
Qed.

Lemma ok_NamedExportsLoop acc : method_ok (NNamedExportsLoop acc).
Proof.
  mstart. unfold parse_named_exports_loop. tcurm Hc.
  - tcons t s1 E1 HR1 En1. fin. exists []. rewrite app_nil_r. split; [auto|]. split; [now constructor|auto].
  - tcall i ti s1 HS1 HR1 Hne1 HG1. wb. eapply W_delim; [exact HR1| |].
    + intros t s2 Ht HR2. norm HR2. wsimp. tcall l tl s3 HS3 HR3 Hne3 HG3.
      destruct HG3 as (l' & -> & Hl & _). okp. exists (i :: l'). rewrite <- app_assoc. split; [auto|].
      split; [|intros H; now destruct Hc]. intros c. specialize (Hl c). specialize (HG1 c).
      eapply d_list_comma; kfin.
    + intros Hc'. wsimp. tcall l tl s3 HS3 HR3 Hne3 HG3.
      destruct HG3 as (l' & -> & Hl & He). rewrite (He Hc') in *. okp. exists [i]. rewrite <- app_assoc. split; [auto|].
      split; [|intros H; now destruct Hc]. intros c. specialize (Hl c). specialize (HG1 c).
      inversion Hl; subst. eapply d_list_last; kfin.
Qed.

Lemma ok_ExportSpecifier : method_ok NExportSpecifier.
Proof.
  mstart. unfold parse_export_specifier. tpos. tcall n tn s1 HS1 HR1 Hne1 HG1. destruct HG1 as (t & -> & Hn).
  tmaybe t1 s2 E2 Ev2 HR2 Hx; unfold then_try; wb.
  - tcall i ti s3 HS3 HR3 Hne3 HG3. destruct HG3 as (t2 & -> & Hi). apply W_ret. wsimp. tspan. fin.
    intros c. eapply d_exportspec_as; kfin.
  - apply W_ret. wsimp. tspan. fin. intros c. eapply d_exportspec; kfin.
Qed.

Lemma ok_ImportClause c : method_ok (NImportClause c).
Proof.
  mstart. unfold parse_import_clause. wb. apply W_is_identifier. wsimp. wb.
  assert (Hrest : forall d td s, Reach D s0 td s ->
    match td with
    | [] => d = None
    | [u; v] => exists j, d = Some j /\ ident_tok c u j /\ isp PComma v
    | _ => False
    end -> W D m 2 None s0 (let? r := cur_raw in
      if value_is (VPunct PStar) (rok r) then
        let? ns := pcall (NNamespaceImport c) in pret (mk_import_clause d (Some ns) None)
      else if value_is (VPunct PBracketOpen) (rok r) then
        let? named := pcall (NNamedImports c) in pret (mk_import_clause d None (Some named))
      else let? t := consume in perror (unexpected_token t)) s (OkPost D (NImportClause c) s0)).
  { intros d td s HR Htd. traw. tif E1; [|tif E2].
    - tcall a ta s2 HS2 HR2 Hne2 HG2. destruct HG2 as (t & t1 & t2 & -> & H1 & H2 & H3). fin.
      eapply d_clause_namespace; kfin.
    - tcall a ta s2 HS2 HR2 Hne2 HG2. destruct HG2 as (t & tl & -> & H1 & H2). fin.
      eapply d_clause_named; kfin.
    - eapply err_consume; [exact HR|]. intros t Hf _. split; [reflexivity|revert Hf; tsays]. }
  destruct (is_identifier_token (rok (cur s0)) (keyword_context c)) eqn:Ei; unfold then_try; wb.
  - tcall i ti s1 HS1 HR1 Hne1 HG1. destruct HG1 as (t & -> & Hi). apply W_ret. cbn [is_none]. wsimp.
    tmaybe t1 s2 E2 Ev2 HR2 Hx.
    + apply (Hrest (Some i) [t; t1]); [exact HR2|]. eauto.
    + fin. now constructor.
  - apply W_ret. cbn [is_none]. wsimp. apply (Hrest None []); [exact HR0|reflexivity].
Qed.

Lemma term_cons t ts semi : ts <> [] -> terminated D ts semi -> terminated D (t :: ts) semi.
Proof. intros Hne. unfold terminated; destruct semi as [|u [|]]; cbn [terminated]; auto. intros H. pose proof (tfin_app [t] ts Hne) as E. cbn [app] in E. now rewrite E. Qed.

Lemma span_start start t ts s s' :
  Reach D s ts s' -> ts <> [] -> start = tstart t -> mk_span start (pos s') = span_of (t :: ts).
Proof. intros HR Hne ->. unfold span_of. pose proof (tfin_app [t] ts Hne) as E. cbn [app] in E. rewrite E.
  cbn [tsta]. f_equal. apply HR. auto. Qed.

Ltac mfin := solve [congruence | apply term_cons; [nn|eassumption]
  | eapply span_start; [eassumption|nn|first [eassumption|reflexivity]]].

Lemma ok_ModuleImport start : method_ok (NModuleImport start).
Proof.
  mstart. unfold parse_module_import. tcall f tf s1 HS1 HR1 Hne1 HG1; [tauto|]. destruct HX as [HX _]. destruct HG1 as (t1 & -> & Hf).
  tsemi s2 HR2. tspan. fin. intros c t Hm' Ht Hst. eapply d_import_bare; kfin; mfin.
Qed.

Lemma ok_ImportDecl c : method_ok (NImportDecl c).
Proof.
  mstart. unfold parse_import_declaration. tpos. tassert t s1 E1 Ev1 HR1 En1.
  wb. apply W_string_literal. wsimp. unfold posof. rewrite E1. tif Es.
  - tcall a ta s2 HS2 HR2 Hne2 HG2. okp. apply HG2; auto. congruence.
  - tcall cl tcl s2 HS2 HR2 Hne2 HG2. tassert t1 s3 E3 Ev3 HR3 En3. tcall f tf s4 HS4 HR4 Hne4 HG4; [split; [exact HX|]; left; eapply (from_last _ (t :: tcl)); [exact HR3|exact Ev3|leq]|].
    destruct HG4 as (t2 & -> & Hf). tsemi s5 HR5. tspan. fin. eapply d_import; kfin.
    + congruence.
    + erewrite <- Reach_span; [|exact HR5|nn]. unfold posof. now rewrite E1.
Qed.

Lemma ok_NamedExport start : method_ok (NNamedExport start).
Proof.
  mstart. unfold parse_named_export. tcall l tl s1 HS1 HR1 Hne1 HG1. destruct HG1 as (t1 & tl' & -> & H1 & Hl).
  tmaybe t2 s2 E2 Ev2 HR2 Hx; unfold then_try; wb.
  - tcall f tf s3 HS3 HR3 Hne3 HG3; [split; [exact HX|]; left; eapply (from_last _ (t1 :: tl')); [exact HR2|exact Ev2|leq]|]. destruct HG3 as (t3 & -> & Hf). apply W_ret. wsimp.
    tsemi s4 HR4. tspan. fin. intros c t Hm' Ht Hst. specialize (Hl c). eapply d_export_named_from; kfin; mfin.
  - apply W_ret. wsimp. tsemi s4 HR4. tspan. fin. intros c t Hm' Ht Hst. specialize (Hl c).
    eapply d_export_named; kfin; mfin.
Qed.

Lemma ok_NamespaceExport start : method_ok (NNamespaceExport start).
Proof.
  mstart. unfold parse_namespace_export. tassert t1 s1 E1 Ev1 HR1 En1.
  assert (Hrest : forall a ta s, Reach D s0 (t1 :: ta) s ->
    match ta with
    | [] => a = None
    | [u; v] => isk KAs u /\ exists i, a = Some i /\ name_tok v i
    | _ => False
    end -> W D m 1 None s0 (consume_assert (VKeyword KFrom);?
      let? from := pcall NModuleSpecifier in
      consume_optional_semicolon;?
      let? span := span_from start in
      pret (XNamespace span a from)) s (OkPost D (NNamespaceExport start) s0)).
  { intros a ta s HR Hta. tassert t2 s2 E2 Ev2 HR2 En2. tcall f tf s3 HS3 HR3 Hne3 HG3; [split; [exact HX|]; left; eapply (from_last _ (t1 :: ta)); [exact HR2|exact Ev2|leq]|].
    destruct HG3 as (t3 & -> & Hf). tsemi s4 HR4. tspan. fin. intros c t Hm' Ht Hst.
    eapply d_export_namespace; kfin; mfin. }
  tmaybe t2 s2 E2 Ev2 HR2 Hx; unfold then_try; wb.
  - tcall n tn s3 HS3 HR3 Hne3 HG3. destruct HG3 as (t & -> & Hn). apply W_ret. wsimp.
    apply (Hrest (Some n) [t2; t]); [exact HR3|]. eauto.
  - apply W_ret. wsimp. apply (Hrest None []); [exact HR1|reflexivity].
Qed.

Lemma exported_consumed s : exported s -> consumed s.
Proof. intros (l & u & t & El & Ep & _). exists l, u. auto. Qed.
Lemma Reach_exported s1 a t u s : Reach D s1 (a ++ [u]) s -> isk KExport u \/ isk KDefault u -> cur s = Ok t -> exported s.
Proof.
  intros ((_ & _ & E & _) & _ & Hp) Hu Ht. exists (log s1 ++ a), u, t. rewrite E, app_assoc. split; [reflexivity|].
  split; [|auto]. rewrite Hp by nn. apply tfin_snoc.
Qed.

Lemma consumed_bounds s : clean D s -> consumed s -> pos s <= posof s /\ posof s <= blen D.
Proof.
  intros HC (l & u & El & Ep). unfold posof. destruct (cur s) as [t|e] eqn:E.
  - pose proof (clean_cur_log D _ _ HC E) as HL. rewrite El in HL.
    pose proof (is_log_order D (l ++ [u]) [t] u t HL) as H1.
    pose proof (is_log_bounds D _ t HL) as H2. rewrite !in_app_iff in H1, H2. cbn [In] in H1, H2.
    specialize (H1 ltac:(auto) ltac:(auto)). specialize (H2 ltac:(auto)). lia.
  - pose proof (clean_log D _ HC) as HL. rewrite El in HL.
    pose proof (is_log_bounds D _ u HL) as H2. rewrite !in_app_iff in H2. cbn [In] in H2. specialize (H2 ltac:(auto)).
    lia.
Qed.

Lemma ok_RequiredDecl c : method_ok (NRequiredDecl c).
Proof.
  mstart. unfold parse_required_declaration. tcall o ts s1 HS1 HR1 Hne1 HG1. destruct o as [d|].
  - destruct HG1 as (Hne & Hd & H1 & H2). fin. auto.
  - subst ts. tpos. tspan. apply W_err. eapply err_here; [apply Reach_Back; exact HR1|left; split; [apply HX|split; [reflexivity|]]|].
    2: { destruct HX as [_ (l & u & t & El & Ep & Hu & E)]. eapply (says_expected _ _ _ l u t); [|exact Hu|].
         - pose proof (clean_cur_log D _ _ HC E) as HL. rewrite El, <- app_assoc in HL. exact HL.
         - destruct HR1 as (_ & Es & _). rewrite (Es eq_refl). cbn. unfold posof. rewrite E, Ep. reflexivity. }
    destruct HR1 as (_ & Es & _). rewrite (Es eq_refl). cbn. destruct (consumed_bounds s0 HC (exported_consumed _ (proj2 HX))). lia.
Qed.

Lemma ok_VarExport c start : method_ok (NVarExport c start).
Proof.
  mstart. destruct HX as [HX Hv]. unfold parse_varible_statement_export. tcall d td s1 HS1 HR1 Hne1 HG1.
  destruct HG1 as [Hd Hs]. tspan. fin. eauto.
Qed.

Lemma ok_DeclExport c start : method_ok (NDeclExport c start).
Proof.
  mstart. unfold parse_declaration_export. tcall d td s1 HS1 HR1 Hne1 HG1.
  destruct HG1 as (Hd & Hs & _). tspan. fin. eauto.
Qed.

Lemma ok_DeclDefaultExport c start : method_ok (NDeclDefaultExport c start).
Proof.
  mstart. destruct HX as [HX Hv]. unfold parse_declaration_default_export. tcall d td s1 HS1 HR1 Hne1 HG1.
  destruct HG1 as (Hd & _ & Hs). tspan. fin. exists d. split; [auto|]. split; [|reflexivity]. apply Hs. tauto.
Qed.

Lemma ok_DefaultExport c start : method_ok (NDefaultExport c start).
Proof.
  mstart. unfold parse_default_export. tassert t1 s1 E1 Ev1 HR1 En1. tcur t E. tpeekm. tif Ed.
  - tcall d td s2 HS2 HR2 Hne2 HG2.
    + split; [split; [exact HX|eapply (Reach_exported _ []); [exact HR1|right; exact Ev1|exact E]]|]. apply orb_true_iff in Ed. destruct Ed as [Ed|Ed].
      * apply orb_true_iff in Ed. destruct Ed as [Ed|Ed]; apply value_is_true in Ed;
          destruct Ed as (t' & Et & Hv); injection Et as <-; [left|right; left]; exists t; auto.
      * apply andb_true_iff in Ed. destruct Ed as [Ed Hf]. apply value_is_true in Ed.
        destruct Ed as (t' & Et & Hv); injection Et as <-. right; right. split; [exists t; auto|exact Hf].
    + destruct HG2 as (d' & Hd & Hs & ->). okp. intros t0 Ht Hst. eapply d_export_default_decl; kfin; mfin.
  - tcall e te s2 HS2 HR2 Hne2 HG2. tsemi s3 HR3. tspan. fin. intros t0 Ht Hst.
    eapply d_export_default_expr; kfin; mfin.
Qed.

Lemma ok_ExportDecl c : method_ok (NExportDecl c).
Proof.
  mstart. unfold parse_export_declaration. cbv zeta. tpos. tassert t s1 E1 Ev1 HR1 En1. traw.
  unfold posof. rewrite E1.
  assert (Hun : W D m 1 None s0 (let? t := consume in perror (unexpected_token t)) s1 (OkPost D (NExportDecl c) s0)).
  { eapply err_consume; [exact HR1|]. intros t' Hf _. split; [reflexivity|revert Hf; tsays]. }
  destruct (cur s1) as [u|e] eqn:E2; [|exact Hun].
  assert (Hdecl : (forall v, t_value u = v -> v <> VKeyword KImport /\ v <> VKeyword KExport) ->
    W D m 1 None s0 (pcall (NDeclExport c (tstart t))) s1 (OkPost D (NExportDecl c) s0)).
  { intros Hv. tcall a ta s2 HS2 HR2 Hne2 HG2; [split; [exact HX|eapply (Reach_exported _ []); [exact HR1|left; exact Ev1|exact E2]]|]. destruct HG2 as (d & Hd & Hs & ->). okp.
    eapply d_export_decl; kfin; try mfin.
    apply Hs; intros (u' & E' & Hv'); rewrite E2 in E'; injection E' as <-; now destruct (Hv _ Hv'). }
  destruct (t_value u) eqn:Ev; try exact Hun.
  - destruct k; try exact Hun; try (apply Hdecl; intros v <-; split; discriminate).
    + tpeekm. tif Ef; [|exact Hun]. apply Hdecl; intros v <-; split; discriminate.
    + tcall a ta s2 HS2 HR2 Hne2 HG2. okp. apply HG2; auto.
    + tcall a ta s2 HS2 HR2 Hne2 HG2.
      * split; [exact HX|]. exists u; auto.
      * destruct HG2 as (d & Hd & Hs & ->). okp. eapply d_export_var; kfin; mfin.
  - destruct p; try exact Hun; tcall a ta s2 HS2 HR2 Hne2 HG2; okp; apply HG2; auto; congruence.
Qed.

End Par.
