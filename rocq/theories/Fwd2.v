(** * Fwd2: the parser on written expressions: levels and operators. *)

From Verif Require Import Base Tokens PeekReader CharReader Lexer LexSpec Ast Prog TokChain ParseState Parser
  ParseRuns Source Stream AstSpec Layout Bare Written Starts Forward Fwd1.
Local Open Scope string_scope.
Local Open Scope list_scope.
Local Open Scope prog_scope.

(** ** Trees *)

Lemma nested_bare e : is_nested_new e = double_new (bare e).
Proof. destruct e; try reflexivity. cbn. destruct e; reflexivity. Qed.

Lemma target_bare c e : target_ok (c_strict c) (bare e) -> is_assignment_target_type_simple c e = Ok true.
Proof.
  induction e; cbn; try contradiction; auto.
  intros H. destruct (c_strict c); [|reflexivity]. destruct (H eq_refl) as [H1 H2]. cbn [andb].
  match goal with |- context [orb ?p ?q] => destruct p eqn:E; [apply str_eqb_eq in E; contradiction|];
    destruct q eqn:E2; [apply str_eqb_eq in E2; contradiction|] end. reflexivity.
Qed.
Lemma target_check msg c e : target_ok (c_strict c) (bare e) -> check_simple msg c e = Ok tt.
Proof. intros H. unfold check_simple. now rewrite (target_bare _ _ H). Qed.

Lemma delete_bare c e : (c_strict c = true -> ~ names_variable (bare e)) -> early_errors_unary_delete c e = Ok tt.
Proof.
  induction e; cbn; intros H; try (destruct (c_strict c); reflexivity).
  - destruct (c_strict c); [|reflexivity]. now contradiction (H eq_refl).
  - destruct (c_strict c); [|reflexivity]. cbn. auto.
Qed.

Ltac clearv := repeat match goal with H : t_value _ = _ |- _ => clear H end.

Section Fwd.
Context {PF : Platform}.
Variable D : str.
Variable st : lexer_state.
Variable full : list token.
Hypothesis HS : setting D st full.

Notation W := (wpt D st full).
Notation P := (P D st full).
Notation PB := (PB D st full).
Notation PM := (PM D st full).
Notation PN := (PN D st full).
Notation PC := (PC D st full).
Notation PL := (PL D st full).
Notation PO := (PO D st full).

(** A conditional expression ends with an assignment expression. *)
Definition PD (c : ctx) (ts : list token) (a : node) : Prop :=
  forall rest, stops 1 c rest -> W (body node (NConditional c)) (ts ++ rest) (okq (isb a) rest).

(** What is known of an expression of each precedence. *)
Definition ME (k : nat) (c : ctx) (ts : list token) (a : node) : Prop :=
  match k with
  | 0 | 1 | 15 | 16 | 19 => P k c ts a
  | 2 => PD c ts a
  | 17 => PL c ts a
  | 18 => PM c ts a
  | _ => PB k c ts a
  end.

Lemma ME_B k c ts a : 3 <= k <= 14 -> ME k c ts a = PB k c ts a.
Proof. intros H. nat_cases k; reflexivity. Qed.

(** ** Between levels *)

Lemma loop_exit k c start e rest : 3 <= k <= 14 -> stops k c rest -> W (body node (NBinaryLoop c (level_of k) start e)) rest (okq (isb (bare e)) rest).
Proof.
  intros Hk Hs. wbody. w HS. destruct rest as [|t rest]; cbn [stok].
  - apply wpt_pret. apply okq_intro. reflexivity.
  - rewrite (level_stops k c t Hk Hs). apply wpt_pret. apply okq_intro. reflexivity.
Qed.

(** A binary level is also read by itself. *)
Lemma PB_P k c ts a : 3 <= k <= 14 -> PB k c ts a -> P k c ts a.
Proof.
  intros Hk H rest Hs. rewrite nt_of_binary by exact Hk. apply H; [eapply stops_le; [|exact Hs]; lia|].
  intros start e He. eapply wpt_conseq; [apply loop_exit; assumption|]. intros r ts' Hr. rewrite He in Hr. exact Hr.
Qed.

(** [15] to [14], .., [4] to [3]. *)
Lemma P_PB k c ts a : 3 <= k <= 14 -> P (S k) c ts a -> PB k c ts a.
Proof.
  intros Hk H rest Q Hs Hc. wbody. w HS. rewrite next_of by exact Hk.
  eapply W_ok; [apply H; exact Hs|]. intros x Hx. apply wpt_tail. now apply Hc.
Qed.

Lemma PB_P2 c ts a : PB 3 c ts a -> P 2 c ts a.
Proof.
  intros H rest Hs. change (nt_of 2 c) with (NConditional c). wbody. w HS. change LvCoalesce with (level_of 3).
  change (NBinary c (level_of 3)) with (nt_of 3 c).
  eapply W_ok; [apply PB_P; [lia|exact H|eapply stops_le; [|exact Hs]; lia]|]. intros x Hx.
  w HS. w HS. apply okq_intro. exact Hx.
Qed.

(** *** Assignment level *)

Lemma no_assign_op c rest {A : Set} (k : option assign_op -> prg A) R :
  stops 1 c rest -> W (k None) rest R -> W (pbind parse_optional_assignment_operator k) rest R.
Proof.
  intros Hs H. unfold parse_optional_assignment_operator. w HS. w HS. destruct rest as [|t rest]; cbn [stok].
  - exact H.
  - assert (E : assignment_operator t = None).
    { cbn [stops] in Hs. unfold jn in Hs. unfold assignment_operator.
      destruct (t_value t) as [| |[]| | | |]; try reflexivity; exfalso; lia. }
    rewrite E. exact H.
Qed.

Lemma P2_PD c ts a : P 2 c ts a -> PD c ts a.
Proof. intros H rest Hs. apply (H rest). eapply stops_le; [|exact Hs]; lia. Qed.

Lemma P2_P1 c ts a : starts 2 c ts -> PD c ts a -> P 1 c ts a.
Proof.
  intros (t & ts' & -> & Hf & Hsec) H rest Hs.
  assert (H2 : W (body node (NConditional c)) (t :: ts' ++ rest) (okq (isb a) rest)).
  { apply H. exact Hs. }
  change (nt_of 1 c) with (NAssignment c). wbody. cbn [app]. w HS. w HS. cbn [rok].
  assert (Hy : (value_is (VKeyword KYield) (Some t) && c_yield c)%bool = false).
  { destruct (value_is (VKeyword KYield) (Some t)) eqn:E; [|reflexivity]. cbn in E.
    destruct (tvalue_eq_dec (t_value t) (VKeyword KYield)) as [E2|]; [|discriminate]. rewrite E2 in Hf. cbn in Hf.
    destruct (c_yield c); [discriminate Hf|reflexivity]. }
  rewrite Hy.
  destruct (value_is (VKeyword KAsync) (Some t)) eqn:Ea.
  { cbn in Ea. destruct (tvalue_eq_dec (t_value t) (VKeyword KAsync)) as [E2|]; [|discriminate].
    unfold sec in Hsec. rewrite E2 in Hsec. specialize (Hsec eq_refl). destruct ts' as [|u us]; [congruence|].
    destruct Hsec as [_ Hsec]. destruct (Hsec (le_n _)) as [_ Hsec2]. destruct (Hsec2 eq_refl) as [Hu1 Hu2].
    w HS. wbody. apply wpt_b_peek; [exact HS|clr|]. cbn [app tl hdo hd_error].
    rewrite (value_is_false (VPunct PEqualGreater) u) by (rewrite Hu1; discriminate).
    rewrite (value_is_false (VPunct PParenOpen) u) by (rewrite Hu1; discriminate).
    rewrite <- isname_ident. rewrite Hu1. cbn [isname usable]. w HS. exact H2. }
  apply wpt_b_peek_matches_any; [exact HS|]. intros r Hr.
  assert (Harrow : (is_identifier_token (Some t) (keyword_context c) && r)%bool = false).
  { rewrite <- isname_ident. destruct (isname c (t_value t)) eqn:En; [|reflexivity]. cbn [andb].
    rewrite Hr by (cbn [clear]; intros X; destruct (t_value t) as [| |[]| | | |]; discriminate). cbn [tl].
    specialize (Hsec En). destruct ts' as [|u us].
    - cbn [app]. eapply stops_value; [exact Hs|jnv].
    - cbn [app hdo hd_error]. apply value_is_false. now apply Hsec. }
  rewrite Harrow. w HS.
  eapply wpt_b_ok_try with (P := isb a) (rest := rest).
  - wbody. w HS. eapply wpt_b_ok_try; [exact H2|]. intros x Hx. w HS. apply okq_intro. exact Hx.
  - intros x Hx. eapply no_assign_op; [exact Hs|]. w HS. apply okq_intro. exact Hx.
Qed.

Lemma P1_P0 c ts a : P 1 c ts a -> P 0 c ts a.
Proof.
  intros H rest Hs. change (nt_of 0 c) with (NExpr c). wbody. w HS. change (NAssignment c) with (nt_of 1 c).
  eapply W_ok; [apply H; eapply stops_le; [|exact Hs]; lia|]. intros x Hx. w HS. w HS. apply okq_intro. exact Hx.
Qed.

(** *** Unary level *)

Lemma no_unary_op t ts {A : Set} (k : option unary_op -> prg A) R :
  unary_operator t = None -> W (k None) (t :: ts) R -> W (pbind parse_optional_unary_operator k) (t :: ts) R.
Proof. intros E H. unfold parse_optional_unary_operator. w HS. w HS. rewrite E. exact H. Qed.
Lemma no_update_op t ts {A : Set} (k : option update_op -> prg A) R :
  update_operator t = None -> W (k None) (t :: ts) R -> W (pbind parse_optional_update_operator k) (t :: ts) R.
Proof. intros E H. unfold parse_optional_update_operator. w HS. w HS. rewrite E. exact H. Qed.
Lemma a_unary_op o t ts {A : Set} (k : option unary_op -> prg A) R :
  t_value t = unary_tok o -> W (k (Some o)) ts R -> W (pbind parse_optional_unary_operator k) (t :: ts) R.
Proof.
  intros E H. unfold parse_optional_unary_operator. w HS. w HS. unfold unary_operator. rewrite E.
  destruct o; cbn [unary_tok]; w HS; w HS; exact H.
Qed.
Lemma an_update_op o t ts {A : Set} (k : option update_op -> prg A) R :
  t_value t = update_tok o -> W (k (Some o)) ts R -> W (pbind parse_optional_update_operator k) (t :: ts) R.
Proof.
  intros E H. unfold parse_optional_update_operator. w HS. w HS. unfold update_operator. rewrite E.
  destruct o; cbn [update_tok]; w HS; w HS; exact H.
Qed.

Lemma fexp16_unary c t : fexp 16 c (t_value t) = true -> unary_operator t = None.
Proof. unfold unary_operator. destruct (t_value t) as [[]| |[]| | | |]; intros H; first [reflexivity|discriminate H]. Qed.
Lemma fexp17_update c t : fexp 17 c (t_value t) = true -> update_operator t = None.
Proof. unfold update_operator. destruct (t_value t) as [[]| |[]| | | |]; intros H; first [reflexivity|discriminate H]. Qed.

Lemma P16_P15 c ts a : starts 16 c ts -> P 16 c ts a -> P 15 c ts a.
Proof.
  intros (t & ts' & -> & Hf & _) H rest Hs. change (nt_of 15 c) with (NUnary c). wbody. cbn [app]. w HS.
  apply no_unary_op; [now apply fexp16_unary with c|].
  assert (H16 : W (body node (NUpdate c)) (t :: ts' ++ rest) (okq (isb a) rest)).
  { apply H. eapply stops_le; [|exact Hs]; lia. }
  destruct (c_await c) eqn:Ec; [|w HS; exact H16]. w HS.
  rewrite value_is_false; [w HS; exact H16|]. intros E. rewrite E in Hf. cbn in Hf. rewrite Ec in Hf. discriminate.
Qed.

Lemma no_postfix c rest e : stops 16 c rest ->
  W (let? f := first_on_line in
     if f then pret e else
     let? o := parse_optional_update_operator in
     match o with Some o => parse_postfix_update_expr c e o | None => pret e end) rest (okq (isb (bare e)) rest).
Proof.
  intros Hs. w HS. destruct rest as [|t rest]; cbn [hdo hd_error opt_fol].
  - unfold parse_optional_update_operator. w HS. w HS. w HS. w HS. apply okq_intro. reflexivity.
  - destruct (t_fol t) eqn:Ef; [w HS; apply okq_intro; reflexivity|]. apply no_update_op; [|w HS; apply okq_intro; reflexivity].
    cbn [stops] in Hs. unfold jn in Hs. rewrite Ef in Hs. unfold update_operator.
    destruct (t_value t) as [| |[]| | | |]; try reflexivity; exfalso; lia.
Qed.

Lemma tail_exit c start e rest (Q : result node perr -> list token -> Prop) :
  value_is (VPunct PQuestionMarkDot) (hdo rest) = false -> Q (Ok e) rest -> W (lhs_tail c start e) rest Q.
Proof. intros E H. unfold lhs_tail. apply wpt_b_current_matches. rewrite E. w HS. exact H. Qed.

Lemma stops16_opt c rest : stops 16 c rest -> value_is (VPunct PQuestionMarkDot) (hdo rest) = false.
Proof. intros H. eapply stops_value; [exact H|jnv]. Qed.

Lemma PL_read c ts a rest : PL c ts a -> stops 17 c rest -> value_is (VPunct PQuestionMarkDot) (hdo rest) = false ->
  W (body node (NLeftHandSide c)) (ts ++ rest) (okq (isb a) rest).
Proof.
  intros H Hs E. apply H; [exact Hs|]. intros start e He. apply tail_exit; [exact E|]. apply okq_intro. exact He.
Qed.

Lemma PL_P16 c ts a : starts 17 c ts -> PL c ts a -> P 16 c ts a.
Proof.
  intros (t & ts' & -> & Hf & _) H rest Hs. change (nt_of 16 c) with (NUpdate c). wbody. cbn [app]. w HS.
  apply no_update_op; [now apply fexp17_update with c|].
  eapply W_ok; [apply (PL_read c (t :: ts') a rest H)|].
  - eapply stops_le; [|exact Hs]; lia.
  - now apply stops16_opt with c.
  - intros x Hx. red in Hx. rewrite <- Hx. now apply no_postfix.
Qed.

(** An optional chain ends. *)
Lemma opt_exit c start e rest : stops 16 c rest ->
  W (body node (NOptionalExpr c start e)) rest (okq (isb (bare e)) rest).
Proof.
  intros Hs. wbody. w HS. destruct rest as [|t rest]; cbn [stok].
  - w HS. apply okq_intro. reflexivity.
  - cbn [stops] in Hs. unfold jn in Hs. unfold validate_no_template_in_optional_chain.
    destruct (t_value t) as [| |[]|[]| | |]; try (exfalso; lia);
      (eapply wpt_b_ofres; [reflexivity|]; w HS; apply okq_intro; reflexivity).
Qed.

Lemma PO_P16 c ts a : starts 17 c ts -> PO c ts a -> P 16 c ts a.
Proof.
  intros (t & ts' & -> & Hf & _) H rest Hs. change (nt_of 16 c) with (NUpdate c). wbody. cbn [app]. w HS.
  apply no_update_op; [now apply fexp17_update with c|].
  eapply W_ok with (P := isb a) (rest := rest).
  - apply (H rest). intros start e He. rewrite <- He. apply opt_exit. exact Hs.
  - intros x Hx. red in Hx. rewrite <- Hx. now apply no_postfix.
Qed.

(** *** Members, calls *)

Lemma P19_PM c ts a : starts 19 c ts -> P 19 c ts a -> PM c ts a.
Proof.
  intros (t & ts' & -> & Hf & _) H rest Q Hs Hc. wbody. cbn [app]. w HS.
  eapply W_ok with (P := isb a) (rest := rest).
  - wbody. w HS. apply wpt_b_peek_matches_any; [exact HS|]. intros pk _. specialize (H rest Hs). change (nt_of 19 c) with (NPrimary c) in H.
    destruct (t_value t) as [[]| |[]| | | |]; try discriminate Hf; w HS; exact H.
  - intros x Hx. w HS. now apply Hc.
Qed.

Lemma member_exit c start e rest : stops 18 c rest ->
  W (body node (NNewOrMemberLoop c start e)) rest (okq (isb (bare e)) rest).
Proof.
  intros Hs. wbody. w HS. destruct rest as [|t rest]; cbn [stok].
  - w HS. apply okq_intro. reflexivity.
  - cbn [stops] in Hs. unfold jn in Hs.
    destruct (t_value t) as [| |[]|[]| | |]; try (exfalso; lia); (w HS; apply okq_intro; reflexivity).
Qed.

Lemma PM_read c ts a rest : PM c ts a -> stops 18 c rest -> W (body node (NNewOrMember c)) (ts ++ rest) (okq (isb a) rest).
Proof.
  intros H Hs. apply H; [eapply stops_le; [|exact Hs]; lia|]. intros start e <-. now apply member_exit.
Qed.

Lemma PM_PN c ts a : PM c ts a -> PN c ts a.
Proof. intros H rest Hs. apply PM_read; [exact H|]. eapply stops_le; [|exact Hs]; lia. Qed.

Lemma call_exit c start e rest : stops 17 c rest ->
  W (body node (NRecursiveCall c start e)) rest (okq (isb (bare e)) rest).
Proof.
  intros Hs. wbody. w HS. destruct rest as [|t rest]; cbn [stok].
  - w HS. apply okq_intro. reflexivity.
  - cbn [stops] in Hs. unfold jn in Hs.
    destruct (t_value t) as [| |[]|[]| | |]; try (exfalso; lia); (w HS; apply okq_intro; reflexivity).
Qed.

(** Reading starts with a member expression. *)
Lemma lhs_member c t ts a rest Q :
  (t_value t = VKeyword KSuper \/ t_value t = VKeyword KImport -> value_is (VPunct PParenOpen) (hdo (ts ++ rest)) = false) ->
  (forall start, W (pbind (pcall (NNewOrMember c)) (fun e => pcall (NRecursiveCall c start e))) (t :: ts ++ rest) (okq (isb a) rest)) ->
  (forall start e, bare e = a -> W (lhs_tail c start e) rest Q) ->
  W (body node (NLeftHandSide c)) (t :: ts ++ rest) Q.
Proof.
  intros Ht H Hc. wbody. w HS. w HS. apply wpt_b_peek_matches_any; [exact HS|]. intros pk Hpk. cbn [rok].
  assert (E : forall k, k = KSuper \/ k = KImport ->
    (value_is (VKeyword k) (Some t) && pk)%bool = false).
  { intros k Hk. destruct (value_is (VKeyword k) (Some t)) eqn:E; [|reflexivity]. cbn in E.
    destruct (tvalue_eq_dec (t_value t) (VKeyword k)) as [E2|]; [|discriminate].
    rewrite Hpk by (cbn [clear]; intros X; rewrite E2 in X; discriminate X). cbn [tl].
    rewrite Ht; [reflexivity|]. destruct Hk as [->| ->]; auto. }
  rewrite (E KSuper (or_introl eq_refl)), (E KImport (or_intror eq_refl)).
  apply wpt_bind. apply wpt_b_position_at. eapply wpt_conseq; [apply H|]. cbv beta.
  intros r ts' (-> & x & -> & Hx). now apply Hc.
Qed.

Lemma PN_PL c ts a : starts 18 c ts ->
  (forall t u us, ts = t :: u :: us -> t_value t = VKeyword KSuper \/ t_value t = VKeyword KImport -> t_value u <> VPunct PParenOpen) ->
  PN c ts a -> PL c ts a.
Proof.
  intros (t & ts' & -> & Hf & _) Hp H rest Q Hs Hc. cbn [app]. eapply lhs_member; [| |exact Hc].
  - intros Ht. destruct ts' as [|u us].
    + cbn [app]. eapply stops_value; [exact Hs|]. jnv.
    + cbn [app hdo hd_error]. apply value_is_false. eapply Hp; [reflexivity|exact Ht].
  - intros start. eapply W_ok; [apply (H rest Hs)|]. intros x Hx. red in Hx. rewrite <- Hx. w HS. now apply call_exit.
Qed.

Lemma PC_PL c ts a : starts 18 c ts ->
  (forall t u us, ts = t :: u :: us -> t_value t = VKeyword KSuper \/ t_value t = VKeyword KImport -> t_value u <> VPunct PParenOpen) ->
  PC c ts a -> PL c ts a.
Proof.
  intros (t & ts' & -> & Hf & _) Hp H rest Q Hs Hc. cbn [app]. eapply lhs_member; [| |exact Hc].
  - intros Ht. destruct ts' as [|u us].
    + cbn [app]. eapply stops_value; [exact Hs|]. jnv.
    + cbn [app hdo hd_error]. apply value_is_false. eapply Hp; [reflexivity|exact Ht].
  - intros start. apply (H start); [eapply stops_le; [|exact Hs]; lia|]. intros e He. rewrite <- He. now apply call_exit.
Qed.

(** ** All the way up *)

Lemma ME_S k c ts a : k < 16 -> starts (S k) c ts -> ME (S k) c ts a -> ME k c ts a.
Proof.
  intros Hk Hst H.
  destruct (Nat.eq_dec k 0) as [->|N0]; [apply P1_P0; exact H|].
  destruct (Nat.eq_dec k 1) as [->|N1]; [apply P2_P1; assumption|].
  destruct (Nat.eq_dec k 2) as [->|N2]; [apply P2_PD, PB_P2; exact H|].
  destruct (Nat.eq_dec k 15) as [->|N15]; [apply P16_P15; assumption|].
  rewrite ME_B by lia. apply P_PB; [lia|].
  destruct (Nat.eq_dec k 14) as [->|N14]; [exact H|]. rewrite ME_B in H by lia. apply PB_P; [lia|exact H].
Qed.

Lemma ME_P k c ts a : k <= 16 -> k <> 2 -> ME k c ts a -> P k c ts a.
Proof.
  intros Hk N2 H.
  destruct (Nat.eq_dec k 0) as [->|N0]; [exact H|].
  destruct (Nat.eq_dec k 1) as [->|N1]; [exact H|].
  destruct (Nat.eq_dec k 15) as [->|N15]; [exact H|].
  destruct (Nat.eq_dec k 16) as [->|N16]; [exact H|].
  rewrite ME_B in H by lia. apply PB_P; [lia|exact H].
Qed.

(** From any level down to [k]. *)
Lemma ME_le j k c ts a : k <= j -> j <= 16 -> starts j c ts -> ME j c ts a -> ME k c ts a.
Proof.
  intros Hk. induction Hk as [|j Hk IH]; [auto|]. intros Hj Hst H. apply IH; [lia|eapply starts_le; [|exact Hst]; lia|].
  apply ME_S; [lia|exact Hst|exact H].
Qed.

(** ** Operators *)

Lemma sem_binary c o ts a t us b :
  ME (bin_prec o) c ts a -> t_value t = bin_tok o -> (o = BIn -> c_in c = true) ->
  ord_hd us -> ME (S (bin_prec o)) c us b -> ME (bin_prec o) c (ts ++ t :: us) (EBinary z o a b).
Proof.
  intros Ha Ht Hi Hus Hb. destruct (level_bin o c t Ht Hi) as (Eo & Ej & Hr).
  rewrite ME_B in * by lia. intros rest Q Hs Hc. rewrite <- app_assoc. cbn [app].
  apply Ha; [cbn [stops]; lia|]. intros start e He. wbody. w HS. rewrite Eo. w HS. rewrite next_of by exact Hr.
  assert (Hb' : P (S (bin_prec o)) c us b) by (apply ME_P; [lia|lia|exact Hb]).
  eapply W_ok; [apply Hb'; exact Hs|]. intros x Hx. w HS. w HS. apply Hc. cbn. now rewrite He, Hx.
Qed.

Lemma sem_logical c o ts a t us b :
  ME (log_prec o) c ts a -> t_value t = log_tok o ->
  ord_hd us -> ME (S (log_prec o)) c us b -> ME (log_prec o) c (ts ++ t :: us) (ELogical z o a b).
Proof.
  intros Ha Ht Hus Hb. destruct (level_log o c t Ht) as (Eo & Ej & Hr).
  rewrite ME_B in * by lia. intros rest Q Hs Hc. rewrite <- app_assoc. cbn [app].
  apply Ha; [cbn [stops]; lia|]. intros start e He. wbody. w HS. rewrite Eo. w HS. rewrite next_of by exact Hr.
  assert (Hb' : P (S (log_prec o)) c us b) by (apply ME_P; [lia|lia|exact Hb]).
  eapply W_ok; [apply Hb'; exact Hs|]. intros x Hx. w HS. w HS. apply Hc. cbn. now rewrite He, Hx.
Qed.

Lemma sem_conditional c ts a q us b d vs e :
  ME 3 c ts a -> pu PQuestionMark q -> ME 1 c us b -> pu PColon d -> ME 1 c vs e ->
  ME 2 c (ts ++ q :: us ++ d :: vs) (EConditional z a b e).
Proof.
  intros Ha Hq Hb Hd He rest Hs. tokval.
  replace ((ts ++ q :: us ++ d :: vs) ++ rest) with (ts ++ q :: us ++ d :: vs ++ rest)
    by (rewrite <- !app_assoc; cbn; rewrite <- !app_assoc; reflexivity).
  wbody. w HS. change (NBinary c LvCoalesce) with (nt_of 3 c).
  eapply W_ok; [apply (PB_P 3); [lia|exact Ha|cbn [stops]; unfold jn; rewrite Hq; lia]|]. intros x Hx.
  w HS. w HS.
  change (NAssignment c) with (nt_of 1 c).
  eapply W_ok; [apply Hb; cbn [stops]; unfold jn; rewrite Hd; lia|]. intros y Hy. w HS.
  eapply W_ok; [apply He; exact Hs|]. intros v Hv. w HS. w HS. apply okq_intro.
  red. cbn. now rewrite Hx, Hy, Hv.
Qed.

Lemma sem_unary c ts a t o : t_value t = unary_tok o -> ME 15 c ts a ->
  (o = UDelete -> c_strict c = true -> ~ names_variable a) -> ME 15 c (t :: ts) (EUnary z o a).
Proof.
  intros Ht H Hd rest Hs. change (nt_of 15 c) with (NUnary c). wbody. cbn [app]. w HS. eapply a_unary_op; [exact Ht|].
  w HS. wbody. change (NUnary c) with (nt_of 15 c). eapply W_ok; [apply H; exact Hs|]. intros x Hx.
  assert (E : W (let? span := span_from (tstart t) in pret (EUnary span o x)) rest (okq (isb (EUnary z o a)) rest)).
  { w HS. w HS. apply okq_intro. red. cbn. now rewrite Hx. }
  destruct o; try (w HS; exact E). eapply wpt_b_ofres; [|exact E]. apply delete_bare. rewrite Hx. now apply Hd.
Qed.

Lemma sem_await c ts a t : c_await c = true -> kw KAwait t -> ME 15 c ts a -> ME 15 c (t :: ts) (EAwait z a).
Proof.
  intros Hc Ht H rest Hs. tokval. change (nt_of 15 c) with (NUnary c). wbody. cbn [app]. w HS.
  apply no_unary_op; [unfold unary_operator; now rewrite Ht|]. rewrite Hc. w HS. vis. w HS. wbody. w HS. w HS.
  change (NUnary c) with (nt_of 15 c). eapply W_ok; [apply H; exact Hs|]. intros x Hx. w HS. w HS.
  apply okq_intro. red. cbn. now rewrite Hx.
Qed.

Lemma sem_postfix c ts a t o : starts 17 c ts -> ME 17 c ts a -> target_ok (c_strict c) a -> t_value t = update_tok o ->
  t_fol t = false -> ME 16 c (ts ++ [t]) (EUpdate z o false a).
Proof.
  intros (t0 & ts' & -> & Hf & _) H Ht Ho Hl rest Hs. change (nt_of 16 c) with (NUpdate c). wbody.
  rewrite <- app_assoc. cbn [app]. w HS.
  apply no_update_op; [now apply fexp17_update with c|].
  eapply W_ok; [apply (PL_read c (t0 :: ts') a (t :: rest) H)|].
  - cbn [stops]. unfold jn. rewrite Ho, Hl. destruct o; cbn; lia.
  - cbn [hdo hd_error]. apply value_is_false. rewrite Ho. destruct o; discriminate.
  - intros x Hx. w HS. cbn [opt_fol]. rewrite Hl. eapply an_update_op; [exact Ho|]. unfold parse_postfix_update_expr.
    eapply wpt_b_ofres; [apply target_check; now rewrite Hx|]. w HS. w HS. apply okq_intro. red. cbn. now rewrite Hx.
Qed.

Lemma sem_prefix c ts a t o : ME 15 c ts a -> target_ok (c_strict c) a -> t_value t = update_tok o ->
  ME 16 c (t :: ts) (EUpdate z o true a).
Proof.
  intros H Ht Ho rest Hs. change (nt_of 16 c) with (NUpdate c). wbody. cbn [app]. w HS.
  eapply an_update_op; [exact Ho|]. w HS. wbody. change (NUnary c) with (nt_of 15 c).
  eapply W_ok; [apply H|].
  - destruct rest as [|u rest]; [exact Logic.I|]. cbn [stops] in *. unfold jn in *.
    destruct (t_value u) as [[]| |[]|[]| | |]; try destruct (t_fol u); try destruct (c_in c); try lia.
  - intros x Hx. eapply wpt_b_ofres; [apply target_check; now rewrite Hx|]. w HS. w HS. apply okq_intro. red. cbn. now rewrite Hx.
Qed.

(** ** Assignment *)

Lemma an_assign_op o t ts {A : Set} (k : option assign_op -> prg A) R :
  t_value t = assign_tok o -> ord_hd ts -> W (k (Some o)) ts R -> W (pbind parse_optional_assignment_operator k) (t :: ts) R.
Proof.
  intros E Ho H. unfold parse_optional_assignment_operator. w HS. w HS. unfold assignment_operator. rewrite E.
  destruct o; cbn [assign_tok]; w HS; w HS; exact H.
Qed.

Lemma sem_assign c o ts a t us b : starts 17 c ts -> ME 17 c ts a -> not_first [VKeyword KAsync] ts ->
  target_ok (c_strict c) a -> t_value t = assign_tok o -> ord_hd us -> ME 1 c us b -> ME 1 c (ts ++ t :: us) (EAssign z o a b).
Proof.
  intros Hst H Hna Ht Ho Hus Hb rest Hs.
  assert (H2 : P 2 c ts a).
  { apply PB_P2. apply (ME_le 16 3); [lia|lia|eapply starts_le; [|exact Hst]; lia|]. now apply PL_P16. }
  destruct Hst as (t0 & ts' & -> & Hf & Hsec).
  assert (HC : W (body node (NConditional c)) (t0 :: ts' ++ t :: us ++ rest) (okq (isb a) (t :: us ++ rest))).
  { apply (H2 (t :: us ++ rest)). cbn [stops]. unfold jn. rewrite Ho. destruct o; cbn; lia. }
  change (nt_of 1 c) with (NAssignment c). rewrite <- app_assoc. cbn [app]. wbody. w HS. w HS. cbn [rok].
  assert (Hy : (value_is (VKeyword KYield) (Some t0) && c_yield c)%bool = false).
  { destruct (value_is (VKeyword KYield) (Some t0)) eqn:E; [|reflexivity]. cbn in E.
    destruct (tvalue_eq_dec (t_value t0) (VKeyword KYield)) as [E2|]; [|discriminate]. rewrite E2 in Hf. cbn in Hf.
    destruct (c_yield c); [discriminate Hf|reflexivity]. }
  rewrite Hy. rewrite value_is_false by (intros E; apply Hna; cbn; auto).
  apply wpt_b_peek_matches_any; [exact HS|]. intros r Hr.
  assert (Harrow : (is_identifier_token (Some t0) (keyword_context c) && r)%bool = false).
  { rewrite <- isname_ident. destruct (isname c (t_value t0)) eqn:En; [|reflexivity]. cbn [andb].
    rewrite Hr by (cbn [clear]; intros X; destruct (t_value t0) as [| |[]| | | |]; discriminate). cbn [tl].
    specialize (Hsec En). destruct ts' as [|u vs].
    - cbn [app hdo hd_error]. apply value_is_false. rewrite Ho. destruct o; discriminate.
    - cbn [app hdo hd_error]. apply value_is_false. apply Hsec. lia. }
  rewrite Harrow. w HS.
  eapply wpt_b_ok_try with (P := isb a) (rest := t :: us ++ rest).
  - wbody. w HS. eapply wpt_b_ok_try; [exact HC|]. intros x Hx. w HS. apply okq_intro. exact Hx.
  - intros x Hx. eapply an_assign_op; [exact Ho|oh|].
    assert (HR : forall s o', W (body node (NAssignRight c s x o')) (us ++ rest) (okq (isb (EAssign z o' a b)) rest)).
    { intros s o'. wbody. change (NAssignment c) with (nt_of 1 c). eapply W_ok; [apply Hb; exact Hs|].
      intros y Hyy. w HS. w HS. apply okq_intro. red. cbn. now rewrite Hx, Hyy. }
    assert (Hx' : target_ok (c_strict c) (bare x)) by now rewrite Hx.
    assert (Hn : forall s, W (pbind (normalize_left_side_assignment c t0 x) (fun left => pcall (NAssignRight c s left AAssign)))
                 (us ++ rest) (okq (isb (EAssign z AAssign a b)) rest)).
    { intros s. unfold normalize_left_side_assignment.
      destruct x; try contradiction; (w HS; eapply wpt_b_ofres; [apply target_check; exact Hx'|]; w HS; w HS; apply HR). }
    destruct o; try apply Hn; (eapply wpt_b_ofres; [apply target_check; exact Hx'|]; w HS; apply HR).
Qed.

Lemma assign_yield c y ts Q : c_yield c = true -> t_value y = VKeyword KYield ->
  W (body node (NYield c)) (y :: ts) Q -> W (body node (NAssignment c)) (y :: ts) Q.
Proof. intros Hc Hy H. wbody. w HS. w HS. cbn [rok]. vis. rewrite Hc. w HS. exact H. Qed.

Lemma fexp_ended c k t ts : fexp k c (t_value t) = true -> t_fol t = false ->
  (value_is (VPunct PSemiColon) (hdo (t :: ts)) || can_end (t :: ts))%bool = false /\
  value_is (VPunct PParenClose) (hdo (t :: ts)) = false /\ value_is (VPunct PBraceClose) (hdo (t :: ts)) = false.
Proof.
  intros Hf Hl. assert (E : forall v, fexp k c v = false -> value_is v (Some t) = false).
  { intros v Hv. apply value_is_false. intros E. rewrite E in Hf. congruence. }
  cbn [hdo hd_error can_end]. rewrite !E by reflexivity. rewrite Hl. auto.
Qed.

Lemma sem_yield c y ts a : c_yield c = true -> kw KYield y -> starts 1 c ts -> ME 1 c ts a ->
  (forall t, first ts None = Some t -> t_fol t = false) -> ME 1 c (y :: ts) (EYield z (Some a) false).
Proof.
  intros Hc Hy (t & ts' & -> & Hf & _) H Hl rest Hs. tokval. cbn [app]. change (nt_of 1 c) with (NAssignment c).
  apply assign_yield; [exact Hc|exact Hy|]. wbody. w HS. w HS. w HS.
  destruct (fexp_ended c 1 t (ts' ++ rest) Hf (Hl t eq_refl)) as (E1 & E2 & E3).
  unfold expr_ended. w HS. w HS. rewrite E1. w HS. apply wpt_b_current_matches. rewrite E2. w HS. apply wpt_b_current_matches. rewrite E3.
  w HS. cbn [orb]. w HS.
  - change (NAssignment c) with (nt_of 1 c). eapply W_ok; [apply (H rest Hs)|]. intros x Hx. w HS. w HS. apply okq_intro.
    red. cbn. now rewrite Hx.
Qed.

Lemma sem_yield_star c y s ts a : c_yield c = true -> kw KYield y -> pu PStar s -> t_fol s = false -> ME 1 c ts a ->
  ME 1 c (y :: s :: ts) (EYield z (Some a) true).
Proof.
  intros Hc Hy Hst Hl H rest Hs. tokval. cbn [app]. change (nt_of 1 c) with (NAssignment c).
  apply assign_yield; [exact Hc|exact Hy|]. wbody. w HS. w HS. w HS.
  unfold expr_ended. w HS. w HS. cbn [can_end]. vis. rewrite Hl. w HS. w HS. w HS. w HS. w HS. cbn [orb]. w HS.
  change (NAssignment c) with (nt_of 1 c). eapply W_ok; [apply (H rest Hs)|]. intros x Hx. w HS. w HS. apply okq_intro.
  red. cbn. now rewrite Hx.
Qed.

End Fwd.
