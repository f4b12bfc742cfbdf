(** * ParLib: more rules for parser programs. *)

From Verif Require Import ParTac.
Local Open Scope string_scope.
Local Open Scope list_scope.

Section Lib.
Context {PF : Platform}.
Variable D : str.
Variable m : bool.
Variable r : nat.
Variable ac : option ctx.
Variable s0 : pst.
Notation W := (W D m r ac s0).
Notation Reach := (Reach D).
Notation Back := (Back D).

Lemma W_can_insert s (Q : bool -> pst -> Prop) : (forall b, Q b s) -> W can_insert_semicolon s Q.
Proof. intros H. unfold can_insert_semicolon. apply W_bind. apply W_cur_raw. apply W_ret. apply H. Qed.

Lemma W_stmt_ended s (Q : bool -> pst -> Prop) : (forall b, Q b s) -> W stmt_ended s Q.
Proof.
  intros H. unfold stmt_ended. apply W_bind. apply W_cur_raw. destruct (cur s) as [t|e].
  - destruct (value_is _ _); [apply W_ret; auto|]. now apply W_can_insert.
  - apply W_ret. auto.
Qed.

Lemma W_expr_ended s (Q : bool -> pst -> Prop) : (forall b, Q b s) -> W expr_ended s Q.
Proof.
  intros H. unfold expr_ended. apply W_bind. apply W_stmt_ended. intros b1.
  apply W_bind. apply W_curm; intros _; apply W_bind; apply W_curm; intros _; apply W_ret; apply H.
Qed.

Lemma W_assign_op toks s (Q : option assign_op -> pst -> Prop) :
  Reach s0 toks s ->
  (forall t o s', cur s = Ok t -> assignment_operator t = Some o -> Reach s0 (toks ++ [t]) s' ->
     cur s' = nxt s -> Q (Some o) s') ->
  Q None s ->
  W parse_optional_assignment_operator s Q.
Proof.
  intros HR H1 H2. unfold parse_optional_assignment_operator. apply W_bind. apply W_cur_raw.
  destruct (cur s) as [t|e] eqn:E; [|now apply W_ret].
  destruct (assignment_operator t) as [o|] eqn:Eo; [|now apply W_ret].
  apply W_bind. eapply W_consume_unwrap; [apply Reach_Back; eauto|eauto|]. intros s' HR' En. apply W_ret. eauto.
Qed.

Lemma W_unary_op toks s (Q : option unary_op -> pst -> Prop) :
  Reach s0 toks s ->
  (forall t o s', cur s = Ok t -> unary_operator t = Some o -> Reach s0 (toks ++ [t]) s' ->
     cur s' = nxt s -> Q (Some o) s') ->
  Q None s ->
  W parse_optional_unary_operator s Q.
Proof.
  intros HR H1 H2. unfold parse_optional_unary_operator. apply W_bind. apply W_cur_raw.
  destruct (cur s) as [t|e] eqn:E; [|now apply W_ret].
  destruct (unary_operator t) as [o|] eqn:Eo; [|now apply W_ret].
  apply W_bind. eapply W_consume_unwrap; [apply Reach_Back; eauto|eauto|]. intros s' HR' En. apply W_ret. eauto.
Qed.

Lemma W_update_op toks s (Q : option update_op -> pst -> Prop) :
  Reach s0 toks s ->
  (forall t o s', cur s = Ok t -> update_operator t = Some o -> Reach s0 (toks ++ [t]) s' ->
     cur s' = nxt s -> Q (Some o) s') ->
  Q None s ->
  W parse_optional_update_operator s Q.
Proof.
  intros HR H1 H2. unfold parse_optional_update_operator. apply W_bind. apply W_cur_raw.
  destruct (cur s) as [t|e] eqn:E; [|now apply W_ret].
  destruct (update_operator t) as [o|] eqn:Eo; [|now apply W_ret].
  apply W_bind. eapply W_consume_unwrap; [apply Reach_Back; eauto|eauto|]. intros s' HR' En. apply W_ret. eauto.
Qed.

Lemma err_in toks s (e : perr) sp :
  Back s0 toks s -> pe_span e = sp ->
  (exists t, In t toks /\ sp = t_span t /\ (found D (t_value t) (t_span t) -> not_arrow D m e)) ->
  ErrPost D m ac s0 s e.
Proof. intros H1 H3 (t & Hi & Ht & H2). eapply err_tok; eauto. congruence. Qed.

(** Errors of the assignment target check. *)
Lemma err_simple msg c e err so ts toks a b s :
  Back s0 toks s -> der D so c (I e) ts -> spanned so = true -> ts <> [] -> toks = a ++ ts ++ b ->
  check_simple msg c e = Err err -> In msg target_messages -> ErrPost D m ac s0 s err.
Proof.
  intros HB Hd Hs Hne Et Hc Hpl. apply check_simple_err in Hc. destruct Hc as [[-> Hc]|(i & Hi & -> & Hx)].
  - eapply err_here; eauto.
    2: { apply says_target; [exact Hpl|]. exists (log s0 ++ a), ts, so, c, e. split.
         - apply Back_log in HB. rewrite Et, !app_assoc in HB. now apply is_log_app in HB.
         - cbn. rewrite (der_span _ _ _ _ _ Hd Hs). auto 8. }
    right. cbn. rewrite (der_span _ _ _ _ _ Hd Hs).
    apply Back_log in HB. rewrite Et, app_assoc in HB. apply is_log_sub in HB; auto.
    unfold span_ok, span_of. cbn. lia.
  - destruct (der_paren_ident _ _ _ _ _ _ Hd Hi) as (t & Ht & Es & Hn).
    eapply (err_tok D m ac s0 toks s _ t); eauto; [|intros Hf; eapply says_eval; [exact Hx|cbn; rewrite Es; exact Hf|exact Hn]].
    subst. rewrite !in_app_iff. auto.
Qed.

(** A call whose errors are translated. *)
Lemma W_callE {B : Set} (n : nt B) toks s (Q : B -> pst -> Prop) :
  Reach s0 toks s -> PreX m n s ->
  (toks = [] -> rank n < r) ->
  weak n = false ->
  (forall e s', ErrPost D m (actx n) s s' e -> ErrPost D m ac s0 s' e) ->
  (forall a ts s', Reach s ts s' -> Reach s0 (toks ++ ts) s' -> (emp n = false -> ts <> []) ->
     G D n s a ts s' -> Q a s') ->
  W (pcall n) s Q.
Proof.
  intros HR HP Hr Hw HE H. unfold pcall, Hoare.W. cbn [Contract.wp].
  pose proof (Reach_Back _ _ _ _ HR) as HB.
  split; [split; auto; eapply Back_clean; eauto|]. split.
  - unfold mu. pose proof (rem_Back _ _ _ _ HB) as [H1 H2]. pose proof (rank_lt n).
    destruct toks as [|t toks].
    + specialize (Hr eq_refl). nia.
    + specialize (H2 ltac:(discriminate)). nia.
  - intros [a|e] s'; cbn [Contract.wp].
    + intros (ts & [HT|(Hx & _)] & He & HG); [|congruence]. eapply H; eauto. eapply Reach_trans; eauto.
    + intros [HE' _]. auto.
Qed.

(** An arrow function starts with a parenthesis where the clause applies. *)
Lemma err_noparen ac' s e :
  ~ curv s0 (VPunct PParenOpen) -> ErrPost D m ac' s0 s e -> ErrPost D m ac s0 s e.
Proof.
  intros Hn (Hw & toks & El & Ht & Hs & Ha). split; [auto|]. exists toks. repeat (split; [solve [auto]|]).
  unfold arrow_clause in *. destruct (pe_kind e); auto. destruct Ha as (H1 & t0 & E0 & [H2|(H2 & Hp & _)]).
  - split; eauto.
  - exfalso. apply Hn. exists t0. auto.
Qed.

Lemma der_arrow_shape c e ts : der D YArrow c (I e) ts -> exists sp a b p bd, e = EArrow sp a b p bd.
Proof. intros H. inversion H; subst; eauto 10. Qed.

(** Array and object literals start with their bracket. *)
Lemma der_literal_head s c sp l ts :
  der D s c (I (ELiteral sp l)) ts ->
  match l with
  | LitArray _ => exists t ts', ts = t :: ts' /\ isp PBraceOpen t
  | LitObject _ => exists t ts', ts = t :: ts' /\ isp PBracketOpen t
  | _ => True
  end.
Proof.
  enough (H : forall it, der D s c it ts ->
    match it with
    | I (ELiteral _ l) => 
      match l with
      | LitArray _ => exists t ts', ts = t :: ts' /\ isp PBraceOpen t
      | LitObject _ => exists t ts', ts = t :: ts' /\ isp PBracketOpen t
      | _ => True
      end
    | _ => True end) by (intros; eapply (H (I (ELiteral sp l))); eauto).
  clear sp l. intros it.
  induction 1; cbn beta iota; try exact Logic.I; try assumption.
  - destruct o; exact Logic.I.
  - destruct l; exact Logic.I.
  - inversion H; subst; exact Logic.I.
  - subst. eauto.
  - subst. eauto.
  - destruct (c_module c); exact Logic.I.
Qed.

End Lib.
