(** * LexerFacts: the lexer model satisfies the lexical grammar of LexSpec.v. *)

From Verif Require Import Base Tokens PeekReader CharReader Lexer LexSpec.
Local Open Scope string_scope.
Local Open Scope list_scope.

(** ** Positions *)

Lemma last_snoc {A} (l : list A) x d : last (l ++ [x]) d = x.
Proof. apply last_last. Qed.

Lemma rpos_snoc pre c : rpos (pre ++ [c]) = blen pre + len16 c.
Proof.
  unfold rpos. destruct (pre ++ [c]) eqn:E.
  - destruct pre; discriminate.
  - rewrite <- E, removelast_last, last_snoc. reflexivity.
Qed.

Lemma rpos_le pre : rpos pre <= blen pre.
Proof.
  destruct (rev pre) eqn:E.
  - apply (f_equal (@rev _)) in E. rewrite rev_involutive in E. subst. simpl. lia.
  - apply (f_equal (@rev _)) in E. rewrite rev_involutive in E. simpl in E. subst.
    rewrite rpos_snoc, blen_app. simpl. pose proof (len16_le_len8 n). lia.
Qed.

Lemma list_snoc_cases {A} (l : list A) : l = [] \/ exists l' x, l = l' ++ [x].
Proof.
  destruct (rev l) eqn:E.
  - left. apply (f_equal (@rev _)) in E. rewrite rev_involutive in E. auto.
  - right. apply (f_equal (@rev _)) in E. rewrite rev_involutive in E. simpl in E. eauto.
Qed.

Lemma rpos_app_lt pre w : w <> [] -> blen pre + 1 <= rpos (pre ++ w).
Proof.
  intros H. destruct (list_snoc_cases w) as [->|(w' & x & ->)]; [congruence|].
  rewrite app_assoc, rpos_snoc, blen_app. pose proof (len16_pos x). lia.
Qed.

Lemma rpos_app_ge pre w : rpos pre + length w <= rpos (pre ++ w).
Proof.
  destruct (list_snoc_cases w) as [->|(w' & x & ->)].
  - rewrite app_nil_r. simpl. lia.
  - rewrite app_assoc, rpos_snoc, blen_app, app_length. simpl.
    pose proof (len16_pos x). pose proof (rpos_le pre). pose proof (blen_ge_length w'). lia.
Qed.

Lemma rpos_ascii pre : ascii_str pre = true -> rpos pre = length pre.
Proof.
  intros H. destruct (list_snoc_cases pre) as [->|(w' & x & ->)]; [reflexivity|].
  rewrite rpos_snoc, app_length. rewrite ascii_str_app in H.
  apply andb_true_iff in H. destruct H as [H1 H2]. simpl in H2.
  rewrite andb_true_r in H2. rewrite (blen_ascii _ H1), (len16_ascii _ H2). reflexivity.
Qed.

Lemma slice_from_app pre rest : slice_from (pre ++ rest) (blen pre) = Some rest.
Proof.
  induction pre as [|c pre IH]; simpl.
  - destruct rest; reflexivity.
  - pose proof (len8_pos c).
    destruct (len8 c + blen pre) eqn:E; [lia|]. rewrite <- E.
    destruct (Nat.leb_spec (len8 c) (len8 c + blen pre)); [|lia].
    replace (len8 c + blen pre - len8 c) with (blen pre) by lia. exact IH.
Qed.

Lemma slice_from_inv D n r : slice_from D n = Some r -> exists p, D = p ++ r /\ n = blen p.
Proof.
  revert n. induction D as [|c D IH]; intros n H; simpl in H.
  - destruct n; [|discriminate]. injection H as <-. exists []. auto.
  - destruct n.
    + injection H as <-. exists []. auto.
    + destruct (Nat.leb_spec (len8 c) (S n)); [|discriminate].
      apply IH in H. destruct H as (p & -> & E). exists (c :: p). simpl. split; [auto|lia].
Qed.

Lemma app_prefix_cases {A} (a b c d : list A) :
  a ++ b = c ++ d -> (exists e, a = c ++ e /\ d = e ++ b) \/ (exists e, c = a ++ e /\ b = e ++ d).
Proof.
  revert c. induction a as [|x a IH]; intros c H; simpl in *.
  - right. exists c. auto.
  - destruct c as [|y c]; simpl in *.
    + left. exists (x :: a). auto.
    + injection H as -> H. destruct (IH _ H) as [(e & -> & ->)|(e & -> & ->)];
        [left|right]; eexists; split; reflexivity.
Qed.

(** A reported position that is a character boundary is the true one. *)
Lemma slice_from_rpos pre rest r :
  slice_from (pre ++ rest) (rpos pre) = Some r -> r = rest /\ rpos pre = blen pre.
Proof.
  intros H. apply slice_from_inv in H. destruct H as (p & E & Hp).
  destruct (list_snoc_cases pre) as [->|(pre' & x & ->)].
  - simpl in Hp. destruct p as [|c p]; [simpl in E; auto|].
    simpl in Hp. pose proof (len8_pos c). lia.
  - rewrite rpos_snoc in *. pose proof (len16_pos x). pose proof (len16_le_len8 x).
    apply app_prefix_cases in E. destruct E as [(e & E & ->)|(e & E & ->)].
    + destruct (list_snoc_cases e) as [->|(e' & y & ->)].
      * rewrite app_nil_r in E. subst p. split; [reflexivity|].
        rewrite blen_app in *. simpl in *. lia.
      * rewrite app_assoc in E. apply app_inj_tail in E. destruct E as [-> _].
        rewrite blen_app in *. lia.
    + subst p. rewrite !blen_app in Hp. simpl in Hp. destruct e as [|y e].
      * simpl. rewrite blen_app. simpl. split; [reflexivity|]. lia.
      * simpl in Hp. pose proof (len8_pos y). lia.
Qed.

(** ** Lexer states between reads *)

(** The lexer over source [D] in state [st] after having read [pre]. *)
Definition LX (D : str) (st : lexer_state) (pre rest : str) (f : bool) : lexer :=
  mk_lexer D st (mk_cr rest (blen pre) (rpos pre)) f.

(** The messages of the lexer's own syntax errors. *)
Definition lexer_messages : list string :=
  ["Unterminated comment"; html_message; esc_message; "Expected '}' in template expression";
   "Number cannot contain multiple adjacent underscores"; "Number cannot end with underscore";
   "Expected number"; "Zero prefixed numbers are deprecated and not supported";
   "Number cannot be followed by identifier without separation"; "String contained unescaped new line";
   "Unterminated regular expression literal"]%string.

Definition lex_kind_ok (k : lex_error_kind) : Prop :=
  match k with EKEndOfStream => False | EKSyntaxError msg => In msg lexer_messages | _ => True end.

Ltac lex_kind := simpl; first [exact I | solve [repeat (first [left; reflexivity | right])]].

(** What every reported error satisfies. *)
Definition eok (T : str) (e : lex_error) : Prop :=
  sp_start (le_span e) <= sp_end (le_span e) /\ sp_end (le_span e) <= blen T /\
  lex_kind_ok (le_kind e).

(** Weakest precondition of a lexer function (never a panic, never out of
    fuel, text only ever moves from "to read" to "read"). *)
Definition wpl {A} (D : str) (st : lexer_state) (m : lm A) (pre rest : str) (f : bool)
    (Q : A -> str -> str -> bool -> Prop) : Prop :=
  match m (LX D st pre rest f) with
  | (Ok a, L') => exists pre' rest' f', L' = LX D st pre' rest' f' /\
                    pre' ++ rest' = pre ++ rest /\ Q a pre' rest' f'
  | (Err (LFail e), L') => exists pre' rest' f', L' = LX D st pre' rest' f' /\
                    pre' ++ rest' = pre ++ rest /\ eok (pre ++ rest) e
  | (Err _, _) => False
  end.

Section Wp.
Context {PF : Platform}.
Variable D : str.
Variable st : lexer_state.

Notation WP m := (wpl D st m).

Lemma wpl_ret {A} (a : A) pre rest f (Q : _ -> str -> str -> bool -> Prop) : Q a pre rest f -> WP (ret a) pre rest f Q.
Proof. unfold wpl, ret. eauto 8. Qed.

Lemma wpl_fail {A} (e : lex_error) pre rest f (Q : A -> str -> str -> bool -> Prop) :
  eok (pre ++ rest) e -> WP (lfail_ e) pre rest f Q.
Proof. unfold wpl, lfail_. eauto 8. Qed.

Lemma wpl_bind {A B} (m : lm A) (k : A -> lm B) pre rest f (Q : _ -> str -> str -> bool -> Prop) :
  WP m pre rest f (fun a pre' rest' f' => WP (k a) pre' rest' f' Q) ->
  WP (bind m k) pre rest f Q.
Proof.
  unfold wpl, bind. destruct (m (LX D st pre rest f)) as [[a|[e| |]] L'].
  - intros (p & r & f' & -> & E & H). revert H.
    destruct (k a (LX D st p r f')) as [[b|[e| |]] L2]; auto.
    + intros (p2 & r2 & f2 & -> & E2 & H). exists p2, r2, f2. rewrite E2. auto.
    + intros (p2 & r2 & f2 & -> & E2 & H). exists p2, r2, f2. rewrite E2, <- E. auto.
  - auto.
  - auto.
  - auto.
Qed.

Lemma wpl_mono {A} (m : lm A) pre rest f (Q Q' : A -> str -> str -> bool -> Prop) :
  WP m pre rest f Q ->
  (forall a pre' rest' f', pre' ++ rest' = pre ++ rest -> Q a pre' rest' f' -> Q' a pre' rest' f') ->
  WP m pre rest f Q'.
Proof.
  unfold wpl. destruct (m (LX D st pre rest f)) as [[a|[e| |]] L']; auto.
  intros (p & r & f' & -> & E & H) HQ. eauto 10.
Qed.

Lemma wpl_position pre rest f (Q : _ -> str -> str -> bool -> Prop) : Q (rpos pre) pre rest f -> WP position pre rest f Q.
Proof. unfold wpl, position. simpl. eauto 8. Qed.

Lemma wpl_current_ok pre rest f (Q : _ -> str -> str -> bool -> Prop) :
  Q (match rest with c :: _ => Some c | [] => None end) pre rest f -> WP current_ok pre rest f Q.
Proof. unfold wpl, current_ok, cr_current. simpl. eauto 8. Qed.

Lemma wpl_peek_ok pre rest f (Q : _ -> str -> str -> bool -> Prop) :
  Q (match rest with _ :: c :: _ => Some c | _ => None end) pre rest f -> WP peek_ok pre rest f Q.
Proof. unfold wpl, peek_ok, cr_peek. simpl. destruct rest as [|? [|? ?]]; eauto 8. Qed.

Lemma eok_ueos T : eok T unexpected_end_of_stream.
Proof. repeat split; simpl; try lia. Qed.

Lemma wpl_current pre rest f (Q : _ -> str -> str -> bool -> Prop) :
  (forall c r, rest = c :: r -> Q c pre (c :: r) f) -> WP current pre rest f Q.
Proof.
  intros H. unfold wpl, current, cr_current. simpl. destruct rest as [|c r].
  - exists pre, [], f. auto using eok_ueos.
  - eauto 8.
Qed.

Lemma LX_consume c pre rest f :
  cr_consume (lx_rd (LX D st pre (c :: rest) f)) =
    (Some c, mk_cr rest (blen (pre ++ [c])) (rpos (pre ++ [c]))).
Proof. unfold cr_consume. simpl. rewrite blen_app, rpos_snoc. simpl. rewrite Nat.add_0_r. reflexivity. Qed.

Lemma wpl_consume pre rest f (Q : _ -> str -> str -> bool -> Prop) :
  (forall c r, rest = c :: r -> Q c (pre ++ [c]) r f) -> WP consume pre rest f Q.
Proof.
  intros H. unfold wpl, consume. destruct rest as [|c r].
  - simpl. exists pre, [], f. auto using eok_ueos.
  - rewrite LX_consume. exists (pre ++ [c]), r, f.
    rewrite <- app_assoc. simpl. auto.
Qed.

Lemma wpl_consume_cons pre c r f (Q : _ -> str -> str -> bool -> Prop) :
  Q c (pre ++ [c]) r f -> WP consume pre (c :: r) f Q.
Proof. intros H. apply wpl_consume. intros ? ? E. injection E as <- <-. exact H. Qed.

Lemma wpl_current_cons pre c r f (Q : _ -> str -> str -> bool -> Prop) :
  Q c pre (c :: r) f -> WP current pre (c :: r) f Q.
Proof. intros H. apply wpl_current. intros ? ? E. injection E as <- <-. exact H. Qed.

Lemma wpl_consume_unwrap pre c r f (Q : _ -> str -> str -> bool -> Prop) :
  Q c (pre ++ [c]) r f -> WP consume_unwrap pre (c :: r) f Q.
Proof.
  intros H. unfold wpl, consume_unwrap. rewrite LX_consume. exists (pre ++ [c]), r, f.
  rewrite <- app_assoc. simpl. auto.
Qed.

Lemma wpl_set_fol b pre rest f (Q : _ -> str -> str -> bool -> Prop) : Q tt pre rest b -> WP (set_fol b) pre rest f Q.
Proof. unfold wpl, set_fol. exists pre, rest, b. auto. Qed.

Lemma wpl_get_state pre rest f (Q : _ -> str -> str -> bool -> Prop) : Q st pre rest f -> WP get_state pre rest f Q.
Proof. unfold wpl, get_state. simpl. eauto 8. Qed.

Lemma wpl_get_fol pre rest f (Q : _ -> str -> str -> bool -> Prop) : Q f pre rest f -> WP get_fol pre rest f Q.
Proof. unfold wpl, get_fol. simpl. eauto 8. Qed.

Lemma wpl_debug_assert b pre rest f (Q : _ -> str -> str -> bool -> Prop) :
  b = true -> Q tt pre rest f -> WP (debug_assert b) pre rest f Q.
Proof. intros ->. unfold debug_assert. rewrite andb_false_r. apply wpl_ret. Qed.

(** Loops: every continuing round must consume. *)
Lemma wpl_loop {S A} (step : S -> lm (S + A)) (Inv : S -> str -> str -> bool -> Prop) (Q : A -> str -> str -> bool -> Prop) s pre rest f :
  (forall s pre rest f, Inv s pre rest f ->
     WP (step s) pre rest f (fun r pre' rest' f' =>
       match r with
       | inl s' => Inv s' pre' rest' f' /\ length rest' < length rest
       | inr a => Q a pre' rest' f'
       end)) ->
  Inv s pre rest f -> WP (loop step s) pre rest f Q.
Proof.
  intros Hstep HI. unfold wpl, loop. simpl lx_rest.
  change (lx_rest (LX D st pre rest f)) with rest.
  assert (G : forall n s pre rest f, Inv s pre rest f -> length rest < n ->
     WP (loop_ n step s) pre rest f Q).
  { clear s pre rest f HI. induction n as [|n IH]; intros s pre rest f HI Hn; [lia|].
    specialize (Hstep _ _ _ _ HI). unfold wpl in Hstep |- *. simpl.
    destruct (step s (LX D st pre rest f)) as [[[s'|a]|[e| |]] L']; auto.
    destruct Hstep as (p & r & f' & -> & E & HI' & Hl).
    assert (Hn' : length r < n) by lia.
    specialize (IH _ _ _ _ HI' Hn'). unfold wpl in IH. rewrite E in IH. exact IH. }
  apply G; auto.
Qed.

End Wp.
