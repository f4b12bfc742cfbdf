(** * Fwd1: the parser on written programs: tactics, precedence levels. *)

From Verif Require Import Base Tokens PeekReader CharReader Lexer LexSpec Ast Prog TokChain ParseState Parser
  ParseRuns Source Stream AstSpec Layout Bare Written Starts Forward.
Local Open Scope string_scope.
Local Open Scope list_scope.
Local Open Scope prog_scope.

(** ** What may follow *)

(** One more than the highest level that goes on at [t]. *)
Definition jn (c : ctx) (t : token) : nat :=
  match t_value t with
  | VPunct PComma => 1
  | VPunct (PEqual | PStarEqual | PSlashEqual | PPercentEqual | PPlusEqual | PMinusEqual | PDoubleLessEqual
            | PDoubleGreaterEqual | PTripleGreaterEqual | PAmpersandEqual | PCaretEqual | PPipeEqual
            | PDoubleStarEqual) => 2
  | VPunct PQuestionMark => 3
  | VPunct PDoubleQuestionMark => 4
  | VPunct PDoublePipe => 5
  | VPunct PDoubleAmpersand => 6
  | VPunct PPipe => 7
  | VPunct PCaret => 8
  | VPunct PAmpersand => 9
  | VPunct (PDoubleEqual | PNotEqual | PTripleEqual | PExclamationDoubleEqual) => 10
  | VPunct (PLessThan | PGreaterThan | PLessEqual | PGreaterEqual) | VKeyword KInstanceof => 11
  | VKeyword KIn => if c_in c then 11 else 0
  | VPunct (PDoubleLessThan | PDoubleGreaterThan | PTripleGreaterThan) => 12
  | VPunct (PPlus | PMinus) => 13
  | VPunct (PStar | PSlash | PPercent) => 14
  | VPunct PDoubleStar => 15
  | VPunct (PDoublePlus | PDoubleMinus) => if t_fol t then 0 else 17
  | VPunct PQuestionMarkDot => 17
  | VPunct PParenOpen => 18
  | VPunct (PDot | PBraceOpen) | VLiteral (TLTemplate _) | VTemplateHead _ => 19
  | VPunct PEqualGreater => 20
  | VLiteral (TLRegexp _) | VTemplateMiddle _ | VTemplateTail _ => 100
  | _ => 0
  end.
Definition stops (k : nat) (c : ctx) (rest : list token) : Prop :=
  match rest with [] => True | t :: _ => jn c t <= k end.

Lemma stops_le k k' c rest : k <= k' -> stops k c rest -> stops k' c rest.
Proof. destruct rest; cbn; [auto|lia]. Qed.
Lemma stops_value k c rest v : stops k c rest -> (forall t, t_value t = v -> k < jn c t) ->
  value_is v (hdo rest) = false.
Proof.
  intros H Hv. destruct rest as [|t rest]; [reflexivity|]. cbn [hdo hd_error]. apply value_is_false.
  intros E. specialize (Hv t E). cbn [stops] in H. lia.
Qed.
Lemma stops_cons k c t rest : jn c t <= k -> stops k c (t :: rest).
Proof. auto. Qed.

Lemma stops_ord k c rest : k < 100 -> stops k c rest -> ord_hd rest.
Proof.
  destruct rest as [|t rest]; [auto|]. cbn [stops ord_hd]. unfold ordinary, special, jn. intros Hk H.
  destruct (t_value t) as [| | |[]| | |]; try reflexivity; exfalso; lia.
Qed.

Lemma continues_jn c t : ordinary t -> continues t = false -> jn c t = 0.
Proof.
  unfold ordinary, special, continues, jn. destruct (t_value t) as [[]| |[]|[]| | |]; intros Ho E; try discriminate E; try discriminate Ho; try reflexivity;
    destruct (t_fol t); first [reflexivity|discriminate E].
Qed.

Definition level_of (k : nat) : level :=
  match k with
  | 3 => LvCoalesce | 4 => LvOr | 5 => LvAnd | 6 => LvBitOr | 7 => LvBitXor | 8 => LvBitAnd | 9 => LvEquality
  | 10 => LvRelational | 11 => LvShift | 12 => LvAdditive | 13 => LvMultiplicative | _ => LvExponent
  end.

Definition nt_of (k : nat) (c : ctx) : nt node :=
  match k with
  | 0 => NExpr c
  | 1 => NAssignment c
  | 2 => NConditional c
  | 15 => NUnary c
  | 16 => NUpdate c
  | 17 => NLeftHandSide c
  | 18 => NNewOrMember c
  | 19 => NPrimary c
  | _ => NBinary c (level_of k)
  end.

Lemma three_fourteen k : 3 <= k <= 14 ->
  k = 3 \/ k = 4 \/ k = 5 \/ k = 6 \/ k = 7 \/ k = 8 \/ k = 9 \/ k = 10 \/ k = 11 \/ k = 12 \/ k = 13 \/ k = 14.
Proof. lia. Qed.
Ltac nat_cases k :=
  match goal with H : 3 <= k <= 14 |- _ =>
    apply three_fourteen in H; destruct H as [H|[H|[H|[H|[H|[H|[H|[H|[H|[H|[H|H]]]]]]]]]]]; subst k
  end.


Section Fwd.
Context {PF : Platform}.
Variable D : str.
Variable st : lexer_state.
Variable full : list token.
Hypothesis HS : setting D st full.

Notation W := (wpt D st full).

Lemma next_of c k : 3 <= k <= 14 -> parse_next_level c (level_of k) = pcall (nt_of (S k) c).
Proof. intros H. nat_cases k; reflexivity. Qed.

Lemma nt_of_binary c k : 3 <= k <= 14 -> nt_of k c = NBinary c (level_of k).
Proof. intros H. nat_cases k; reflexivity. Qed.

Lemma level_stops k c t : 3 <= k <= 14 -> jn c t <= k -> map_operator (level_of k) (c_in c) t = None.
Proof.
  intros Hk H. unfold jn, map_operator in *. nat_cases k; cbn [level_of];
    destruct (t_value t) as [[]| |[]|[]| | |]; try reflexivity; try (exfalso; lia);
    destruct (c_in c); try reflexivity; exfalso; lia.
Qed.

Lemma level_bin o c t : t_value t = bin_tok o -> (o = BIn -> c_in c = true) ->
  map_operator (level_of (bin_prec o)) (c_in c) t = Some (inl o) /\ jn c t = S (bin_prec o) /\ 3 <= bin_prec o <= 14.
Proof.
  intros E Hi. unfold jn, map_operator. rewrite E. destruct o; cbn; try (repeat split; lia);
    rewrite (Hi eq_refl); cbn; repeat split; lia.
Qed.
Lemma level_log o c t : t_value t = log_tok o ->
  map_operator (level_of (log_prec o)) (c_in c) t = Some (inr o) /\ jn c t = S (log_prec o) /\ 3 <= log_prec o <= 14.
Proof.
  intros E. unfold jn, map_operator. rewrite E. destruct o; cbn; repeat split; lia.
Qed.

(** ** Results *)

Definition isb (a : node) : node -> Prop := fun x => bare x = a.
Definition errx {A : Set} (E : perr -> Prop) (R : list token -> Prop) : result A perr -> list token -> Prop :=
  fun r ts => R ts /\ exists e, r = Err e /\ E e.
Definition errq {A : Set} (E : perr -> Prop) (rest : list token) : result A perr -> list token -> Prop :=
  errx E (fun ts => ts = rest).

Lemma W_errx {A B : Set} (n : nt B) (E : perr -> Prop) R (k : B -> prg A) ts :
  W (body B n) ts (errx E R) -> W (pbind (pcall n) k) ts (errx E R).
Proof.
  intros H. apply wpt_b_call. eapply wpt_conseq; [exact H|]. intros r ts1 (Hr & e & -> & He).
  apply wpt_ret. split; [exact Hr|]. now exists e.
Qed.
Lemma W_errx_try {A B : Set} (n : nt B) (E : perr -> Prop) R (k : result B perr -> prg A) ts Q :
  W (body B n) ts (errx E R) -> (forall e rest, E e -> R rest -> W (k (Err e)) rest Q) -> W (pbind (ptry n) k) ts Q.
Proof.
  intros H Hk. apply wpt_b_try. eapply wpt_conseq; [exact H|]. intros r ts1 (Hr & e & -> & He). now apply Hk.
Qed.

Lemma W_err {A B : Set} (n : nt B) (E : perr -> Prop) rest (k : B -> prg A) ts :
  W (body B n) ts (errq E rest) -> W (pbind (pcall n) k) ts (errq E rest).
Proof.
  intros H. apply wpt_b_call. eapply wpt_conseq; [exact H|]. intros r ts1 (-> & e & -> & He).
  apply wpt_ret. split; [reflexivity|]. now exists e.
Qed.
Lemma W_err_try {A B : Set} (n : nt B) (E : perr -> Prop) rest (k : result B perr -> prg A) ts Q :
  W (body B n) ts (errq E rest) -> (forall e, E e -> W (k (Err e)) rest Q) -> W (pbind (ptry n) k) ts Q.
Proof.
  intros H Hk. apply wpt_b_try. eapply wpt_conseq; [exact H|]. intros r ts1 (-> & e & -> & He). now apply Hk.
Qed.

Lemma W_ok {A B : Set} (n : nt B) (P : B -> Prop) rest (k : B -> prg A) ts Q :
  W (body B n) ts (okq P rest) -> (forall x, P x -> W (k x) rest Q) -> W (pbind (pcall n) k) ts Q.
Proof. apply wpt_b_ok. Qed.

Lemma okq_intro {A : Set} (P : A -> Prop) rest a : P a -> okq P rest (Ok a) rest.
Proof. intros H. split; [reflexivity|]. now exists a. Qed.

(** ** The claims *)

(** The tokens [ts], before [rest], are read by level [k] as the tree [a]. *)
Definition P (k : nat) (c : ctx) (ts : list token) (a : node) : Prop :=
  forall rest, stops k c rest -> W (body node (nt_of k c)) (ts ++ rest) (okq (isb a) rest).

(** The same, where more operators of the level may follow. *)
Definition PB (k : nat) (c : ctx) (ts : list token) (a : node) : Prop :=
  forall rest Q, stops (S k) c rest ->
    (forall start e, bare e = a -> W (body node (NBinaryLoop c (level_of k) start e)) rest Q) ->
    W (body node (NBinary c (level_of k))) (ts ++ rest) Q.

Definition PM (c : ctx) (ts : list token) (a : node) : Prop :=
  forall rest Q, stops 19 c rest ->
    (forall start e, bare e = a -> W (body node (NNewOrMemberLoop c start e)) rest Q) ->
    W (body node (NNewOrMember c)) (ts ++ rest) Q.

Definition PN (c : ctx) (ts : list token) (a : node) : Prop :=
  forall rest, stops 17 c rest -> W (body node (NNewOrMember c)) (ts ++ rest) (okq (isb a) rest).

Definition PC (c : ctx) (ts : list token) (a : node) : Prop :=
  forall start rest Q, stops 19 c rest ->
    (forall e, bare e = a -> W (body node (NRecursiveCall c start e)) rest Q) ->
    W (pbind (pcall (NNewOrMember c)) (fun e => pcall (NRecursiveCall c start e))) (ts ++ rest) Q.

Definition lhs_tail (c : ctx) (start : nat) (e : node) : prg node :=
  let? b := current_matches (VPunct PQuestionMarkDot) in
  if b then
    if is_nested_new e then let? t := consume in perror (unexpected_token t)
    else pcall (NOptionalExpr c start e)
  else pret e.

Definition PL (c : ctx) (ts : list token) (a : node) : Prop :=
  forall rest Q, stops 17 c rest ->
    (forall start e, bare e = a -> W (lhs_tail c start e) rest Q) ->
    W (body node (NLeftHandSide c)) (ts ++ rest) Q.

Definition PO (c : ctx) (ts : list token) (a : node) : Prop :=
  forall rest Q,
    (forall start e, bare e = a -> W (body node (NOptionalExpr c start e)) rest Q) ->
    W (body node (NLeftHandSide c)) (ts ++ rest) Q.

End Fwd.

(** ** Tactics *)

Ltac head_of t := lazymatch t with ?f _ => head_of f | _ => t end.
Ltac wbody :=
  cbn [body];
  match goal with |- wpt _ _ _ ?p _ _ => let h := head_of p in unfold h end.

(** A value a token does not have. *)
Ltac vneq :=
  first [ congruence
        | let E := fresh "E" in intros E;
          match goal with
          | H : _ |- _ => rewrite E in H; cbn in H; first [discriminate H|congruence]
          end ].
Ltac jnv := let t := fresh "t" in let E := fresh "E" in intros t E; unfold jn; rewrite E; lia.
Ltac vis1 :=
  match goal with
  | |- context [value_is ?v (Some ?t)] =>
    first [ rewrite (value_is_true v t) by congruence | rewrite (value_is_false v t) by vneq ]
  | H : stops _ _ ?rest |- context [value_is ?v (hdo ?rest)] => rewrite (stops_value _ _ _ _ H) by jnv
  | |- context [value_is ?v None] => change (value_is v None) with false
  end.
Ltac vis := cbn [hdo hd_error tl app rok andb orb negb] in *; repeat (vis1; cbn [andb orb negb]).

(** The head of a list is not a special token. *)
Ltac oh :=
  lazymatch goal with
  | |- ord_hd [] => exact Logic.I
  | |- ordinary ?t => change (ord_hd [t]); oh
  | |- ord_hd (_ ++ _) => apply ord_app; oh
  | |- ord_hd (?t :: _) =>
    first [ assumption
          | eapply ord_cons; [eassumption|reflexivity]
          | cbn [ord_hd]; eapply name_ord; eassumption
          | cbn [ord_hd]; eapply anyname_ord; eassumption
          | cbn [ord_hd]; assumption
          | cbn [ord_hd]; unfold ordinary;
            match goal with
            | H : t_value t = _ \/ _ |- _ =>
              let E := fresh in repeat (destruct H as [H|H]); rewrite H; reflexivity
            | H : ?f (t_value t) = true |- _ =>
              destruct (t_value t) as [[]| |[]|[]| | |]; first [reflexivity|discriminate H]
            | H : ?f (t_value t) = false |- _ =>
              destruct (t_value t) as [[]| |[]|[]| | |]; first [reflexivity|discriminate H]
            end ]
  | |- ord_hd ?rest =>
    first [ assumption
          | match goal with H : stops ?k _ rest |- _ => apply (stops_ord k _ _) in H; [exact H|lia] end
          | match goal with
            | H : star _ rest |- _ => exact (star_ord _ _ H)
            | H : optname _ _ rest |- _ => exact (optname_ord _ _ _ H)
            | H : dname _ _ rest |- _ => exact (dname_ord _ _ _ H)
            | H : ends rest _ |- _ => exact (ends_ord _ _ H)
            | H : ends_expr rest _ |- _ => exact (ends_expr_ord _ _ H)
            end ]
  end.
(** The next token may be looked at. *)
Ltac clr :=
  cbn [clear]; unfold kw, pu, str_tok in *;
  let X := fresh "X" in
  intros X;
  first [ match goal with H : t_value ?t = _ |- _ => rewrite H in X; discriminate X end
        | match goal with H : name _ _ ?t |- _ => destruct (name_not_opener _ _ _ H X) end
        | match goal with H : anyname _ ?t |- _ => destruct (anyname_not_opener _ _ H X) end
        | match type of X with opener (t_value ?t) = true =>
            match goal with H : ?f (t_value t) = true |- _ => 
              destruct (t_value t) as [[]| |[]|[]| | |]; first [discriminate X|discriminate H] end end
        | clear X; oh ].

Ltac w HS :=
  lazymatch goal with
  | |- wpt _ _ _ (body _ _) _ _ => wbody
  | |- wpt _ _ _ (pbind (pbind _ _) _) _ _ => apply wpt_b_assoc
  | |- wpt _ _ _ (pbind (pret _) _) _ _ => apply wpt_b_pret
  | |- wpt _ _ _ (pbind (perror _) _) _ _ => apply wpt_b_perror
  | |- wpt _ _ _ (pbind position _) (_ :: _) _ => apply wpt_b_position_at
  | |- wpt _ _ _ (pbind position _) _ _ => let n := fresh "start" in apply wpt_b_position; intros n
  | |- wpt _ _ _ (pbind (span_from _) _) _ _ => let sp := fresh "sp" in apply wpt_b_span_from; intros sp ?
  | |- wpt _ _ _ (pbind cur_raw _) _ _ => apply wpt_b_cur; cbn [stok rok]
  | |- wpt _ _ _ (pbind current _) (_ :: _) _ => apply wpt_b_current
  | |- wpt _ _ _ (pbind consume _) (_ :: _) _ => apply wpt_b_consume; [exact HS|clr|]
  | |- wpt _ _ _ (pbind consume_unwrap _) (_ :: _) _ => apply wpt_b_consume_unwrap; [exact HS|clr|]
  | |- wpt _ _ _ (pbind (consume_assert _) _) (_ :: _) _ => apply wpt_b_assert; [exact HS|first [assumption|congruence]|clr|]
  | |- wpt _ _ _ (pbind (current_matches _) _) _ _ => apply wpt_b_current_matches; vis
  | |- wpt _ _ _ (pbind (peek_matches _) _) _ _ => apply wpt_b_peek_matches; [exact HS|clr|]; vis
  | |- wpt _ _ _ (pbind peek _) _ _ => apply wpt_b_peek; [exact HS|clr|]; vis
  | |- wpt _ _ _ (pbind (maybe_consume _) _) _ _ =>
    first [ apply wpt_b_maybe_yes; [exact HS|first [assumption|congruence]|clr|]
          | apply wpt_b_maybe_no; [vis; reflexivity|] ]
  | |- wpt _ _ _ (pbind is_end _) _ _ => apply wpt_b_is_end
  | |- wpt _ _ _ (pbind first_on_line _) _ _ => apply wpt_b_first_on_line; vis
  | |- wpt _ _ _ (pbind followed_by_new_line _) _ _ => apply wpt_b_new_line; [exact HS|clr|]; vis
  | |- wpt _ _ _ (pbind (is_identifier _) _) _ _ => apply wpt_b_is_identifier; vis
  | |- wpt _ _ _ (pbind is_identifier_name _) _ _ => apply wpt_b_is_name; vis
  | |- wpt _ _ _ (pbind current_matches_string_literal _) _ _ => apply wpt_b_string; vis
  | |- wpt _ _ _ (pbind (then_try true _) _) _ _ => apply wpt_b_then_yes
  | |- wpt _ _ _ (pbind (then_try false _) _) _ _ => apply wpt_b_then_no
  | |- wpt _ _ _ (pbind stmt_ended _) _ _ => apply wpt_b_stmt_ended
  | |- wpt _ _ _ (pret _) _ _ => apply wpt_pret
  | |- wpt _ _ _ (perror _) _ _ => apply wpt_perror
  | |- wpt _ _ _ (pcall _) _ _ => apply wpt_tail
  end.
