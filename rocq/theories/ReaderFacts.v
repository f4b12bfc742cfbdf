(** * ReaderFacts: [PeekReader] is a two-item look-ahead cursor, and the two
    models of the character reader agree. *)

From Verif Require Import Base PeekReader CharReader.
Local Open Scope list_scope.

Section Cursor.
  Context {I T E : Type} (next : I -> result (nat * T) E * I).

  (** The inner reader after [k] calls of [next], and the result of call [k]. *)
  Fixpoint inner_at (i : I) (k : nat) : I :=
    match k with O => i | S k' => snd (next (inner_at i k')) end.
  Definition item_at (i : I) (k : nat) : result (nat * T) E := fst (next (inner_at i k)).

  (** The end position of the last successful item among the first [k], or [d]. *)
  Fixpoint last_end (i : I) (d : nat) (k : nat) : nat :=
    match k with
    | O => d
    | S k' => match item_at i k' with Ok (p, _) => p + d | Err _ => last_end i d k' end
    end.

  (** The reader after [k] calls of [consume]. *)
  Fixpoint consumed (r : peek_reader I T E) (k : nat) : peek_reader I T E :=
    match k with O => r | S k' => snd (pr_consume next (consumed r k')) end.

  Definition value_of (r : result (nat * T) E) : result T E :=
    match r with Ok (_, t) => Ok t | Err e => Err e end.

  Lemma consumed_state i off k :
    consumed (pr_with_offset next i off) k =
      mk_pr (inner_at i (2 + k)) (item_at i k) (item_at i (1 + k)) (last_end i off k) off.
  Proof.
    induction k as [|k IH].
    - unfold item_at. simpl. unfold pr_with_offset.
      destruct (next i) as [c i1] eqn:E1. simpl. destruct (next i1) as [n i2] eqn:E2. reflexivity.
    - cbn [consumed]. rewrite IH. unfold pr_consume. cbn [pr_inner pr_current pr_next pr_offset pr_position].
      rewrite (surjective_pairing (next (inner_at i (2 + k)))).
      cbn [last_end].
      destruct (item_at i k) as [[p t]|e] eqn:Ei; cbn [snd]; unfold item_at; reflexivity.
  Qed.
End Cursor.

(** ** The character reader *)

(** [creader] [c] shows what the instance [r] of [PeekReader], started at
    byte [off] of the source, shows. *)
Record char_agree (off : nat) (r : char_peek_reader) (c : creader) : Prop := {
  ca_pos : pr_position r = rd_pos c;
  ca_off : pr_offset r = off;
  ca_rest : match rd_rest c with
    | [] => pr_current r = Err CharEndOfStream /\ pr_next r = Err CharEndOfStream /\
            ci_rest (pr_inner r) = []
    | [a] => pr_current r = Ok (rd_byte c - off + len16 a, a) /\
            pr_next r = Err CharEndOfStream /\ ci_rest (pr_inner r) = []
    | a :: b :: l => pr_current r = Ok (rd_byte c - off + len16 a, a) /\
            pr_next r = Ok (rd_byte c - off + len8 a + len16 b, b) /\
            pr_inner r = mk_ci (rd_byte c - off + len8 a + len8 b) l
    end;
  ca_byte : off <= rd_byte c }.

Lemma char_agree_start rest off :
  char_agree off (pr_with_offset ci_next (mk_ci 0 rest) off) (cr_at rest off).
Proof.
  unfold pr_with_offset, cr_at. destruct rest as [|a [|b l]]; cbn; split; cbn; auto; try lia.
  - rewrite Nat.sub_diag. auto.
  - rewrite Nat.sub_diag. auto.
Qed.

Lemma char_agree_current off r c : char_agree off r c ->
  pr_cur r = match cr_current c with Some a => Ok a | None => Err CharEndOfStream end.
Proof.
  intros [_ _ H _]. unfold pr_cur, cr_current. destruct (rd_rest c) as [|a [|b l]];
    destruct H as (-> & _); reflexivity.
Qed.

Lemma char_agree_peek off r c : char_agree off r c ->
  pr_peek r = match cr_peek c with Some a => Ok a | None => Err CharEndOfStream end.
Proof.
  intros [_ _ H _]. unfold pr_peek, cr_peek. destruct (rd_rest c) as [|a [|b l]];
    destruct H as (_ & -> & _); reflexivity.
Qed.

Lemma char_agree_consume off r c : char_agree off r c ->
  fst (pr_consume ci_next r) =
    match fst (cr_consume c) with Some a => Ok a | None => Err CharEndOfStream end /\
  char_agree off (snd (pr_consume ci_next r)) (snd (cr_consume c)).
Proof.
  intros [Hp Ho H Hb]. unfold pr_consume, cr_consume. destruct (rd_rest c) as [|a [|b l]] eqn:Er.
  - destruct H as (Hc & Hn & Hi). unfold ci_next. rewrite Hi, Hc. cbn. split; auto.
    split; cbn; auto. rewrite Er. auto.
  - destruct H as (Hc & Hn & Hi). unfold ci_next. rewrite Hi, Hc. cbn. split; auto.
    split; cbn; auto; lia.
  - destruct H as (Hc & Hn & Hi). rewrite Hi, Hc. destruct l as [|x l]; cbn; split; auto;
      split; cbn; auto; try lia.
    + rewrite Hn. repeat split; auto. f_equal. f_equal. lia.
    + rewrite Hn. repeat split; auto; f_equal; try (f_equal; lia); lia.
Qed.
