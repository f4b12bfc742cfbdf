(** * Numeral: decimal numbers in texts.

    Models the two library operations fajt uses on [usize]: [Display]
    (the [{}] of [format!]) and [str::parse::<usize>].  They belong to the
    Rust core library; their documented behaviour is written down here. *)

From Verif Require Import Base.
Local Open Scope list_scope.

(** The digit [d] as a character. *)
Definition digit_char (d : nat) : N := (48 + N.of_nat d)%N.

(** The decimal digits of [n], without leading zeros ([fuel] bounds the number
    of digits; [show] gives enough). *)
Fixpoint show_fuel (fuel n : nat) : str :=
  match fuel with
  | 0 => []
  | S fuel' =>
      if Nat.ltb n 10 then [digit_char n]
      else show_fuel fuel' (n / 10) ++ [digit_char (n mod 10)]
  end.

(** [usize as Display]. *)
Definition show (n : nat) : str := show_fuel (S n) n.

(** [char::to_digit(10)]. *)
Definition digit_value (c : N) : option nat :=
  if in_range 48 57 c then Some (N.to_nat (c - 48)) else None.

(** The number a text of digits denotes, read from the left; [acc] is what has
    been read so far. *)
Fixpoint horner (acc : N) (s : str) : option N :=
  match s with
  | [] => Some acc
  | c :: s' =>
      match digit_value c with
      | Some d => horner (acc * 10 + N.of_nat d) s'
      | None => None
      end
  end.

(** [usize::MAX + 1] on a 64-bit platform. *)
Definition usize_limit : N := (2 ^ 64)%N.

(** [str::parse::<usize>()]: an optional [+], at least one digit, no overflow. *)
Definition parse_usize (s : str) : option nat :=
  let ds := match s with c :: s' => if N.eqb c 43 then s' else s | [] => [] end in
  match ds with
  | [] => None
  | _ =>
      match horner 0 ds with
      | Some n => if N.ltb n usize_limit then Some (N.to_nat n) else None
      | None => None
      end
  end.

(** ** Specification: numerals *)

(** The decimal digit of value [d]: the digits follow ["0"] in order. *)
Definition numeral_digit (d : nat) : N := (ch "0" + N.of_nat d)%N.

(** [digits s n]: the text [s] consists of decimal digits with value [n]. *)
Inductive digits : str -> N -> Prop :=
| digits_one d : d < 10 -> digits [numeral_digit d] (N.of_nat d)
| digits_more s n d : digits s n -> d < 10 -> digits (s ++ [numeral_digit d]) (10 * n + N.of_nat d).

Lemma digits_one_char d : d < 10 -> digits [digit_char d] (N.of_nat d).
Proof. exact (digits_one d). Qed.
Lemma digits_more_char s n d : digits s n -> d < 10 -> digits (s ++ [digit_char d]) (10 * n + N.of_nat d).
Proof. exact (digits_more s n d). Qed.

Lemma digit_value_char d : d < 10 -> digit_value (digit_char d) = Some d.
Proof.
  intros H. unfold digit_value, digit_char, in_range.
  replace (N.leb 48 (48 + N.of_nat d)) with true by (symmetry; apply N.leb_le; lia).
  replace (N.leb (48 + N.of_nat d) 57) with true by (symmetry; apply N.leb_le; lia).
  cbv [andb]. f_equal. rewrite N.add_comm, N.add_sub. apply Nat2N.id.
Qed.

Lemma digit_value_inv c d : digit_value c = Some d -> c = digit_char d /\ d < 10.
Proof.
  unfold digit_value, in_range, digit_char. destruct (N.leb_spec 48 c), (N.leb_spec c 57); cbv [andb]; try discriminate.
  intros [= <-]. rewrite N2Nat.id. split; [rewrite N.add_comm; symmetry; apply N.sub_add; assumption|].
  assert (c - 48 < 10)%N by lia. apply Nat.compare_lt_iff. rewrite <- (Nat2N.id 10), <- N2Nat.inj_compare.
  now apply N.compare_lt_iff.
Qed.

Lemma horner_app s : forall acc t, horner acc (s ++ t) =
  match horner acc s with Some n => horner n t | None => None end.
Proof.
  induction s as [|c s IH]; intros acc t; simpl; [reflexivity|].
  destruct (digit_value c); [apply IH|reflexivity].
Qed.

Lemma digits_horner s n : digits s n -> horner 0 s = Some n.
Proof.
  induction 1 as [d H|s n d Hs IH H].
  - change (horner 0 [digit_char d] = Some (N.of_nat d)). simpl. rewrite (digit_value_char _ H). reflexivity.
  - rewrite horner_app, IH. change (numeral_digit d) with (digit_char d). cbn [horner]. rewrite (digit_value_char _ H). f_equal. lia.
Qed.

Lemma horner_digits s : s <> [] -> forall n, horner 0 s = Some n -> digits s n.
Proof.
  induction s as [|c s IH] using rev_ind; [congruence|]. intros _ n H.
  rewrite horner_app in H. destruct (horner 0 s) as [m|] eqn:E; [|discriminate].
  cbn [horner] in H. destruct (digit_value c) as [d|] eqn:Ed; [|discriminate].
  apply digit_value_inv in Ed. destruct Ed as [-> Hd]. injection H as <-.
  destruct s as [|c' s'].
  - cbn [horner] in E. injection E as <-. rewrite N.mul_0_l, N.add_0_l. now apply digits_one_char.
  - replace (m * 10 + N.of_nat d)%N with (10 * m + N.of_nat d)%N by lia.
    apply digits_more_char; [apply IH; congruence|exact Hd].
Qed.

Lemma digits_nonempty s n : digits s n -> s <> [].
Proof. destruct 1; [discriminate|]. destruct s; discriminate. Qed.

Lemma digits_chars s n : digits s n -> Forall (fun c => (48 <= c <= 57)%N) s.
Proof.
  induction 1 as [d H|s n d Hs IH H].
  - constructor; [|constructor]; unfold numeral_digit; change (ch "0") with 48%N; lia.
  - apply Forall_app. split; [exact IH|]. constructor; [|constructor]; unfold numeral_digit; change (ch "0") with 48%N; lia.
Qed.

Lemma digits_fun s n m : digits s n -> digits s m -> n = m.
Proof. intros A B. apply digits_horner in A, B. congruence. Qed.

Lemma show_fuel_digits fuel : forall n, n < fuel -> digits (show_fuel fuel n) (N.of_nat n).
Proof.
  induction fuel as [|fuel IH]; intros n H; [lia|]. simpl.
  destruct (Nat.ltb_spec n 10) as [L|L]; [now apply digits_one_char|].
  assert (E : N.of_nat n = (10 * N.of_nat (n / 10) + N.of_nat (n mod 10))%N).
  { pose proof (Nat.div_mod_eq n 10). lia. }
  rewrite E. apply digits_more_char; [|apply Nat.mod_upper_bound; lia].
  apply IH. apply Nat.lt_le_trans with n; [|lia]. apply Nat.div_lt; lia.
Qed.

Lemma show_digits n : digits (show n) (N.of_nat n).
Proof. apply show_fuel_digits. lia. Qed.

(** No superfluous zero in front: a shown number that starts with ['0'] is ["0"]. *)
Lemma show_fuel_lead fuel : forall n c s, n < fuel -> show_fuel fuel n = c :: s -> c = 48%N -> s = [] /\ n = 0.
Proof.
  induction fuel as [|fuel IH]; intros n c s H E Hc; [lia|]. cbn [show_fuel] in E.
  destruct (Nat.ltb_spec n 10) as [L|L].
  - assert (E1 : digit_char n = c) by congruence. assert (E2 : s = []) by congruence.
    unfold digit_char in E1. split; [exact E2|lia].
  - assert (Hn : n / 10 < fuel).
    { apply Nat.lt_le_trans with n; [|lia]. apply Nat.div_lt; lia. }
    assert (Hp : 1 <= n / 10) by (apply Nat.div_le_lower_bound; lia).
    destruct (show_fuel fuel (n / 10)) as [|c' s'] eqn:E'.
    + exfalso. apply (digits_nonempty _ _ (show_fuel_digits fuel _ Hn)). exact E'.
    + cbn [app] in E. assert (c' = c) by (injection E; auto). subst c'. destruct (IH _ _ _ Hn E' Hc) as [_ ?]. lia.
Qed.

Lemma show_lead n c s : show n = c :: s -> c = 48%N -> n = 0.
Proof. intros A B. now apply (show_fuel_lead (S n) n c s (Nat.lt_succ_diag_r n)). Qed.

Lemma show_nonempty n : show n <> [].
Proof. eapply digits_nonempty, show_digits. Qed.

Lemma show_inj n m : show n = show m -> n = m.
Proof.
  intros E. pose proof (show_digits n) as A. pose proof (show_digits m) as B. rewrite E in A.
  pose proof (digits_fun _ _ _ A B). lia.
Qed.

Lemma show_not c n : (c < 48 \/ 57 < c)%N -> ~ In c (show n).
Proof.
  intros H I. pose proof (digits_chars _ _ (show_digits n)) as F. rewrite Forall_forall in F.
  specialize (F _ I). simpl in F. lia.
Qed.

(** Texts [parse_usize] takes: digits, possibly after [+], below the limit. *)
Definition usize_text (s : str) (n : nat) : Prop :=
  (N.of_nat n < 18446744073709551616)%N /\ (digits s (N.of_nat n) \/ exists s', s = 43%N :: s' /\ digits s' (N.of_nat n)).

Lemma digits_not_plus s n : digits s n -> forall c s', s = c :: s' -> c <> 43%N.
Proof.
  intros H c s' -> ->. apply digits_chars in H. inversion H; subst. lia.
Qed.

Lemma parse_usize_iff s n : parse_usize s = Some n <-> usize_text s n.
Proof.
  change (usize_text s n) with ((N.of_nat n < usize_limit)%N /\ (digits s (N.of_nat n) \/ exists s', s = 43%N :: s' /\ digits s' (N.of_nat n))).
  unfold parse_usize. split.
  - intros H. destruct s as [|c s]; [discriminate|].
    destruct (N.eqb_spec c 43) as [->|Hc].
    + destruct s as [|c' s']; [discriminate|].
      destruct (horner 0 (c' :: s')) as [k|] eqn:E; [|discriminate].
      destruct (N.ltb_spec k usize_limit); [|discriminate]. injection H as <-.
      rewrite N2Nat.id. split; [assumption|]. right. exists (c' :: s'). split; [reflexivity|].
      apply horner_digits; [discriminate|assumption].
    + destruct (horner 0 (c :: s)) as [k|] eqn:E; [|discriminate].
      destruct (N.ltb_spec k usize_limit); [|discriminate]. injection H as <-.
      rewrite N2Nat.id. split; [assumption|]. left. apply horner_digits; [discriminate|assumption].
  - intros [L [H|(s' & -> & H)]].
    + pose proof (digits_nonempty _ _ H). destruct s as [|c s]; [congruence|].
      destruct (N.eqb_spec c 43) as [->|Hc].
      * exfalso. eapply digits_not_plus; [exact H|reflexivity|reflexivity].
      * rewrite (digits_horner _ _ H). apply N.ltb_lt in L. rewrite L. now rewrite Nat2N.id.
    + rewrite N.eqb_refl. pose proof (digits_nonempty _ _ H). destruct s' as [|c s]; [congruence|].
      rewrite (digits_horner _ _ H). apply N.ltb_lt in L. rewrite L. now rewrite Nat2N.id.
Qed.
