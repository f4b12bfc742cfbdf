(** * LexChars: the lexer's character tests decide the classes of LexSpec.v. *)

From Verif Require Import Base Tokens Lexer LexSpec.
Local Open Scope string_scope.
Local Open Scope list_scope.

Ltac char_class :=
  intros; unfold in_range; eval_ch; simpl In;
  rewrite ?orb_true_iff, ?andb_true_iff, ?N.eqb_eq, ?N.leb_le; split; intros; lia.

Lemma in_range_iff lo hi c : in_range lo hi c = true <-> (lo <= c <= hi)%N.
Proof. unfold in_range. rewrite andb_true_iff, !N.leb_le. tauto. Qed.

Lemma line_term_iff c : is_ecma_line_terminator c = true <-> line_term c.
Proof. unfold is_ecma_line_terminator, line_term. char_class. Qed.

Lemma white_space_iff c : is_ecma_whitespace c = true <-> white_space c.
Proof. unfold is_ecma_whitespace, white_space. char_class. Qed.

Lemma digit_iff c : is_digit c = true <-> digit c.
Proof. unfold is_digit, digit. char_class. Qed.

Lemma letter_iff c : is_letter c = true <-> letter c.
Proof. unfold is_letter, letter. char_class. Qed.

Lemma hex_digit_iff c : is_hex_digit c = true <-> hex_digit c.
Proof. unfold is_hex_digit, is_digit, hex_digit. char_class. Qed.

Lemma octal_digit_iff c : is_octal_digit c = true <-> octal_digit c.
Proof. unfold is_octal_digit, octal_digit. char_class. Qed.

Lemma binary_digit_iff c : is_binary_digit c = true <-> binary_digit c.
Proof. unfold is_binary_digit, binary_digit. char_class. Qed.

Section WithPlatform.
Context {PF : Platform}.

Lemma id_start_iff c : is_start_of_identifier c = true <-> id_start_char c.
Proof.
  unfold is_start_of_identifier, id_start_char.
  rewrite !orb_true_iff, !N.eqb_eq, letter_iff. tauto.
Qed.

Lemma id_part_iff c : is_part_of_identifier c = true <-> id_part_char c.
Proof.
  unfold is_part_of_identifier, id_part_char.
  rewrite !orb_true_iff, !N.eqb_eq, letter_iff, digit_iff. tauto.
Qed.

Lemma id_start_part c : id_start_char c -> id_part_char c.
Proof.
  unfold id_start_char, id_part_char. intuition auto using id_start_continue.
Qed.

End WithPlatform.

(** Lifting to negations. *)
Lemma not_true_iff_false_ P b : (b = true <-> P) -> (b = false <-> ~ P).
Proof. destruct b; intuition congruence. Qed.

Lemma scalar_value_iff n : is_scalar_value n = true <-> scalar_value n.
Proof. unfold is_scalar_value, scalar_value. rewrite orb_true_iff, N.leb_le, in_range_iff. tauto. Qed.

Lemma hex_value_eq c : hex_digit c -> hex_value c = hex_val c.
Proof.
  unfold hex_digit. eval_ch. simpl In. intros H. unfold hex_value, hex_val, is_digit, in_range.
  eval_ch. repeat (destruct H as [<-|H]; [reflexivity|]). contradiction.
Qed.

Lemma hex_number_eq s : (forall c, In c s -> hex_digit c) -> hex_number s = hex_num 0 s.
Proof.
  unfold hex_number. generalize 0%N. induction s as [|c s IH]; intros a H; simpl; [reflexivity|].
  rewrite hex_value_eq by (apply H; left; reflexivity). apply IH. intros; apply H; right; auto.
Qed.
