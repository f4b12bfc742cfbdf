(** * Base: characters, strings, spans, results.

    Common vocabulary of the model of FelixStridsberg/fajt.

    - A Rust [char] (Unicode scalar value) is its code point, an [N].
    - A Rust [String]/[&str] is the list of its characters ([str]); byte
      offsets into the UTF-8 encoding are computed with [len8].
    - Rust [usize] positions are unbounded [nat] (overflow of [usize] is not
      modelled; a source would have to be larger than the address space). *)

From Coq Require Export Bool Arith NArith Lia Ascii String.
From Coq Require Export List.
Export ListNotations.
Local Open Scope list_scope.

(** A Rust [char] as its code point. *)
Notation chr := N (only parsing).
(** A Rust [String] or [&str] as its list of characters. *)
Definition str := list N.

(** Literal text: [ch "/"] is the code point of ['/'], [chars "abc"] is a [str]. *)
Definition ch (s : string) : N :=
  match s with
  | EmptyString => 0%N
  | String a _ => N_of_ascii a
  end.

Fixpoint chars (s : string) : str :=
  match s with
  | EmptyString => []
  | String a s' => N_of_ascii a :: chars s'
  end.

(** Character tests used by Rust range patterns such as ['0'..='9']. *)
Definition in_range (lo hi c : N) : bool := (N.leb lo c && N.leb c hi)%bool.

Definition str_eqb (a b : str) : bool :=
  if list_eq_dec N.eq_dec a b then true else false.

Lemma str_eqb_eq a b : str_eqb a b = true <-> a = b.
Proof. unfold str_eqb. destruct (list_eq_dec N.eq_dec a b); split; congruence. Qed.

(** [char::len_utf8] (Rust core library). *)
Definition len8 (c : N) : nat :=
  if N.ltb c 128 then 1 else if N.ltb c 2048 then 2 else if N.ltb c 65536 then 3 else 4.

(** [char::len_utf16] (Rust core library). *)
Definition len16 (c : N) : nat := if N.ltb c 65536 then 1 else 2.

(** Byte length of a string ([str::len]). *)
Fixpoint blen (s : str) : nat :=
  match s with
  | [] => 0
  | c :: s' => len8 c + blen s'
  end.

Definition is_ascii (c : N) : bool := N.ltb c 128.
Definition ascii_str (s : str) : bool := forallb is_ascii s.

(** Rust [Result<A, E>]. *)
Inductive result (A E : Type) : Type :=
| Ok (a : A)
| Err (e : E).
Arguments Ok {A E} a.
Arguments Err {A E} e.

(** ast/src/span.rs:8-12: [struct Span { start: usize, end: usize }]. *)
Record span := mk_span { sp_start : nat; sp_end : nat }.

(** ast/src/span.rs: [Span::empty()] is [0..0]. *)
Definition span_empty : span := mk_span 0 0.

Lemma len8_pos c : 1 <= len8 c.
Proof. unfold len8. repeat destruct (N.ltb _ _); lia. Qed.

Lemma len16_pos c : 1 <= len16 c.
Proof. unfold len16. destruct (N.ltb _ _); lia. Qed.

Lemma len16_le_len8 c : len16 c <= len8 c.
Proof.
  unfold len16, len8.
  destruct (N.ltb_spec c 65536), (N.ltb_spec c 128), (N.ltb_spec c 2048); lia.
Qed.

Lemma len8_ascii c : is_ascii c = true -> len8 c = 1.
Proof. unfold is_ascii, len8. intros ->. reflexivity. Qed.

Lemma len16_ascii c : is_ascii c = true -> len16 c = 1.
Proof.
  unfold is_ascii, len16. intros H. apply N.ltb_lt in H.
  destruct (N.ltb_spec c 65536); lia.
Qed.

Lemma blen_app a b : blen (a ++ b) = blen a + blen b.
Proof. induction a as [|c a IH]; simpl; [reflexivity|]. rewrite IH; lia. Qed.

Lemma blen_ge_length s : List.length s <= blen s.
Proof. induction s as [|c s IH]; simpl; [lia|]. pose proof (len8_pos c); lia. Qed.

Lemma blen_ascii s : ascii_str s = true -> blen s = List.length s.
Proof.
  induction s as [|c s IH]; simpl; [reflexivity|].
  intros H. apply andb_true_iff in H. destruct H as [H1 H2].
  rewrite (len8_ascii _ H1), (IH H2). reflexivity.
Qed.

Lemma ascii_str_app a b : ascii_str (a ++ b) = (ascii_str a && ascii_str b)%bool.
Proof. apply forallb_app. Qed.

(** Evaluate the character constants in a goal / hypothesis. *)
Ltac eval_ch :=
  repeat match goal with
  | |- context [ch ?s] => let v := eval compute in (ch s) in change (ch s) with v
  | H : context [ch ?s] |- _ => let v := eval compute in (ch s) in change (ch s) with v in H
  | |- context [chars ?s] => let v := eval compute in (chars s) in change (chars s) with v
  | H : context [chars ?s] |- _ => let v := eval compute in (chars s) in change (chars s) with v in H
  end.
