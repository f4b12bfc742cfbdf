(** * SpanSerde: the text form of spans (ast/src/span.rs), property C32. *)

From Verif Require Import Base Numeral.
Local Open Scope list_scope.

Definition colon : N := 58%N.

(** ast/src/span.rs:32-39: [Serialize for Span]: [format!("{}:{}", start, end)]. *)
Definition serialize (s : span) : str := show (sp_start s) ++ [colon] ++ show (sp_end s).

(** [str::split(':')] (Rust core library): the parts between the colons. *)
Fixpoint split_colon (t : str) : list str :=
  match t with
  | [] => [[]]
  | c :: t' =>
      if N.eqb c colon then [] :: split_colon t'
      else match split_colon t' with
           | p :: ps => (c :: p) :: ps
           | [] => [[c]]
           end
  end.

(** What deserialising a string does: it returns a span, returns an error, or panics. *)
Inductive outcome : Set :=
| Returned (s : span)
| Failed
| Panicked.

(** ast/src/span.rs:55-72: [SpanVisitor::visit_str].  The parts are taken in
    order; [start.parse().unwrap()] and [end.parse().unwrap()] panic when the
    part is not a [usize]. *)
Definition deserialize (t : str) : outcome :=
  match split_colon t with
  | a :: b :: _ =>
      match parse_usize a with
      | None => Panicked
      | Some x =>
          match parse_usize b with
          | None => Panicked
          | Some y => Returned (mk_span x y)
          end
      end
  | _ => Failed
  end.

(** ** Facts *)

Lemma split_nonempty t : split_colon t <> [].
Proof.
  destruct t as [|c t]; simpl; [discriminate|]. destruct (N.eqb c colon); [discriminate|].
  destruct (split_colon t); discriminate.
Qed.

Lemma split_plain t : ~ In colon t -> split_colon t = [t].
Proof.
  induction t as [|c t IH]; intros H; [reflexivity|]. simpl. simpl in H.
  destruct (N.eqb_spec c colon) as [->|Hc]; [exfalso; auto|].
  rewrite IH by tauto. reflexivity.
Qed.

Lemma split_at a t : ~ In colon a -> split_colon (a ++ colon :: t) = a :: split_colon t.
Proof.
  induction a as [|c a IH]; intros H; [reflexivity|]. simpl. simpl in H.
  destruct (N.eqb_spec c colon) as [->|Hc]; [exfalso; auto|].
  rewrite IH by tauto. reflexivity.
Qed.

(** Every text either has no colon, or a first part. *)
Lemma first_part t : ~ In colon t \/ exists a t', t = a ++ colon :: t' /\ ~ In colon a.
Proof.
  induction t as [|c t IH]; [now left|].
  destruct (N.eq_dec c colon) as [->|Hc].
  - right. exists [], t. now split.
  - destruct IH as [H|(a & t' & -> & H)].
    + left. simpl. tauto.
    + right. exists (c :: a), t'. split; [reflexivity|]. simpl. tauto.
Qed.

(** ** Specification *)

(** [two_parts t a b]: up to its second colon, if it has one, [t] is [a:b]. *)
Definition two_parts (t a b : str) : Prop :=
  ~ In (ch ":") a /\ ~ In (ch ":") b /\
  (t = a ++ [ch ":"] ++ b \/ exists rest, t = a ++ [ch ":"] ++ b ++ [ch ":"] ++ rest).

Lemma two_parts_split t a b : two_parts t a b -> exists ps, split_colon t = a :: b :: ps.
Proof.
  intros (Ha & Hb & [->|(rest & ->)]); simpl; rewrite (split_at a _ Ha).
  - rewrite (split_plain b Hb). eauto.
  - rewrite (split_at b _ Hb). eauto.
Qed.

Lemma has_two_parts t : In colon t -> exists a b, two_parts t a b.
Proof.
  intros H. destruct (first_part t) as [N|(a & t' & -> & Ha)]; [contradiction|].
  exists a. destruct (first_part t') as [Hb|(b & rest & -> & Hb)].
  - exists t'. split; [exact Ha|]. split; [exact Hb|]. now left.
  - exists b. split; [exact Ha|]. split; [exact Hb|]. right. now exists rest.
Qed.

(** ** C32 *)

(** The text form is the two decimal numbers, without superfluous zeros,
    separated by a colon. *)
Theorem C32_form s : exists a b,
  serialize s = a ++ [ch ":"] ++ b /\
  digits a (N.of_nat (sp_start s)) /\ digits b (N.of_nat (sp_end s)) /\
  (forall r, a = ch "0" :: r -> sp_start s = 0) /\ (forall r, b = ch "0" :: r -> sp_end s = 0).
Proof.
  exists (show (sp_start s)), (show (sp_end s)). split; [reflexivity|].
  split; [apply show_digits|]. split; [apply show_digits|].
  split; intros r E; eapply show_lead; eauto.
Qed.

(** Deserialising the text form of any span of [usize]s gives the span back. *)
Theorem C32_round_trip s :
  (N.of_nat (sp_start s) < 18446744073709551616)%N -> (N.of_nat (sp_end s) < 18446744073709551616)%N ->
  deserialize (serialize s) = Returned s.
Proof.
  intros A B. unfold deserialize, serialize. simpl.
  rewrite split_at by (apply show_not; unfold colon; lia).
  rewrite split_plain by (apply show_not; unfold colon; lia).
  assert (PA : parse_usize (show (sp_start s)) = Some (sp_start s)).
  { apply parse_usize_iff. split; [exact A|]. left. apply show_digits. }
  assert (PB : parse_usize (show (sp_end s)) = Some (sp_end s)).
  { apply parse_usize_iff. split; [exact B|]. left. apply show_digits. }
  rewrite PA, PB. now destruct s.
Qed.

(** Different spans have different text forms. *)
Theorem C32_injective s t : serialize s = serialize t -> s = t.
Proof.
  destruct s as [a b], t as [c d]. unfold serialize. simpl. intros E.
  assert (S : split_colon (show a ++ colon :: show b) = split_colon (show c ++ colon :: show d))
    by now rewrite E.
  rewrite !split_at, !split_plain in S by (apply show_not; unfold colon; lia).
  injection S as A B. apply show_inj in A, B. now subst.
Qed.

(** Exactly which strings give which span: two numbers (with an optional [+])
    around the first colon; anything after a second colon is ignored. *)
Theorem C32_accepts t s : deserialize t = Returned s <->
  exists a b, two_parts t a b /\ usize_text a (sp_start s) /\ usize_text b (sp_end s).
Proof.
  split.
  - intros H. destruct (first_part t) as [Hn|(a & t' & -> & Ha)].
    + unfold deserialize in H. rewrite (split_plain t Hn) in H. discriminate.
    + destruct (has_two_parts (a ++ colon :: t')) as (a' & b & P); [apply in_elt|].
      exists a', b. split; [exact P|].
      destruct (two_parts_split _ _ _ P) as (ps & E). unfold deserialize in H. rewrite E in H.
      destruct (parse_usize a') as [x|] eqn:X; [|discriminate].
      destruct (parse_usize b) as [y|] eqn:Y; [|discriminate].
      injection H as <-. split; now apply parse_usize_iff.
  - intros (a & b & P & X & Y). destruct (two_parts_split _ _ _ P) as (ps & E).
    unfold deserialize. rewrite E. apply parse_usize_iff in X, Y. rewrite X, Y. now destruct s.
Qed.

(** An error is returned exactly for the strings without a colon. *)
Theorem C32_error t : deserialize t = Failed <-> ~ In (ch ":") t.
Proof.
  split.
  - intros H I. destruct (has_two_parts t I) as (a & b & P). destruct (two_parts_split _ _ _ P) as (ps & E).
    unfold deserialize in H. rewrite E in H.
    destruct (parse_usize a); [|discriminate]. destruct (parse_usize b); discriminate.
  - intros H. unfold deserialize. now rewrite (split_plain t H).
Qed.

(** No panic when both parts are numbers.  (Missing: the strings with a colon
    whose parts are not [usize]s, which do panic; see below.) *)
Theorem C32_no_panic_partial t :
  (forall a b, two_parts t a b -> (exists x, usize_text a x) /\ (exists y, usize_text b y)) ->
  deserialize t <> Panicked.
Proof.
  intros H. destruct (first_part t) as [Hn|(a & t' & -> & Ha)].
  - apply C32_error in Hn. congruence.
  - destruct (has_two_parts (a ++ colon :: t')) as (a' & b & P); [apply in_elt|].
    destruct (H _ _ P) as [[x X] [y Y]].
    assert (E : deserialize (a ++ colon :: t') = Returned (mk_span x y)) by (apply C32_accepts; eauto).
    congruence.
Qed.

(** The panicking strings, exactly. *)
Theorem C32_panics_exactly t : deserialize t = Panicked <->
  exists a b, two_parts t a b /\ ~ ((exists x, usize_text a x) /\ (exists y, usize_text b y)).
Proof.
  split.
  - intros H. destruct (first_part t) as [Hn|(a & t' & -> & Ha)].
    + apply C32_error in Hn. congruence.
    + destruct (has_two_parts (a ++ colon :: t')) as (a' & b & P); [apply in_elt|].
      exists a', b. split; [exact P|]. intros [[x X] [y Y]].
      assert (E : deserialize (a ++ colon :: t') = Returned (mk_span x y)) by (apply C32_accepts; eauto).
      congruence.
  - intros (a & b & P & Hn). destruct (two_parts_split _ _ _ P) as (ps & E).
    unfold deserialize. rewrite E.
    destruct (parse_usize a) as [x|] eqn:X; [|reflexivity].
    destruct (parse_usize b) as [y|] eqn:Y; [|reflexivity].
    exfalso. apply Hn. apply parse_usize_iff in X, Y. eauto.
Qed.

(** Instances. *)
Example C32_instance :
  serialize (mk_span 120 7) = chars "120:7" /\ deserialize (chars "120:7") = Returned (mk_span 120 7) /\
  deserialize (chars "+3:04:x") = Returned (mk_span 3 4) /\ deserialize (chars "12") = Failed.
Proof. now vm_compute. Qed.
Theorem C32_no_panic_refuted :
  deserialize (chars "a:b") = Panicked /\ deserialize (chars ":") = Panicked /\
  deserialize (chars "1:18446744073709551616") = Panicked /\ deserialize (chars "-1:2") = Panicked.
Proof. now vm_compute. Qed.

Definition span_theorems :=
  (C32_form, C32_round_trip, C32_injective, C32_accepts, C32_error, C32_no_panic_partial, C32_panics_exactly,
   C32_no_panic_refuted).
Print Assumptions span_theorems.
