(** * ParseRuns: the outcome of [parse].

    [parse_fuel] bounds the depth of the recursion.  With a larger bound the
    outcome does not change, so the outcome of [parse] itself is the one that
    any sufficient bound gives. *)

From Verif Require Import Base Tokens CharReader Lexer Ast Prog Parser.
Local Open Scope list_scope.

(** ** Specification *)

Section Spec.
Context {PF : Platform}.

(** [parse::<T>(D, source_type)] returns [Ok(a)], returns [Err(e)], or panics.
    [tg] is [T] ([Expr], [Stmt] or [Program]), [m] is [source_type == Module]. *)
Definition accepts (tg : target) (m : bool) (D : str) (a : node) : Prop :=
  exists fuel s, parse_fuel fuel tg D m = ODone (Ok a) s.
Definition rejects (tg : target) (m : bool) (D : str) (e : perr) : Prop :=
  exists fuel s, parse_fuel fuel tg D m = ODone (Err e) s.
Definition panics (tg : target) (m : bool) (D : str) : Prop :=
  exists fuel, parse_fuel fuel tg D m = OPanic.

End Spec.

(** ** More fuel does not change the outcome *)

Section Mono.
Context {PF : Platform} {nt : Set -> Type} (body : forall B : Set, nt B -> prog nt B).

Lemma exec_mono {A : Set} (c1 c2 : forall B : Set, nt B -> pst -> out B) (p : prog nt A) :
  (forall B n s, c1 B n s <> OFuel -> c2 B n s = c1 B n s) ->
  forall s, exec c1 p s <> OFuel -> exec c2 p s = exec c1 p s.
Proof.
  intros Hc. induction p as [r| |B o k IH|B n k IH]; intros s H; cbn [exec] in *; auto.
  - destruct (step o s); auto.
  - specialize (Hc B n s). destruct (c1 B n s) as [r s'| |] eqn:E.
    + rewrite (Hc ltac:(discriminate)). apply IH, H.
    + rewrite (Hc ltac:(discriminate)). reflexivity.
    + now destruct H.
Qed.

Lemma run_mono f1 f2 : f1 <= f2 ->
  forall B (n : nt B) s, run body f1 B n s <> OFuel -> run body f2 B n s = run body f1 B n s.
Proof.
  revert f2. induction f1 as [|f1 IH]; intros [|f2] Hle B n s H; cbn [run] in *.
  - reflexivity.
  - now destruct H.
  - lia.
  - apply exec_mono; [|exact H]. intros B' n' s' H'. apply IH; [lia|exact H'].
Qed.
End Mono.

Section Runs.
Context {PF : Platform}.

Lemma parse_fuel_mono f1 f2 tg D m : f1 <= f2 ->
  parse_fuel f1 tg D m <> OFuel -> parse_fuel f2 tg D m = parse_fuel f1 tg D m.
Proof.
  unfold parse_fuel. destruct (pst_new D m); auto. intros Hle H. now apply run_mono.
Qed.

Lemma parse_fuel_det f1 f2 tg D m :
  parse_fuel f1 tg D m <> OFuel -> parse_fuel f2 tg D m <> OFuel ->
  parse_fuel f1 tg D m = parse_fuel f2 tg D m.
Proof.
  intros H1 H2. destruct (Nat.le_ge_cases f1 f2) as [H|H].
  - symmetry. now apply parse_fuel_mono.
  - now apply parse_fuel_mono.
Qed.

End Runs.
