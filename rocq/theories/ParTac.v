(** * ParTac: tactics for the proofs that parser methods keep their promise. *)

From Verif Require Export Base Tokens PeekReader CharReader Lexer LexSpec LexerFacts LexProps Ast Prog
  TokChain ParseState Parser Grammar GrammarFacts Contract Hoare.

Ltac nn :=
  solve [ repeat first
    [ assumption | discriminate | apply cons_ne
    | eapply der_nonempty; [eassumption|reflexivity]
    | match goal with |- _ ++ _ :: _ <> [] => apply app_ne_r; apply cons_ne end
    | match goal with |- ?a ++ ?b <> [] => apply app_ne_l; nn end
    | match goal with |- ?a ++ ?b <> [] => apply app_ne_r; nn end ] ].

Ltac norm H := repeat (progress (rewrite <- ?app_assoc, ?app_nil_r in H; cbn [app] in H)).

Ltac uniq :=
  repeat match goal with
  | H : ?a = ?a |- _ => clear H
  | H2 : cur ?s = Ok ?b, H1 : cur ?s = Ok ?a |- _ =>
      rewrite H1 in H2; injection H2 as H2; subst b
  | H2 : cur ?s = Ok ?b, H1 : curv ?s _ |- _ =>
      let x := fresh "x" in let Hx := fresh "Hx" in let Hv := fresh "Hv" in
      destruct H1 as (x & Hx & Hv); rewrite H2 in Hx; injection Hx as Hx; subst x
  end.

Ltac wsimp := cbv beta iota; cbn [negb andb orb]; cbv beta iota.

Ltac wb := try (apply W_bind; wsimp).

Tactic Notation "tcons" ident(t) ident(s) ident(E) ident(HR) ident(En) :=
  wb; eapply W_consume; [eassumption|]; intros t s E HR En; norm HR; uniq; wsimp.
Tactic Notation "tconsB" ident(t) ident(s) ident(E) ident(HR) ident(En) :=
  wb; eapply W_consumeB; [first [eassumption | apply Reach_Back; eassumption]|];
  intros t s E HR En; norm HR; uniq; wsimp.
Tactic Notation "tassert" ident(t) ident(s) ident(E) ident(Ev) ident(HR) ident(En) :=
  wb; eapply W_cassert; [first [apply Reach_Back; eassumption | eassumption]|];
  intros t s E Ev HR En; norm HR; uniq; wsimp.
Tactic Notation "tcur" ident(t) ident(E) :=
  wb; eapply W_current; [first [apply Reach_Back; eassumption | eassumption]|];
  intros t E; uniq; wsimp.
Ltac tpos := wb; apply W_position; wsimp.
Ltac tspan := wb; apply W_span_from; wsimp.
Tactic Notation "tmaybe" ident(t) ident(s) ident(E) ident(Ev) ident(HR) ident(Hn) :=
  wb; eapply W_maybe; [eassumption| |];
  [let En := fresh "En" in intros t s E Ev HR En; norm HR; uniq; wsimp | intros Hn; wsimp].
Tactic Notation "tcurm" ident(Hc) := wb; apply W_curm; intros Hc; wsimp.
Ltac traw := wb; apply W_cur_raw; wsimp.
Ltac tpeekm := wb; apply W_peek_matches; wsimp.

Ltac pre :=
  split; [first [ assumption | exact Logic.I | reflexivity ]|];
  try solve [exact Logic.I | eassumption | eexists; split; eassumption | cbn; eauto].
Ltac nil_ne := match goal with |- ?x = [] -> False => change (x <> []) end; nn.
Ltac rk := first [ solve [intros _; cbn; lia] | let H := fresh in intros H; exfalso; revert H; nil_ne ].
Ltac act :=
  first [ solve [intros _; left; reflexivity] | solve [intros _; right; reflexivity]
        | let H := fresh in intros H; exfalso; revert H; nil_ne ].

Tactic Notation "tcall" ident(a) ident(ts) ident(s) ident(HS) ident(HR) ident(Hne) ident(HG) :=
  wb; eapply W_call; [eassumption | try pre | try rk | try act | try reflexivity | ..];
  [.. | intros a ts s HS HR Hne HG; try specialize (Hne eq_refl); cbn [G] in HG; norm HR; wsimp ].

Tactic Notation "tcallb" ident(a) ident(ts) ident(s) ident(HS) ident(HR) ident(Hne) ident(HG) :=
  wb; eapply W_call_back; [eassumption | try pre | try rk | try act | try reflexivity | try reflexivity | ..];
  [.. | intros a ts s HS HR Hne HG; cbn [G] in HG; norm HR; wsimp ].

Ltac leq :=
  lazymatch goal with
  | |- ?a = ?b =>
      first [ reflexivity
            | is_ground a; is_ground b;
              repeat (progress (rewrite <- ?app_assoc, ?app_nil_r; cbn [app])); reflexivity ]
  end.
Ltac spn :=
  first
    [ solve [eapply Reach_span; [eassumption|nn]]
    | solve [symmetry; apply span_one]
    | reflexivity ].

Ltac okp := eexists; split; [left; eassumption|]; split; [intros _; try nn|cbn [G]].
Ltac fin := apply W_ret; okp.
Ltac kfin1 :=
  lazymatch goal with
  | |- der _ _ _ _ _ => eassumption
  | |- isp _ _ => eassumption
  | |- isk _ _ => eassumption
  | |- t_value _ = _ => eassumption
  | |- _ = span_of _ => spn
  | |- @eq (list token) _ _ => leq
  | |- _ => first [eassumption | reflexivity | exact Logic.I]
  end.
Ltac kfin := try kfin1.

Ltac mstart :=
  apply method_W; [intros; exact Logic.I|];
  let s0 := fresh "s0" in let HC := fresh "HC" in let Hm := fresh "Hm" in let HX := fresh "HX" in
  intros s0 (HC & Hm & HX); cbn [ctx_of] in Hm; cbn beta iota in HX;
  let HR := fresh "HR0" in pose proof (Reach_refl _ _ HC) as HR;
  cbn [body rank actx].

(** What an error at a token says. *)
Ltac tsays :=
  unfold Hoare.not_arrow, says; cbn;
  lazymatch goal with
  | |- True => exact Logic.I
  | |- _ => let H := fresh in intros H;
    first
      [ split; [exact H|intros ? [= <-]; congruence]
      | split; [exact H|intros ? E; discriminate E]
      | split; [exact H|split; intros ? ?; congruence]
      | match goal with Ev : t_value _ = VKeyword _ |- _ => rewrite Ev in H end;
        eexists; split; [exact H|split; [reflexivity|eauto]]
      | split; [reflexivity|]; eexists; split; [exact H|]; eauto ]
  end.
Ltac terr_tok := apply W_err; eapply err_tok; [apply Reach_Back; eassumption | | tsays | reflexivity];
  rewrite ?in_app_iff; cbn [In]; tauto.

Tactic Notation "tif" ident(E) :=
  lazymatch goal with |- W _ _ _ _ _ (if ?b then _ else _) _ _ => destruct b eqn:E; wsimp end.

Ltac ok0 := exists []; split; [left; eassumption|]; split; [discriminate|cbn [G]].
Ltac terr_begins L := apply W_err; eapply err_begins; [eassumption | eassumption | reflexivity | intros Hb; eapply L; try exact Hb; cbn [In]; tauto].

Lemma str_eqb_true a b : str_eqb a b = true -> a = b.
Proof. unfold str_eqb. destruct (list_eq_dec _ a b); congruence. Qed.
