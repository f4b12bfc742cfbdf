(** * PropLayout: how a program is laid out does not matter (C40). *)

From Verif Require Import Base Tokens Lexer LexSpec LexerFacts LexComplete6 Ast Parser ParseRuns Source AstSpec Layout Bare Written
  Teq Codegen PropCodegen Unparse GenBare PropLexer PropParser PropComplete PropRound.
Local Open Scope string_scope.
Local Open Scope list_scope.

(** What layout leaves: the value of every token and whether it is first on its line. *)
Definition looks (t : token) : tvalue * bool := (t_value t, t_fol t).

Lemma looks_same ts : forall us, map looks ts = map looks us -> Forall2 teq ts us.
Proof.
  induction ts as [|t ts IH]; intros [|u us] E; try discriminate E; constructor; injection E; intros; auto.
  split; congruence.
Qed.

Section Layouts.
Context {PF : Platform}.

(** Two sources with the same tokens, broken into lines at the same places: if
    one of them is a program that [Written.v] allows, both are accepted, and
    their trees differ in nothing but positions. *)
Theorem C40_program_partial m D E ts us a :
  ascii_str D = true -> ascii_str E = true ->
  source_tokens D (start_state m) [] true ts -> source_tokens E (start_state m) [] true us ->
  map looks ts = map looks us -> G CProgram (ctx_default m) ts (N a) ->
  exists x y, accepts TProgram m D x /\ accepts TProgram m E y /\ bare x = bare y.
Proof.
  intros HD HE Hs Ht E0 H. apply looks_same in E0.
  destruct (C41_program_partial m D ts a HD Hs H) as (x & Hx & Ex).
  destruct (C41_program_partial m E us a HE Ht (G_teq _ _ _ _ H CProgram us eq_refl E0)) as (y & Hy & Ey).
  exists x, y. split; [|split]; congruence.
Qed.

(** The same for [parse::<Expr>] and [parse::<Stmt>]. *)
Theorem C40_expression_partial m D E ts us a :
  ascii_str D = true -> ascii_str E = true ->
  source_tokens D (start_state m) [] true ts -> source_tokens E (start_state m) [] true us ->
  map looks ts = map looks us -> G (CE 0) (with_in true (ctx_default m)) ts (N a) ->
  exists x y, accepts TExpr m D x /\ accepts TExpr m E y /\ bare x = bare y.
Proof.
  intros HD HE Hs Ht E0 H. apply looks_same in E0.
  destruct (C41_expression_partial m D ts a HD Hs H) as (x & Hx & Ex).
  destruct (C41_expression_partial m E us a HE Ht (G_teq _ _ _ _ H (CE 0) us eq_refl E0)) as (y & Hy & Ey).
  exists x, y. split; [|split]; congruence.
Qed.
Theorem C40_statement_partial m D E ts us a :
  ascii_str D = true -> ascii_str E = true ->
  source_tokens D (start_state m) [] true ts -> source_tokens E (start_state m) [] true us ->
  map looks ts = map looks us -> G (CTop None) (ctx_default m) ts (N a) ->
  exists x y, accepts TStmt m D x /\ accepts TStmt m E y /\ bare x = bare y.
Proof.
  intros HD HE Hs Ht E0 H. apply looks_same in E0.
  destruct (C41_statement_partial m D ts a HD Hs H) as (x & Hx & Ex).
  destruct (C41_statement_partial m E us a HE Ht (G_teq _ _ _ _ H (CTop None) us Logic.I E0)) as (y & Hy & Ey).
  exists x, y. split; [|split]; congruence.
Qed.

(** So they are formatted alike. *)
Theorem C40_generated_partial minified m D E ts us a :
  ascii_str D = true -> ascii_str E = true ->
  source_tokens D (start_state m) [] true ts -> source_tokens E (start_state m) [] true us ->
  map looks ts = map looks us -> G CProgram (ctx_default m) ts (N a) ->
  exists x y, accepts TProgram m D x /\ accepts TProgram m E y /\
    generate minified RProgram x = generate minified RProgram y.
Proof.
  intros HD HE Hs Ht E0 H. destruct (C40_program_partial m D E ts us a HD HE Hs Ht E0 H) as (x & y & Hx & Hy & Exy).
  exists x, y. split; [|split]; auto. now apply generate_bare.
Qed.

End Layouts.

(** ** An instance: [written] with other blanks and comments *)

Definition spread : str := chars
  "function  f ( a,b )   { if(a<b)return a;else{return b*(a+1);}}/* g */var g=(x,y)=>f(x,[1,...y]); class C extends D{static m(){return super . m;}}g(2) . h=! c?{k:'v'}:d // end".

Example C40_instance :
  @source_tokens ap written (start_state false) [] true (toks written) /\
  @source_tokens ap spread (start_state false) [] true (toks spread) /\
  map looks (toks written) = map looks (toks spread) /\
  exists x y, @accepts ap TProgram false written x /\ @accepts ap TProgram false spread y /\ x <> y /\ bare x = bare y.
Proof.
  assert (H1 : @source_tokens ap written (start_state false) [] true (toks written)).
  { apply tokens_source, toks_from. vm_compute. reflexivity. }
  assert (H2 : @source_tokens ap spread (start_state false) [] true (toks spread)).
  { apply tokens_source, toks_from. vm_compute. reflexivity. }
  assert (H3 : map looks (toks written) = map looks (toks spread)) by (vm_compute; reflexivity).
  split; [exact H1|split; [exact H2|split; [exact H3|]]]. destruct written_tree as [a H].
  destruct (@C40_program_partial ap false written spread (toks written) (toks spread) a) as (x & y & Hx & Hy & E);
    [vm_compute; reflexivity|vm_compute; reflexivity|exact H1|exact H2|exact H3|exact H|].
  exists x, y. split; [exact Hx|split; [exact Hy|split; [|exact E]]]. intros ->.
  destruct (parsed TProgram false written) as [p|] eqn:Ep; [|vm_compute in Ep; discriminate].
  destruct (parsed TProgram false spread) as [q|] eqn:Eq; [|vm_compute in Eq; discriminate].
  assert (p = y) as ->. { apply parsed_accepts in Ep. destruct Ep as (f & s & Ef), Hx as (g & s' & Eg).
    pose proof (@parse_fuel_det ap f g TProgram written false) as X. rewrite Ef, Eg in X.
    specialize (X ltac:(discriminate) ltac:(discriminate)). congruence. }
  assert (q = y) as ->. { apply parsed_accepts in Eq. destruct Eq as (f & s & Ef), Hy as (g & s' & Eg).
    pose proof (@parse_fuel_det ap f g TProgram spread false) as X. rewrite Ef, Eg in X.
    specialize (X ltac:(discriminate) ltac:(discriminate)). congruence. }
  rewrite <- Eq in Ep. apply (f_equal (option_map (fun n => Nat.eqb (sp_end (node_span n)) (length written)))) in Ep.
  vm_compute in Ep. discriminate Ep.
Qed.

(** Line breaks do matter, for the tree .. *)
Theorem C40_line_breaks :
  exists a b, @accepts ap TProgram false (chars "function f() { return a }") a /\
    @accepts ap TProgram false (chars "function f() { return" ++ [10%N] ++ chars "a }") b /\ bare a <> bare b.
Proof.
  destruct (parsed TProgram false (chars "function f() { return a }")) as [a|] eqn:Ea; [|vm_compute in Ea; discriminate Ea].
  destruct (parsed TProgram false (chars "function f() { return" ++ [10%N] ++ chars "a }")) as [b|] eqn:Eb; [|vm_compute in Eb; discriminate Eb].
  exists a, b. split; [|split]; try now apply parsed_accepts.
  vm_compute in Ea, Eb. injection Ea as <-. injection Eb as <-. vm_compute. discriminate.
Qed.
(** .. and for whether there is one. *)
Theorem C40_line_breaks_accepted :
  (exists a, @accepts ap TProgram false (chars "a" ++ [10%N] ++ chars "b") a) /\
  (exists e, @rejects ap TProgram false (chars "a b") e).
Proof. split; [apply some_accepts|apply some_rejects]; vm_compute; reflexivity. Qed.

Definition layout_theorems :=
  (@C40_program_partial, @C40_expression_partial, @C40_statement_partial, @C40_generated_partial, C40_instance,
   C40_line_breaks, C40_line_breaks_accepted).
Print Assumptions layout_theorems.
