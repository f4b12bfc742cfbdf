(** * PropCli: the command line program (C42). *)

From Verif Require Import Base Tokens Lexer LexSpec LexProps Source Ast Parser ParseRuns Bare Written Codegen PropCodegen
  Unparse Print Emitter Cli PropLexer PropParser PropEmitter PropComplete PropRound.
Local Open Scope string_scope.
Local Open Scope list_scope.

(** ** Specification *)

(** The file is taken as a module: its name ends in [.mjs] or [.module.js]. *)
Definition module_file (name : str) : Prop :=
  (exists stem, name = stem ++ chars ".mjs") \/ (exists stem, name = stem ++ chars ".module.js").

Lemma ends_with_spec s suf : ends_with s suf = true <-> exists stem, s = stem ++ suf.
Proof.
  unfold ends_with. rewrite andb_true_iff, Nat.leb_le, str_eqb_eq. split.
  - intros [_ E]. exists (firstn (length s - length suf) s). rewrite <- E at 2. symmetry. apply firstn_skipn.
  - intros [stem ->]. rewrite app_length. split; [lia|].
    replace (length stem + length suf - length suf) with (length stem + 0) by lia.
    now rewrite skipn_app, Nat.add_0_r, skipn_all, Nat.sub_diag.
Qed.

Section Cli.
Context {PF : Platform}.
Variable debug_token : token -> str.
Variable debug_tree : node -> str.
Notation main := (main debug_token debug_tree).

(** Which grammar a file is parsed with depends on its name only. *)
Theorem C42_module_files name : is_module name = true <-> module_file name.
Proof. unfold is_module, module_file. rewrite orb_true_iff, !ends_with_spec. reflexivity. Qed.

Lemma main_cases args D :
  let m := is_module (a_file_name args) in
  (exists a, accepts TProgram m D a /\ main args (Some D) =
     if a_check args then Exits 0 (println (chars "Parsed successfully!")) []
     else match a_format args with
          | Some f => match generate (format_minified f) RProgram a with
                      | Some o => Exits 0 (println o) [] | None => Crashes end
          | None => Exits 0 (println (debug_tree a)) [] end) \/
  (exists e, rejects TProgram m D e /\ main args (Some D) =
     match emit debug_token (a_file_name args) D e with Some t => Exits 1 [] t | None => Crashes end) \/
  (panics TProgram m D /\ main args (Some D) = Crashes).
Proof.
  intros m. unfold Cli.main. fold m. destruct (C14_terminates TProgram m D) as (r & Hr & H).
  specialize (H _ (le_n _)). rewrite H. destruct r as [[a|e] s| |]; [left|right; left|right; right|congruence].
  - exists a. split; [exists (40 * blen D + 40), s; exact H|reflexivity].
  - exists e. split; [exists (40 * blen D + 40), s; exact H|reflexivity].
  - split; [exists (40 * blen D + 40); exact H|reflexivity].
Qed.

(** The exit code is 0 exactly if the parser accepts the file. *)
Theorem C42_success args D :
  (exists out err, main args (Some D) = Exits 0 out err) <->
  exists a, accepts TProgram (is_module (a_file_name args)) D a.
Proof.
  destruct (C14_outcome TProgram (is_module (a_file_name args)) D) as (_ & _ & _ & H1 & H2 & _).
  destruct (main_cases args D) as [(a & Ha & E)|[(e & He & E)|[Hp E]]]; rewrite E.
  - split; [eauto|]. intros _. destruct (a_check args); [eauto|]. destruct (a_format args) as [f|]; [|eauto].
    destruct (C38_generator_total (format_minified f) RProgram a) as [o Eo]. rewrite Eo. eauto.
  - split.
    + destruct (emit _ _ _ _); intros (o & r & X); discriminate X.
    + intros (a & Ha). destruct (H1 _ _ Ha He).
  - split; [intros (o & r & X); discriminate X|]. intros (a & Ha). destruct (H2 _ Ha Hp).
Qed.

(** What it writes then: [--check] wins over [--format]; [--format] writes the
    generated code, minified for the value [minified] and not for any other;
    nothing is written to the standard error. *)
Theorem C42_output args D a : accepts TProgram (is_module (a_file_name args)) D a ->
  exists out, main args (Some D) = Exits 0 (out ++ [10%N]) [] /\
    (a_check args = true -> out = chars "Parsed successfully!") /\
    (a_check args = false -> a_format args = None -> out = debug_tree a) /\
    (a_check args = false -> forall f, a_format args = Some f ->
       exists minified, (minified = true <-> f = chars "minified") /\ generate minified RProgram a = Some out).
Proof.
  intros Ha. destruct (C14_outcome TProgram (is_module (a_file_name args)) D) as (_ & Hu & _ & H1 & H2 & _).
  destruct (main_cases args D) as [(b & Hb & E)|[(e & He & _)|[Hp _]]];
    [|destruct (H1 _ _ Ha He)|destruct (H2 _ Ha Hp)].
  assert (b = a) by (apply Hu; auto). subst b. rewrite E. unfold println.
  destruct (a_check args).
  - eexists. split; [reflexivity|]. repeat split; discriminate.
  - destruct (a_format args) as [f|].
    + destruct (C38_generator_total (format_minified f) RProgram a) as [o Eo]. rewrite Eo.
      exists o. split; [reflexivity|]. split; [discriminate|]. split; [discriminate|].
      intros _ f' [= <-]. exists (format_minified f). split; auto. apply str_eqb_eq.
    + exists (debug_tree a). split; [reflexivity|]. split; [discriminate|]. split; [reflexivity|]. discriminate.
Qed.

(** The exit code is 1 exactly if the parser rejects the file and the error can
    be rendered; then the report is on the standard error, and the standard
    output is empty. *)
Theorem C42_failure args D out err :
  main args (Some D) = Exits 1 out err <->
  out = [] /\ exists e, rejects TProgram (is_module (a_file_name args)) D e /\
    emit debug_token (a_file_name args) D e = Some err.
Proof.
  destruct (C14_outcome TProgram (is_module (a_file_name args)) D) as (_ & _ & Hu & H1 & _ & H3).
  destruct (main_cases args D) as [(a & Ha & E)|[(e & He & E)|[Hp E]]]; rewrite E.
  - split.
    + destruct (a_check args); [discriminate|]. destruct (a_format args) as [f|]; [|discriminate].
      destruct (generate _ _ _); discriminate.
    + intros (_ & e & He & _). destruct (H1 _ _ Ha He).
  - split.
    + destruct (emit _ _ _ e) as [t|] eqn:Et; [|discriminate]. intros [= <- <-]. eauto.
    + intros (-> & e' & He' & Et). assert (e' = e) by (apply Hu; auto). subst e'. now rewrite Et.
  - split; [discriminate|]. intros (_ & e & He & _). destruct (H3 _ He Hp).
Qed.

(** No other exit code. *)
Theorem C42_codes args contents code out err : main args contents = Exits code out err -> code = 0 \/ code = 1.
Proof.
  destruct contents as [D|]; [|discriminate].
  destruct (main_cases args D) as [(a & Ha & E)|[(e & He & E)|[Hp E]]]; rewrite E.
  - destruct (a_check args); [intros [= <- _ _]; auto|]. destruct (a_format args) as [f|]; [|intros [= <- _ _]; auto].
    destruct (generate _ _ _); [intros [= <- _ _]; auto|discriminate].
  - destruct (emit _ _ _ _); [intros [= <- _ _]; auto|discriminate].
  - discriminate.
Qed.

(** Exactly when it panics instead: the file cannot be read, or parsing its
    contents panics, or the report of the error panics.  In particular writing
    code or a tree never does. *)
Theorem C42_crashes args contents :
  main args contents = Crashes <->
  contents = None \/
  exists D, contents = Some D /\
    (panics TProgram (is_module (a_file_name args)) D \/
     exists e, rejects TProgram (is_module (a_file_name args)) D e /\
       emit debug_token (a_file_name args) D e = None).
Proof.
  destruct contents as [D|]; [|split; [now left|reflexivity]].
  destruct (C14_outcome TProgram (is_module (a_file_name args)) D) as (_ & _ & Hu & H1 & H2 & H3).
  destruct (main_cases args D) as [(a & Ha & E)|[(e & He & E)|[Hp E]]]; rewrite E.
  - split.
    + destruct (a_check args); [discriminate|]. destruct (a_format args) as [f|]; [|discriminate].
      destruct (C38_generator_total (format_minified f) RProgram a) as [o Eo]. rewrite Eo. discriminate.
    + intros [X|(D' & [= <-] & [Hp|(e & He & _)])]; [discriminate X|destruct (H2 _ Ha Hp)|destruct (H1 _ _ Ha He)].
  - split.
    + destruct (emit _ _ _ e) as [t|] eqn:Et; [discriminate|]. intros _. right. eauto 7.
    + intros [X|(D' & [= <-] & [Hp|(e' & He' & Et)])]; [discriminate X|destruct (H3 _ He Hp)|].
      assert (e' = e) by (apply Hu; auto). subst e'. now rewrite Et.
  - split; [|reflexivity]. intros _. right. eauto 7.
Qed.

(** A script in ASCII is never answered by a panic, in a build without debug
    assertions.  (Missing: modules, other characters, debug builds; C15 and C30
    say where these do panic.) *)
Theorem C42_no_crash_partial args D :
  is_module (a_file_name args) = false -> ascii_str D = true -> debug_assertions = false ->
  main args (Some D) <> Crashes.
Proof.
  intros Hm Ha Hd. destruct (main_cases args D) as [(a & Hacc & E)|[(e & He & E)|[Hp E]]]; rewrite E.
  - destruct (a_check args); [discriminate|]. destruct (a_format args) as [f|]; [|discriminate].
    destruct (C38_generator_total (format_minified f) RProgram a) as [o Eo]. rewrite Eo. discriminate.
  - rewrite Hm in He. destruct (C30_render_scripts debug_token (a_file_name args) TProgram D e Ha He) as [t Et].
    rewrite Et. discriminate.
  - exfalso. revert Hp. rewrite Hm. apply C15_no_panic_partial; auto; congruence.
Qed.

(** Formatting a formatted file changes nothing: the output, saved under the
    same name and formatted again, is the output.  (Missing: as for C34.) *)
Theorem C42_format_stable_partial args format D b :
  let md := is_module (a_file_name args) in
  let minified := format_minified format in
  a_check args = false -> a_format args = Some format ->
  ascii_str D = true -> plainly_stands_for md D b ->
  printable minified b -> tokens_apart minified b ->
  exists out, main args (Some D) = Exits 0 out [] /\ main args (Some out) = Exits 0 out [].
Proof.
  intros md minified Hc Hf Ha HS Hp Hap.
  assert (HS' := HS). destruct HS' as (ts & HT & HU & HG).
  destruct (C41_program_partial md D ts b Ha HT HG) as (a & Hacc & Eb). subst b.
  assert (Hgen : forall D' a', accepts TProgram md D' a' ->
    exists o, generate minified RProgram a' = Some o /\ main args (Some D') = Exits 0 (println o) []).
  { intros D' a' Ha'. destruct (C42_output args D' a' Ha') as (o & E & _ & _ & H).
    destruct (H Hc _ Hf) as (mn & Hmn & Eg). exists o. split; [|exact E].
    replace minified with mn; [exact Eg|]. unfold minified, format_minified.
    destruct mn, (str_eqb format (chars "minified")) eqn:Es; auto.
    - destruct Hmn as [Hmn _]. rewrite (Hmn eq_refl) in Es. vm_compute in Es. discriminate.
    - apply str_eqb_eq in Es. destruct Hmn as [_ Hmn]. now rewrite (Hmn Es). }
  destruct (Hgen D a Hacc) as (o & Eo & Em). exists (println o). split; auto.
  assert (Hpl : Forall (fun t => plain (t_value t)) ts).
  { apply (tokens_plain D (start_state md) [] true ts); auto. }
  destruct (C34_followed_partial minified md ts a o [10%N] HG Hpl Hp Hap Eo) as (a' & Hacc' & Eb').
  { constructor; auto. }
  destruct (Hgen (println o) a' Hacc') as (o' & Eo' & Em').
  rewrite (generate_bare _ _ _ _ Eb'), Eo in Eo'. injection Eo' as <-. exact Em'.
Qed.

End Cli.

(** ** Instances and counterexamples *)

Definition no_tree (n : node) : str := chars "Ok(..)".
Definition cli (name source : string) (check : bool) (format : option string) : effect :=
  @main ap no_debug no_tree (mk_arguments check (chars name) (option_map chars format)) (Some (chars source)).

Example C42_instance_format :
  cli "a.js" "var  a = 1 ;" false (Some "minified") = Exits 0 (chars "var a=1" ++ [10%N]) [] /\
  cli "a.js" "var a=1" false (Some "minified") = Exits 0 (chars "var a=1" ++ [10%N]) [] /\
  cli "a.js" "var a" true (Some "minified") = Exits 0 (chars "Parsed successfully!" ++ [10%N]) [].
Proof. repeat split; vm_compute; reflexivity. Qed.

Example C42_instance_failure :
  cli "a.js" "if in" false None
  = Exits 1 [] (lines
      ["Syntax error: Unexpected token `in`";
       " --> a.js:1:4";
       "  |";
       "1 | if in";
       "  |    ^^ Unexpected token, found `in`, expected `(`"]).
Proof. vm_compute. reflexivity. Qed.

(** The same source, under the name of a script and of a module. *)
Example C42_instance_module :
  (exists err, cli "a.js" "export default 1" true None = Exits 1 [] err) /\
  cli "a.mjs" "export default 1" true None = Exits 0 (chars "Parsed successfully!" ++ [10%N]) [] /\
  cli "a.module.js" "export default 1" true None = Exits 0 (chars "Parsed successfully!" ++ [10%N]) [].
Proof. split; [eexists|split]; vm_compute; reflexivity. Qed.

(** The hypotheses of C42_format_stable_partial hold of [written]. *)
Example C42_instance_stable : forall minified : bool, exists out,
  let args := mk_arguments false (chars "a.js") (Some (if minified then chars "minified" else chars "pretty")) in
  @main ap no_debug no_tree args (Some written) = Exits 0 out [] /\
  @main ap no_debug no_tree args (Some out) = Exits 0 out [].
Proof.
  intros minified. destruct (C34_instance minified) as (a & b & text & HA & HS & HP & HT & _).
  set (args := mk_arguments false (chars "a.js") (Some (if minified then chars "minified" else chars "pretty"))).
  apply (@C42_format_stable_partial ap no_debug no_tree args (if minified then chars "minified" else chars "pretty") written b);
    auto; destruct minified; exact HP || exact HT.
Qed.

(** Modules may be answered by a panic: of the parser, and of the emitter. *)
Theorem C42_no_crash_refuted :
  cli "a.mjs" "import a from 5" false None = Crashes /\
  cli "a.mjs" "export let 5" false None = Crashes.
Proof. split; vm_compute; reflexivity. Qed.

(** Formatting may write code that is not accepted any more. *)
Theorem C42_format_refuted :
  cli "a.js" "- -a" false (Some "pretty") = Exits 0 (chars "--a;" ++ [10; 10]%N) [] /\
  cli "a.js" "- -5" false (Some "pretty") = Exits 0 (chars "--5;" ++ [10; 10]%N) [] /\
  exists err, cli "a.js" "--5;" false (Some "pretty") = Exits 1 [] err.
Proof. split; [|split; [|eexists]]; vm_compute; reflexivity. Qed.

Definition cli_theorems :=
  (C42_module_files, @C42_success, @C42_output, @C42_failure, @C42_codes, @C42_crashes, @C42_no_crash_partial,
   @C42_format_stable_partial, C42_instance_format, C42_instance_failure, C42_instance_module,
   C42_instance_stable, C42_no_crash_refuted, C42_format_refuted).
Print Assumptions cli_theorems.
