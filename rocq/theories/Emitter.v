(** * Emitter: rendering a parse error (parser/src/error/emitter.rs).

    [emit file source e] is the text [ErrorEmitter::emit_error] writes, or
    [None] when it does not return (a panic, or see [emit_diagnostic]).
    Writing itself does not fail (the sink is a [Vec<u8>] or a terminal; errors
    of the sink are not modelled), and text written before a panic is dropped. *)

From Verif Require Import Base Tokens Lexer Ast Prog Numeral.
Local Open Scope string_scope.
Local Open Scope list_scope.

Definition newline : N := 10%N.
Definition tab : N := 9%N.
Definition space : N := 32%N.

(** ** Rust string operations *)

(** [str::split_at(k)] by byte offset; [None] when [k] is past the end or
    inside a character. *)
Fixpoint cut (k : nat) (s : str) : option (str * str) :=
  match k with
  | 0 => Some ([], s)
  | S _ =>
      match s with
      | [] => None
      | c :: s' =>
          if Nat.leb (len8 c) k then
            match cut (k - len8 c) s' with
            | Some (a, b) => Some (c :: a, b)
            | None => None
            end
          else None
      end
  end.

(** [&s[..b]], [&s[a..]] and [&s[a..b]]; [None] is the panic. *)
Definition slice_to (s : str) (b : nat) : option str := option_map fst (cut b s).
Definition slice_from (s : str) (a : nat) : option str := option_map snd (cut a s).
Definition slice (s : str) (a b : nat) : option str :=
  if Nat.leb a b then
    match slice_to s b with
    | Some x => slice_from x a
    | None => None
    end
  else None.

(** [str::find('\n')]: byte offset of the first newline. *)
Fixpoint find_newline (s : str) : option nat :=
  match s with
  | [] => None
  | c :: s' =>
      if N.eqb c newline then Some 0 else option_map (fun k => len8 c + k) (find_newline s')
  end.

(** [str::rfind('\n')]: byte offset of the last newline. *)
Fixpoint rfind_newline (s : str) : option nat :=
  match s with
  | [] => None
  | c :: s' =>
      match rfind_newline s' with
      | Some k => Some (len8 c + k)
      | None => if N.eqb c newline then Some 0 else None
      end
  end.

(** [str::matches(c).count()]. *)
Fixpoint count_matches (c : N) (s : str) : nat :=
  match s with
  | [] => 0
  | d :: s' => (if N.eqb d c then 1 else 0) + count_matches c s'
  end.

(** [str::replace('\t', "    ")]. *)
Definition replace_tabs (s : str) : str :=
  flat_map (fun c => if N.eqb c tab then [space; space; space; space] else [c]) s.

(** The format [{:f<w$}]: left aligned, filled with [f] up to [w] characters. *)
Definition pad_right (f : N) (w : nat) (s : str) : str := s ++ repeat f (w - length s).

(** ** Messages *)

(** parser/src/error/mod.rs:182-190 [expected_token_to_string]. *)
Definition expected_token_to_string (v : tvalue) : option str :=
  match v with
  | VKeyword k => Some (keyword_str k)
  | VIdentifier s => Some s
  | VPunct p => Some (punct_str p)
  | VLiteral _ => Some (chars "literal")
  | _ => None
  end.

Definition unwrap_or_default (o : option str) : str := match o with Some s => s | None => [] end.

(** A message with its interpolated argument: [{}] is replaced by [arg]. *)
Fixpoint interpolate (msg : string) (arg : str) : str :=
  match msg with
  | EmptyString => []
  | String a (String b r as r') =>
      if (Ascii.eqb a "{"%char && Ascii.eqb b "}"%char)%bool then arg ++ chars r
      else N_of_ascii a :: interpolate r' arg
  | String a r => N_of_ascii a :: interpolate r arg
  end.

(** lexer/src/error.rs:77-102 [Display for Error].  [debug] is the derived
    [Debug] text of a token, which is not modelled. *)
Definition display_lex_error (debug : token -> str) (e : lex_error) : str :=
  match le_kind e with
  | EKEndOfStream => chars "End of stream"
  | EKUnexpectedEndOfStream => chars "Unexpected end of stream"
  | EKInvalidOrUnexpectedToken t => chars "Invalid or unexpected token " ++ debug t
  | EKUnrecognizedCodePoint c => chars "Unknown code point " ++ show (N.to_nat c)
  | EKSyntaxError msg => chars "Syntax Error: " ++ chars msg
  end.

(** parser/src/error/mod.rs:137-166 [Display for Error]. *)
Definition display (debug : token -> str) (e : perr) : str :=
  match pe_kind e with
  | PEndOfStream => chars "Syntax error: Unexpected end of input"
  | PLexerError l => chars "Lexer error '" ++ display_lex_error debug l ++ chars "'"
  | PSyntaxError msg arg => chars "Syntax error: " ++ interpolate msg arg
  | PExpectedIdentifier v | PUnexpectedToken v _ =>
      match expected_token_to_string v with
      | Some s => chars "Syntax error: Unexpected token `" ++ s ++ chars "`"
      | None => chars "Syntax error: Unexpected token"
      end
  | PUnexpectedIdent i => chars "Syntax Error: Unexpected identifier `" ++ id_name i ++ chars "`"
  | PForbiddenIdentifier s => chars "Syntax error: Forbidden identifier `" ++ s ++ chars "`"
  | PArrowFunctionNotAllowed _ => chars "Syntax error: Arrow function not allowed here"
  | PInitializedNameNotAllowed => chars "Syntax error: Initializer not allowed here"
  end.

(** parser/src/error/emitter.rs:107-127 [get_kind_description]. *)
Definition get_kind_description (source : str) (e : perr) : option str :=
  match pe_kind e with
  | PForbiddenIdentifier k =>
      Some (chars "`" ++ k ++ chars "` is not allowed as an identifier in this context")
  | PUnexpectedToken _ None => Some (chars "Unexpected token")
  | PUnexpectedToken _ (Some expected) =>
      option_map (fun found =>
        chars "Unexpected token, found `" ++ found ++ chars "`, expected `"
        ++ unwrap_or_default (expected_token_to_string expected) ++ chars "`")
        (slice source (sp_start (pe_span e)) (sp_end (pe_span e)))
  | PExpectedIdentifier expected =>
      Some (chars "Unexpected token, found `" ++ unwrap_or_default (expected_token_to_string expected)
            ++ chars "`, expected identifier")
  | _ => Some []
  end.

(** ** The emitter *)

(** parser/src/error/emitter.rs:89-91 [get_line_number]. *)
Definition get_line_number (source : str) (sp : span) : option nat :=
  option_map (fun x => count_matches newline x + 1) (slice_to source (sp_end sp)).

(** parser/src/error/emitter.rs:93-105 [get_line_boundaries]. *)
Definition get_line_boundaries (source : str) (sp : span) : option span :=
  match slice_to source (sp_start sp), slice_from source (sp_end sp) with
  | Some x, Some y =>
      let s := match rfind_newline x with Some pos => pos + 1 | None => 0 end in
      let e := match find_newline y with Some pos => pos + sp_end sp | None => blen source end in
      Some (mk_span s e)
  | _, _ => None
  end.

(** parser/src/error/emitter.rs:49-87 [emit_diagnostic].  Offsets are
    translated with [Span::translate] (span.rs:21-26), which for offsets below
    [isize::MAX] is the subtraction.  A span that ends before it starts makes
    [err_span.end - err_span.start] overflow: a panic with overflow checks, and
    without them a row of about 2^64 marks that is never finished. *)
Definition emit_diagnostic (source : str) (e : perr) (label : str) (line_number : nat) (line_span : span)
  : option str :=
  let num := show line_number in
  let padding := length num + 1 in
  let es := sp_start (pe_span e) - sp_start line_span in
  if Nat.leb (sp_start (pe_span e)) (sp_end (pe_span e)) then
    let mark := sp_end (pe_span e) - sp_start (pe_span e) in
    match slice source (sp_start line_span) (sp_end line_span) with
    | Some line =>
        match slice_to line es with
        | Some before =>
            let tabs := count_matches tab before in
            Some (
              (* writeln!("{:<pad$}|", " ") *)
              pad_right space padding [space] ++ chars "|" ++ [newline]
              (* writeln!("{:<pad$}| {}", line_number_str, line) *)
              ++ pad_right space padding num ++ chars "| " ++ replace_tabs line ++ [newline]
              (* writeln!("{:<pad$}| {:<off$}{:^<mark$} {}", "", "", "^", label) *)
              ++ pad_right space padding [] ++ chars "| "
              ++ pad_right space (es + tabs * 3) []
              ++ pad_right (ch "^") mark [ch "^"] ++ chars " " ++ label ++ [newline])
        | None => None
        end
    | None => None
    end
  else None.

(** parser/src/error/emitter.rs:22-47 [emit_error]. *)
Definition emit (debug : token -> str) (file source : str) (e : perr) : option str :=
  let sp := pe_span e in
  match get_line_boundaries source sp with
  | None => None
  | Some line_span =>
      let col := sp_start sp - sp_start line_span + 1 in
      match get_line_number source sp with
      | None => None
      | Some line_number =>
          let head := display debug e ++ [newline] in
          let place :=
            if (Nat.eqb (sp_start sp) 0 && Nat.eqb (sp_end sp) 0)%bool
            then chars " --> " ++ file ++ [newline]
            else chars " --> " ++ file ++ chars ":" ++ show line_number ++ chars ":" ++ show col ++ [newline] in
          match pe_kind e with
          | PEndOfStream => Some (head ++ place)
          | _ =>
              match get_kind_description source e with
              | None => None
              | Some label =>
                  option_map (fun d => head ++ place ++ d)
                    (emit_diagnostic source e label line_number line_span)
              end
          end
      end
  end.

(** ** Facts *)

Lemma cut_app a : forall s, cut (blen a) (a ++ s) = Some (a, s).
Proof.
  induction a as [|c a IH]; intros s; [now destruct s|]. simpl.
  pose proof (len8_pos c) as L. destruct (len8 c + blen a) as [|k] eqn:E; [lia|]. rewrite <- E.
  replace (Nat.leb (len8 c) (len8 c + blen a)) with true by (symmetry; apply Nat.leb_le; lia).
  replace (len8 c + blen a - len8 c) with (blen a) by lia. now rewrite IH.
Qed.

Lemma cut_spec s : forall k a b, cut k s = Some (a, b) -> s = a ++ b /\ blen a = k.
Proof.
  induction s as [|c s IH]; intros k a b H; destruct k as [|k].
  - simpl in H. injection H as <- <-. now split.
  - discriminate.
  - simpl in H. injection H as <- <-. now split.
  - cbn [cut] in H. destruct (Nat.leb_spec (len8 c) (S k)) as [L|]; [|discriminate].
    destruct (cut (S k - len8 c) s) as [[x y]|] eqn:E; [|discriminate].
    injection H as <- <-. apply IH in E. destruct E as [-> E]. split; [reflexivity|]. simpl. lia.
Qed.

Lemma cut_ascii s : ascii_str s = true -> forall k, k <= blen s -> exists a b, cut k s = Some (a, b).
Proof.
  induction s as [|c s IH]; intros A k H.
  - simpl in H. assert (k = 0) by lia. subst k. simpl. eauto.
  - simpl in A. apply andb_true_iff in A. destruct A as [Ac As].
    destruct k as [|k]; [simpl; eauto|]. cbn [cut]. simpl in H. rewrite (len8_ascii _ Ac) in *.
    destruct (IH As k) as (a & b & E); [lia|]. simpl. rewrite Nat.sub_0_r, E. eauto.
Qed.

Lemma find_newline_none s : ~ In newline s -> find_newline s = None.
Proof.
  induction s as [|c s IH]; intros H; [reflexivity|]. simpl in *.
  destruct (N.eqb_spec c newline); [exfalso; auto|]. now rewrite IH by tauto.
Qed.

Lemma find_newline_app a s : ~ In newline a -> find_newline (a ++ newline :: s) = Some (blen a).
Proof.
  induction a as [|c a IH]; intros H; [reflexivity|]. simpl in *.
  destruct (N.eqb_spec c newline); [exfalso; auto|]. now rewrite IH by tauto.
Qed.

Lemma rfind_newline_none s : ~ In newline s -> rfind_newline s = None.
Proof.
  induction s as [|c s IH]; intros H; [reflexivity|]. simpl in *. rewrite IH by tauto.
  destruct (N.eqb_spec c newline); [exfalso; auto|reflexivity].
Qed.

Lemma rfind_newline_app a s : ~ In newline s -> rfind_newline (a ++ newline :: s) = Some (blen a).
Proof.
  intros H. induction a as [|c a IH]; simpl; [|now rewrite IH].
  now rewrite rfind_newline_none.
Qed.

Lemma count_matches_occ c s : count_matches c s = count_occ N.eq_dec s c.
Proof.
  induction s as [|d s IH]; [reflexivity|]. simpl. rewrite IH.
  destruct (N.eqb_spec d c), (N.eq_dec d c); try contradiction; reflexivity.
Qed.

Lemma replace_tabs_app a b : replace_tabs (a ++ b) = replace_tabs a ++ replace_tabs b.
Proof. apply flat_map_app. Qed.

Lemma replace_tabs_length s : length (replace_tabs s) = length s + 3 * count_matches tab s.
Proof.
  induction s as [|c s IH]; [reflexivity|].
  change (replace_tabs (c :: s)) with ((if N.eqb c tab then [space; space; space; space] else [c]) ++ replace_tabs s).
  rewrite app_length, IH. simpl. destruct (N.eqb c tab); simpl; lia.
Qed.

Lemma slice_app a b c : slice (a ++ b ++ c) (blen a) (blen a + blen b) = Some b.
Proof.
  unfold slice, slice_to, slice_from. replace (Nat.leb _ _) with true by (symmetry; apply Nat.leb_le; lia).
  rewrite app_assoc, <- blen_app, cut_app. simpl. now rewrite cut_app.
Qed.
