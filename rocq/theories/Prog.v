(** * Prog: parser state, parser errors and the language parser programs are written in.

    Every method of [Parser] (parser/src/*.rs) is a value of [prog]: a tree of
    reader operations ([op]), calls to other parser methods ([Call], named by
    [nt]) and returns.  [Parser.v] gives one [nt] constructor per recursive
    method (and one per loop of such a method, whose arguments are the loop's
    local variables).  [run] executes a method on a state; its [fuel] bounds
    the depth of calls, and running out of it is the distinct outcome [OFuel]
    (excluded by the termination theorem in [PropParser.v]). *)

From Verif Require Import Base Tokens PeekReader CharReader Lexer Ast.
Local Open Scope list_scope.

(** ** Errors (parser/src/error/mod.rs) *)

(** parser/src/error/mod.rs:116-135: [enum ErrorKind].  A [SyntaxError]
    message is a constant text plus, for the duplicate-parameter message only,
    the interpolated name. *)
Inductive perr_kind : Set :=
| PEndOfStream
| PLexerError (e : lex_error)
| PSyntaxError (msg : string) (arg : str)
| PExpectedIdentifier (v : tvalue)
| PUnexpectedToken (v : tvalue) (expected : option tvalue)
| PUnexpectedIdent (i : ident)
| PForbiddenIdentifier (s : str)
| PArrowFunctionNotAllowed (e : node)
| PInitializedNameNotAllowed.

(** parser/src/error/mod.rs:16-20: [struct Error]. *)
Record perr := mk_perr { pe_kind : perr_kind; pe_span : span }.

(** parser/src/error/mod.rs:29-44: [lexer_error] (the [From<LexerError>] of [?]). *)
Definition lexer_error (e : lex_error) : perr :=
  match le_kind e with
  | EKEndOfStream => mk_perr PEndOfStream span_empty
  | EKSyntaxError msg => mk_perr (PSyntaxError msg []) (le_span e)
  | _ => mk_perr (PLexerError e) (le_span e)
  end.

(** parser/src/error/mod.rs:46-51. *)
Definition syntax_error (msg : string) (sp : span) : perr := mk_perr (PSyntaxError msg []) sp.
(** parser/src/error/mod.rs:53-59. *)
Definition unexpected_identifier (i : ident) : perr := mk_perr (PUnexpectedIdent i) (id_span i).
(** parser/src/error/mod.rs:61-67. *)
Definition unexpected_token (t : token) : perr :=
  mk_perr (PUnexpectedToken (t_value t) None) (t_span t).
(** parser/src/error/mod.rs:69-75. *)
Definition expected_other_token (t : token) (expected : tvalue) : perr :=
  mk_perr (PUnexpectedToken (t_value t) (Some expected)) (t_span t).
(** parser/src/error/mod.rs:77-83. *)
Definition expected_ident (t : token) : perr := mk_perr (PExpectedIdentifier (t_value t)) (t_span t).
(** parser/src/error/mod.rs:85-90. *)
Definition forbidden_identifier (s : str) (sp : span) : perr := mk_perr (PForbiddenIdentifier s) sp.
(** parser/src/error/mod.rs:92-97. *)
Definition arrow_function_not_allowed (e : node) : perr :=
  mk_perr (PArrowFunctionNotAllowed e) (node_span e).
(** parser/src/error/mod.rs:99-104. *)
Definition initialized_name_not_allowed (sp : span) : perr := mk_perr PInitializedNameNotAllowed sp.

(** ** State *)

(** The parser's reader (parser/src/lib.rs:217-224) and a ghost log of the
    tokens consumed so far.  No program can read the log; it exists so that
    theorems can speak about the tokens a parse consumed. *)
Record pst := mk_pst { ps_rd : peek_reader lexer token lfail; ps_log : list token }.

Definition rtoken := result token lex_error.

(** The value of [reader.current()] / [reader.peek()]; the abort outcomes
    never get stored ([guard] below). *)
Definition strip (r : result (nat * token) lfail) : rtoken :=
  match r with
  | Ok (_, t) => Ok t
  | Err (LFail e) => Err e
  | Err _ => Err end_of_stream
  end.

Definition cur (s : pst) : rtoken := strip (pr_current (ps_rd s)).
Definition nxt (s : pst) : rtoken := strip (pr_next (ps_rd s)).
Definition pos (s : pst) : nat := pr_position (ps_rd s).
Definition log (s : pst) : list token := ps_log s.

(** Reader operations. *)
Inductive op : Set -> Type :=
| OCurrent : op rtoken                      (* self.reader.current() *)
| OPeek : op rtoken                         (* self.reader.peek() *)
| OPosition : op nat                        (* self.reader.position() *)
| OConsume : op rtoken                      (* self.reader.consume() *)
| ORewind (t : token) : op unit             (* self.reader.rewind_to(&t) *)
| OReread (st : lexer_state) : op unit.     (* self.reader.reread_with_state(st) *)

Inductive sres (B : Type) : Type :=
| SDone (b : B) (s : pst)
| SPanic
| SFuel.
Arguments SDone {B} b s.
Arguments SPanic {B}.
Arguments SFuel {B}.

(** A panic (or the model's fuel running out) inside the lexer aborts the
    operation that called it. *)
Definition aborts (r : result (nat * token) lfail) : option lfail :=
  match r with
  | Err LPanic => Some LPanic
  | Err LNoFuel => Some LNoFuel
  | _ => None
  end.
Definition guard {B} (rd : peek_reader lexer token lfail) (ok : sres B) : sres B :=
  match aborts (pr_current rd), aborts (pr_next rd) with
  | None, None => ok
  | Some LPanic, _ => SPanic
  | None, Some LPanic => SPanic
  | _, _ => SFuel
  end.

(** The ghost log after rewinding to [t]: the tokens that start before [t]. *)
Fixpoint log_before (p : nat) (l : list token) : list token :=
  match l with
  | [] => []
  | t :: l' => if Nat.ltb (tstart t) p then t :: log_before p l' else []
  end.

Section WithPlatform.
Context {PF : Platform}.

Definition step {B : Set} (o : op B) (s : pst) : sres B :=
  match o in op B return sres B with
  | OCurrent => SDone (cur s) s
  | OPeek => SDone (nxt s) s
  | OPosition => SDone (pos s) s
  | OConsume =>
    let '(r, rd) := pr_consume lexer_next (ps_rd s) in
    guard rd
      (SDone (cur s)
         (mk_pst rd (ps_log s ++ match cur s with Ok t => [t] | Err _ => [] end)))
  | ORewind t =>
    match pr_rewind_to lexer_next lexer_rewind_before (ps_rd s) t with
    | None => SPanic
    | Some rd => guard rd (SDone tt (mk_pst rd (log_before (tstart t) (ps_log s))))
    end
  | OReread st =>
    match pr_reread_with_state lexer_next lexer_rewind_before lexer_read_with_state
            (ps_rd s) st with
    | None => SPanic
    | Some rd => guard rd (SDone tt (mk_pst rd (ps_log s)))
    end
  end.

(** parser/src/lib.rs:62-73: the state [parse] starts from. *)
Definition pst_new (data : str) (module_ : bool) : sres unit :=
  let L := lexer_new data in
  let L := if module_ then lexer_set_state (ls_with_html_comments_allowed ls_default false) L
           else L in
  let rd := pr_new lexer_next L in
  guard rd (SDone tt (mk_pst rd [])).

End WithPlatform.

(** ** Programs *)

Section Programs.
  Context {nt : Set -> Type}.

  Inductive prog (A : Set) : Type :=
  | Ret (r : result A perr)
  | Panic
  | Op {B : Set} (o : op B) (k : B -> prog A)
  | Call {B : Set} (n : nt B) (k : result B perr -> prog A).

  Arguments Ret {A} r.
  Arguments Panic {A}.
  Arguments Op {A B} o k.
  Arguments Call {A B} n k.

  (** The [?] operator: continue with the [Ok] value, return the [Err]. *)
  Fixpoint pbind {A B : Set} (m : prog A) (f : A -> prog B) : prog B :=
    match m with
    | Ret (Ok a) => f a
    | Ret (Err e) => Ret (Err e)
    | Panic => Panic
    | Op o k => Op o (fun b => pbind (k b) f)
    | Call n k => Call n (fun r => pbind (k r) f)
    end.

  Definition pret {A : Set} (a : A) : prog A := Ret (Ok a).
  Definition perror {A : Set} (e : perr) : prog A := Ret (Err e).
  Definition pop {B : Set} (o : op B) : prog B := Op o pret.
  Definition pcall {B : Set} (n : nt B) : prog B := Call n (fun r => Ret r).
  (** A call whose [Result] is inspected by the caller ([match self.f() { .. }]). *)
  Definition ptry {B : Set} (n : nt B) : prog (result B perr) := Call n (fun r => Ret (Ok r)).
End Programs.

Arguments prog nt A : clear implicits.
Arguments Ret {nt A} r.
Arguments Panic {nt A}.
Arguments Op {nt A B} o k.
Arguments Call {nt A B} n k.

Declare Scope prog_scope.
Delimit Scope prog_scope with prog.
Notation "'let?' x := m 'in' k" := (pbind m (fun x => k))
  (at level 200, x name, m at level 100, k at level 200) : prog_scope.
Notation "'let?' ' x := m 'in' k" := (pbind m (fun x => k))
  (at level 200, x strict pattern, m at level 100, k at level 200) : prog_scope.
Notation "m ;? k" := (pbind m (fun _ => k)) (at level 100, k at level 200, right associativity)
  : prog_scope.

(** ** Execution *)

Inductive out (A : Type) : Type :=
| ODone (r : result A perr) (s : pst)
| OPanic
| OFuel.
Arguments ODone {A} r s.
Arguments OPanic {A}.
Arguments OFuel {A}.

Section Run.
  Context {PF : Platform} {nt : Set -> Type} (body : forall B : Set, nt B -> prog nt B).

  Fixpoint exec {A : Set} (call : forall B : Set, nt B -> pst -> out B) (p : prog nt A) (s : pst)
    : out A :=
    match p with
    | Ret r => ODone r s
    | Panic => OPanic
    | Op o k =>
      match step o s with
      | SDone b s' => exec call (k b) s'
      | SPanic => OPanic
      | SFuel => OFuel
      end
    | Call n k =>
      match call _ n s with
      | ODone r s' => exec call (k r) s'
      | OPanic => OPanic
      | OFuel => OFuel
      end
    end.

  Fixpoint run (fuel : nat) (B : Set) (n : nt B) (s : pst) : out B :=
    match fuel with
    | O => OFuel
    | S f => exec (run f) (body B n) s
    end.
End Run.
