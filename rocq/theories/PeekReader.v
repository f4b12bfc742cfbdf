(** * PeekReader: the generic two-item look-ahead reader.

    Models common/src/io.rs.  The struct is generic in the inner reader [I]
    (the Rust trait [PeekRead], given here by [next]) and in the error type. *)

From Verif Require Import Base.
Local Open Scope list_scope.

Section PeekReader.
  Context {I T E : Type}.
  (** common/src/io.rs:7-13: trait method [PeekRead::next], returning the item
      with its end position. *)
  Variable next : I -> result (nat * T) E * I.

  (** common/src/io.rs:32-42: [struct PeekReader]. *)
  Record peek_reader := mk_pr {
    pr_inner : I;
    pr_current : result (nat * T) E;
    pr_next : result (nat * T) E;
    pr_position : nat;
    pr_offset : nat }.

  (** common/src/io.rs:80-91: [PeekReader::with_offset]. *)
  Definition pr_with_offset (inner : I) (offset : nat) : peek_reader :=
    let '(c, inner1) := next inner in
    let '(n, inner2) := next inner1 in
    mk_pr inner2 c n offset offset.

  (** common/src/io.rs:76-78: [PeekReader::new]. *)
  Definition pr_new (inner : I) : peek_reader := pr_with_offset inner 0.

  (** common/src/io.rs:94-96: [position]. *)
  Definition pr_pos (r : peek_reader) : nat := pr_position r.

  Definition item_of (r : result (nat * T) E) : result T E :=
    match r with Ok (_, t) => Ok t | Err e => Err e end.

  (** common/src/io.rs:99-101: [current]. *)
  Definition pr_cur (r : peek_reader) : result T E := item_of (pr_current r).

  (** common/src/io.rs:104-106: [peek]. *)
  Definition pr_peek (r : peek_reader) : result T E := item_of (pr_next r).

  (** common/src/io.rs:111-124: [consume]: the next item of the inner reader
      becomes [next], the old [next] becomes [current], and the old [current]
      is returned; [position] is updated only when the old [current] is [Ok]. *)
  Definition pr_consume (r : peek_reader) : result T E * peek_reader :=
    let '(n, inner') := next (pr_inner r) in
    match pr_current r with
    | Ok (p, t) => (Ok t, mk_pr inner' (pr_next r) n (p + pr_offset r) (pr_offset r))
    | Err e => (Err e, mk_pr inner' (pr_next r) n (pr_position r) (pr_offset r))
    end.

  (** common/src/io.rs:49-54: [rewind_to]; [rewind_before] may panic ([None]).
      [position] is not updated. *)
  Definition pr_rewind_to (rewind_before : T -> I -> option I) (r : peek_reader) (item : T)
    : option peek_reader :=
    match rewind_before item (pr_inner r) with
    | None => None
    | Some i0 =>
      let '(c, i1) := next i0 in
      let '(n, i2) := next i1 in
      Some (mk_pr i2 c n (pr_position r) (pr_offset r))
    end.

  (** common/src/io.rs:57-66: [reread_with_state]. *)
  Definition pr_reread_with_state {S : Type} (rewind_before : T -> I -> option I)
      (read_with_state : S -> I -> result (nat * T) E * I)
      (r : peek_reader) (state : S) : option peek_reader :=
    match pr_current r with
    | Ok (_, t) =>
      match rewind_before t (pr_inner r) with
      | None => None
      | Some i0 =>
        let '(c, i1) := read_with_state state i0 in
        let '(n, i2) := next i1 in
        Some (mk_pr i2 c n (pr_position r) (pr_offset r))
      end
    | Err _ => Some r
    end.

End PeekReader.

Arguments peek_reader : clear implicits.
