(** * CharReader: the character reader under the lexer.

    Two models of [PeekReader<char, CharIndices>] (common/src/io.rs and
    common/src/io/char_reader.rs):

    - [char_peek_reader], the instance of the generic [PeekReader] with the
      [CharIndices] iterator, field by field;
    - [creader], a cursor (remaining characters, byte offset, reported
      position), used by the lexer model.

    [CharReaderFacts.v] proves that they agree on every operation. *)

From Verif Require Import Base PeekReader.
Local Open Scope list_scope.

(** common/src/io/char_reader.rs:6-9: [enum Error]. *)
Inductive char_error : Set := CharEndOfStream.

(** [std::str::CharIndices]: the front byte offset and the remaining characters. *)
Record char_indices := mk_ci { ci_front : nat; ci_rest : str }.

(** common/src/io/char_reader.rs:34-42: [PeekRead<char> for CharIndices]; the
    reported end position is the byte index plus [len_utf16] (not [len_utf8]). *)
Definition ci_next (i : char_indices) : result (nat * N) char_error * char_indices :=
  match ci_rest i with
  | [] => (Err CharEndOfStream, i)
  | c :: rest => (Ok (ci_front i + len16 c, c), mk_ci (ci_front i + len8 c) rest)
  end.

(** The type of [Lexer::reader] (lexer/src/lib.rs:66). *)
Definition char_peek_reader := peek_reader char_indices N char_error.

(** ** The cursor *)

(** Remaining characters, byte offset of the first of them in the whole
    source, and the position the reader reports. *)
Record creader := mk_cr { rd_rest : str; rd_byte : nat; rd_pos : nat }.

(** [PeekReader::with_offset(data[offset..].char_indices(), offset)]. *)
Definition cr_at (rest : str) (offset : nat) : creader := mk_cr rest offset offset.

Definition cr_current (r : creader) : option N :=
  match rd_rest r with c :: _ => Some c | [] => None end.

Definition cr_peek (r : creader) : option N :=
  match rd_rest r with _ :: c :: _ => Some c | _ => None end.

Definition cr_consume (r : creader) : option N * creader :=
  match rd_rest r with
  | [] => (None, r)
  | c :: rest => (Some c, mk_cr rest (rd_byte r + len8 c) (rd_byte r + len16 c))
  end.
