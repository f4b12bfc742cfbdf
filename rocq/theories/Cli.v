(** * Cli: the command line program (src/main.rs).

    Not modelled: the parsing of the arguments by the library clap (an
    invocation is given by the three values [get_arguments] extracts), the
    reading of the file (its contents are an argument; [None] when it cannot be
    read), failures of the output streams, and the [Debug] text of a tree and
    of a token, which are parameters ([debug_tree] is the whole text of
    [{:#?}] of [Ok(program)]). *)

From Verif Require Import Base Tokens Lexer Ast Prog Parser Codegen Emitter.
Local Open Scope string_scope.
Local Open Scope list_scope.

(** src/main.rs:8-12 [Arguments]; [a_format] is the value of [--format], from
    which lines 60-71 build the [generator_context]. *)
Record arguments := mk_arguments {
  a_check : bool;
  a_file_name : str;
  a_format : option str }.

(** What the program does: it exits with a code after writing to the standard
    output and the standard error, or it panics. *)
Inductive effect :=
| Exits (code : nat) (stdout stderr : str)
| Crashes.

(** [str::ends_with]. *)
Definition ends_with (s suffix : str) : bool :=
  let k := length s - length suffix in
  (Nat.leb (length suffix) (length s) && str_eqb (skipn k s) suffix)%bool.

(** src/main.rs:18 [is_module]. *)
Definition is_module (file_name : str) : bool :=
  (ends_with file_name (chars ".mjs") || ends_with file_name (chars ".module.js"))%bool.

(** src/main.rs:60-66: the [minified] flag of the [GeneratorContext]. *)
Definition format_minified (format : str) : bool := str_eqb format (chars "minified").

(** [println!]. *)
Definition println (s : str) : str := s ++ [10%N].

Section Main.
Context {PF : Platform}.
Variable debug_token : token -> str.
Variable debug_tree : node -> str.

(** src/main.rs:14-46 [main].  The parser is given a recursion depth that
    suffices for the length of the source (C14_terminates). *)
Definition main (args : arguments) (contents : option str) : effect :=
  match contents with
  | None => Crashes
  | Some source =>
      match parse_fuel (40 * blen source + 40) TProgram source (is_module (a_file_name args)) with
      | ODone (Err e) _ =>
          match emit debug_token (a_file_name args) source e with
          | Some text => Exits 1 [] text
          | None => Crashes
          end
      | ODone (Ok program) _ =>
          if a_check args then Exits 0 (println (chars "Parsed successfully!")) []
          else
            match a_format args with
            | Some format =>
                match generate (format_minified format) RProgram program with
                | Some output => Exits 0 (println output) []
                | None => Crashes
                end
            | None => Exits 0 (println (debug_tree program)) []
            end
      | OPanic | OFuel => Crashes
      end
  end.

End Main.
