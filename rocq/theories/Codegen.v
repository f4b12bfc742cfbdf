(** * Codegen: the code generator (codegen/src/lib.rs).

    The visitor methods of [CodeGenerator] are a translation from a node to the
    sequence of printer calls they make ([gen]); the printer itself is the
    interpreter [exec] of these calls on the output built so far.  Nested
    generators ([with_indent], [with_align], [without_align]) share the output
    and the line index with the generator they were made from and differ in
    their context only: their calls stand between a [PushX] and a [Pop]. *)

From Verif Require Import Base Tokens Lexer Ast Layout.
Local Open Scope string_scope.
Local Open Scope list_scope.

(** ** Printer calls *)

Inductive cmd : Set :=
| Char (c : N)          (* self.char(c) *)
| Str (s : str)         (* self.string(s) *)
| Space                 (* self.space() *)
| NewLine               (* self.new_line() *)
| StartBlock            (* self.start_block() *)
| EndBlock              (* self.end_block() *)
| Separation            (* self.separation(), when skip_next_separation is not set *)
| StmtEnd               (* exit_stmt *)
| DropSemicolon         (* self.remove_last(';') *)
| PushIndent            (* self.with_indent() *)
| PushAlign             (* self.with_align() *)
| PushNoAlign           (* self.without_align() *)
| Pop.                  (* back to the generator around it *)

(** codegen/src/lib.rs:13-19: [struct GeneratorContext], without [minified]
    (the same for all nested generators, an argument below) and [indent_size]
    (always 4). *)
Record gctx := mk_gctx { g_indent : nat; g_align : option nat }.

(** codegen/src/lib.rs:22-29: [GeneratorContext::new]. *)
Definition gctx_new : gctx := mk_gctx 0 None.

(** codegen/src/lib.rs:31-37: [indentation]. *)
Definition indentation (c : gctx) : nat :=
  match g_align c with Some a => a | None => g_indent c * 4 end.

(** codegen/src/lib.rs:46-49 [struct Index], 74-79 [struct CodeGenerator]: the
    output, the two indices, the context, and the contexts of the generators
    this one was made from.  [g_fault] says that the subtraction of [col_pos]
    has underflowed (a panic in a build that checks for overflow). *)
Record gst := mk_gst { g_out : str; g_newline : nat; g_block : nat; g_ctx : gctx; g_stack : list gctx;
                     g_fault : bool }.

(** codegen/src/lib.rs:52-57, 84-91: [Index::new], [CodeGenerator::new]. *)
Definition gst_new : gst := mk_gst [] 0 0 gctx_new [] false.

Definition with_out (o : str) (g : gst) : gst := mk_gst o (g_newline g) (g_block g) (g_ctx g) (g_stack g) (g_fault g).
Definition with_newline (p : nat) (g : gst) : gst := mk_gst (g_out g) p (g_block g) (g_ctx g) (g_stack g) (g_fault g).
Definition with_block (p : nat) (g : gst) : gst := mk_gst (g_out g) (g_newline g) p (g_ctx g) (g_stack g) (g_fault g).
Definition push (c : gctx) (g : gst) : gst := mk_gst (g_out g) (g_newline g) (g_block g) c (g_ctx g :: g_stack g) (g_fault g).

Definition last_char (o : str) : option N := match rev o with c :: _ => Some c | [] => None end.

Section Printer.
Context {PF : Platform}.
Variable minified : bool.

(** codegen/src/lib.rs:295-297: [pos]. *)
Definition gpos (g : gst) : nat := blen (g_out g).

(** codegen/src/lib.rs:300-302: [col_pos]; [col_check] records an underflow of
    its subtraction. *)
Definition col_pos (g : gst) : nat := gpos g - g_newline g.
Definition col_check (g : gst) : gst :=
  mk_gst (g_out g) (g_newline g) (g_block g) (g_ctx g) (g_stack g)
         (g_fault g || Nat.ltb (gpos g) (g_newline g)).

(** codegen/src/lib.rs:374-380: [indent]. *)
Definition do_indent (g : gst) : gst :=
  if minified then g else
  let g := col_check g in
  if negb (Nat.eqb (col_pos g) 0) then g
  else with_out (g_out g ++ repeat 32%N (indentation (g_ctx g))) g.

(** codegen/src/lib.rs:305-308: [char]. *)
Definition do_char (c : N) (g : gst) : gst :=
  let g := do_indent g in with_out (g_out g ++ [c]) g.

(** codegen/src/lib.rs:383-391: [must_add_space_before]. *)
Definition must_add_space_before (o s : str) : bool :=
  match last_char o, s with
  | Some a, b :: _ => (alphanumeric a && alphanumeric b)%bool
  | _, _ => false
  end.

(** codegen/src/lib.rs:311-320: [string]. *)
Definition do_string (s : str) (g : gst) : gst :=
  let g := do_indent g in
  with_out (g_out g ++ (if must_add_space_before (g_out g) s then [32%N] else []) ++ s) g.

(** codegen/src/lib.rs:323-327: [space]. *)
Definition do_space (g : gst) : gst := if minified then g else do_char 32%N g.

(** codegen/src/lib.rs:367-372: [new_line]. *)
Definition do_new_line (g : gst) : gst :=
  if minified then g else let g := do_char 10%N g in with_newline (gpos g) g.

(** codegen/src/lib.rs:278-288: [remove_last] (whether it did, and the rest). *)
Definition remove_last (c : N) (g : gst) : bool * gst :=
  match rev (g_out g) with
  | x :: r => if N.eqb x c then (true, with_out (rev r) g) else (false, g)
  | [] => (false, g)
  end.

(** codegen/src/lib.rs:329-333: [start_block]. *)
Definition do_start_block (g : gst) : gst :=
  let g := do_new_line (do_char (ch "{") g) in with_block (gpos g) g.

(** codegen/src/lib.rs:351-353: [at_block_start]. *)
Definition at_block_start (g : gst) : bool := Nat.eqb (g_block g) (gpos g).

(** codegen/src/lib.rs:335-349: [end_block]. *)
Definition do_end_block (g : gst) : gst :=
  let g := if (at_block_start g && negb minified)%bool
           then let '(b, g1) := remove_last 10%N g in if b then with_newline 0 g1 else g1
           else g in
  let g := if minified then snd (remove_last (ch ";") g) else g in
  do_char (ch "}") g.

(** codegen/src/lib.rs:356-365: [separation].  [skip_next_separation] is set
    only right before the declaration whose [enter_function_decl] resets it;
    [gen] leaves the call out there. *)
Definition do_separation (g : gst) : gst := if at_block_start g then g else do_new_line g.

(** codegen/src/lib.rs:1273-1277: [exit_stmt]. *)
Definition do_stmt_end (g : gst) : gst :=
  if Nat.eqb (g_newline g) (gpos g) then g else do_new_line g.

(** codegen/src/lib.rs:395-401: [exit_program]. *)
Definition do_program_end (g : gst) : gst :=
  if minified then
    let '(b, g1) := remove_last (ch ";") g in
    match b, last_char (g_out g1) with
    | true, Some c => if N.eqb c (ch ")") then do_char (ch ";") g1 else g1
    | _, _ => g1
    end
  else g.

Definition exec1 (c : cmd) (g : gst) : gst :=
  match c with
  | Char x => do_char x g
  | Str s => do_string s g
  | Space => do_space g
  | NewLine => do_new_line g
  | StartBlock => do_start_block g
  | EndBlock => do_end_block g
  | Separation => do_separation g
  | StmtEnd => do_stmt_end g
  | DropSemicolon => snd (remove_last (ch ";") g)
  (* codegen/src/lib.rs:240-250 *)
  | PushIndent => push (mk_gctx (S (g_indent (g_ctx g))) (g_align (g_ctx g))) g
  (* codegen/src/lib.rs:252-263 *)
  | PushAlign => push (mk_gctx (g_indent (g_ctx g)) (Some (col_pos g))) (col_check g)
  (* codegen/src/lib.rs:265-275 *)
  | PushNoAlign => push (mk_gctx (g_indent (g_ctx g)) None) g
  | Pop => match g_stack g with
           | c' :: r => mk_gst (g_out g) (g_newline g) (g_block g) c' r (g_fault g)
           | [] => g
           end
  end.

Fixpoint exec (l : list cmd) (g : gst) : gst :=
  match l with [] => g | c :: l' => exec l' (exec1 c g) end.

End Printer.

(** ** The visitor *)

Notation S_ s := (Str (chars s)).
Notation C_ s := (Char (ch s)).

(** codegen/src/lib.rs:93-105: [comma_separated], of the calls of each item. *)
Fixpoint comma_separated (l : list (list cmd)) : list cmd :=
  match l with
  | [] => []
  | [x] => x
  | x :: l' => x ++ C_ "," :: Space :: comma_separated l'
  end.

Definition is_nil {A} (l : list A) : bool := match l with [] => true | _ => false end.

(** codegen/src/lib.rs:107-123: [comma_separated_with_rest]. *)
Definition comma_separated_with_rest (l : list (list cmd)) (rest : option (list cmd)) : list cmd :=
  comma_separated l ++
  match rest with
  | Some r => (if is_nil l then [] else [C_ ","; Space]) ++ S_ "..." :: r
  | None => []
  end.

(** codegen/src/lib.rs:125-135: [initializer]. *)
Definition initializer_ (o : option (list cmd)) : list cmd :=
  match o with Some x => Space :: C_ "=" :: Space :: x | None => [] end.

(** codegen/src/lib.rs:1298-1301: [enter_ident]. *)
Definition name_ (i : ident) : list cmd := [Str (id_name i)].
Definition names_ (o : option ident) : list cmd := match o with Some i => name_ i | None => [] end.

(** codegen/src/lib.rs:137-147: [maybe_as_alias]. *)
Definition maybe_as_alias (o : option ident) : list cmd :=
  match o with Some i => Space :: S_ "as" :: Space :: name_ i | None => [] end.

(** codegen/src/lib.rs:215-227: [parenthesize]. *)
Definition parenthesize (o c : string) (space : bool) (x : list cmd) : list cmd :=
  C_ o :: (if space then [Space] else []) ++ x ++ (if space then [Space] else []) ++ [C_ c].

(** codegen/src/lib.rs:149-175: [class]. *)
Definition class_ (identifier : list cmd) (super_class : option (list cmd)) (body : list (list cmd)) : list cmd :=
  S_ "class" :: identifier ++
  match super_class with Some x => S_ "extends" :: x | None => [] end ++
  Space :: StartBlock :: PushIndent :: flat_map (fun x => x ++ [NewLine]) body ++ [Pop; EndBlock].

(** codegen/src/lib.rs:177-205: [function]. *)
Definition function_ (asynchronous generator : bool) (identifier parameters body : list cmd) : list cmd :=
  (if asynchronous then [S_ "async "] else []) ++ S_ "function" :: (if generator then [C_ "*"] else []) ++
  Space :: identifier ++ parameters ++ Space :: body.

(** codegen/src/lib.rs:208-212: [quote]; 1176-1179: [enter_string_literal]. *)
Definition quote_ (s : lit_string) : list cmd :=
  [Char (ls_delimiter s); Str (ls_value s); Char (ls_delimiter s)].

(** codegen/src/lib.rs:403-411, 989-1002: the directives of a program or body. *)
Definition directives_ (ds : list lit_string) : list cmd :=
  flat_map (fun d => quote_ d ++ [C_ ";"; NewLine]) ds.

Definition indented (l : list cmd) : list cmd := PushIndent :: l ++ [Pop].

(** codegen/src/lib.rs:1058-1081: the declarations of [enter_variable_stmt]: the
    calls of each, and whether it has an initializer. *)
Fixpoint declarations_ (l : list (list cmd * bool)) : list cmd :=
  match l with
  | [] => []
  | [(x, _)] => x ++ [C_ ";"]
  | (x, init) :: l' => x ++ C_ "," :: (if init then NewLine else Space) :: declarations_ l'
  end.

(** codegen/src/lib.rs:1083-1110: the elements of [enter_array_binding]. *)
Fixpoint array_binding_elements (l : list (option (list cmd))) : list cmd :=
  match l with
  | [] => []
  | [Some x] => x
  | [None] => [C_ ","]
  | o :: l' => match o with Some x => x | None => [] end ++ C_ "," :: Space :: array_binding_elements l'
  end.

Definition has_initializer (n : node) : bool := match n with VarDecl _ _ (Some _) => true | _ => false end.
Definition is_function_expr (n : node) : bool :=
  match n with EArrow _ _ _ _ _ | EFunction _ _ _ _ _ _ => true | _ => false end.

(** The calls made while traversing a node.  A node in a field of type [Stmt]
    is followed by [StmtEnd] ([exit_stmt]); see [stmt]. *)
Fixpoint gen (n : node) : list cmd :=
  let stmt x := gen x ++ [StmtEnd] in
  let stmts l := flat_map (fun x => gen x ++ [StmtEnd]) l in
  match n with
  (* codegen/src/lib.rs:507-526 *)
  | EArrow _ a binding_parameter p b =>
    (if a then [S_ "async"; Space] else []) ++
    (if binding_parameter
     then match p with FormalParameters _ l _ => flat_map gen l | _ => [] end
     else gen p) ++
    Space :: S_ "=>" :: Space :: gen b
  (* codegen/src/lib.rs:1049-1056 *)
  | EAssign _ o l r => gen l ++ Space :: S_ (assign_string o) :: Space :: gen r
  (* codegen/src/lib.rs:528-533 *)
  | EAwait _ a => S_ "await" :: Space :: gen a
  (* codegen/src/lib.rs:664-671, 673-680 *)
  | EBinary _ o l r => gen l ++ Space :: S_ (bin_string o) :: Space :: gen r
  | ELogical _ o l r => gen l ++ Space :: S_ (log_string o) :: Space :: gen r
  (* codegen/src/lib.rs:682-688 *)
  | ECall _ c _ args => gen c ++ parenthesize "(" ")" false (comma_separated (map gen args))
  (* codegen/src/lib.rs:690-697 *)
  | CalleeSuper => [S_ "super"]
  | CalleeImport => [S_ "import"]
  (* codegen/src/lib.rs:699-702 *)
  | ObjSuper _ => [S_ "super"]
  (* codegen/src/lib.rs:801-804 *)
  | EClass _ i s b => class_ (names_ i) (option_map gen s) (map gen b)
  (* codegen/src/lib.rs:835-846 *)
  | EConditional _ a b c =>
    gen a ++ Space :: C_ "?" :: Space :: gen b ++ Space :: C_ ":" :: Space :: gen c
  (* codegen/src/lib.rs:773-782 *)
  | EFunction _ a g i p b => function_ a g (names_ i) (gen p) (gen b)
  | EIdentRef i => name_ i
  | ELiteral _ l => gen l
  (* not overridden: the object, then the property *)
  | EMember _ o p => gen o ++ gen p
  (* codegen/src/lib.rs:704-709 *)
  | EMetaProperty _ m p => name_ m ++ C_ "." :: name_ p
  (* codegen/src/lib.rs:848-859 *)
  | ENew _ c asp args =>
    S_ "new" :: Space :: gen c ++
    match asp with
    | Some _ => parenthesize "(" ")" false (comma_separated (map gen args))
    | None => []
    end
  (* codegen/src/lib.rs:711-722 *)
  | EOptionalCall _ c _ args q =>
    gen c ++ (if q then [S_ "?."] else []) ++ parenthesize "(" ")" false (comma_separated (map gen args))
  (* codegen/src/lib.rs:724-738 *)
  | EOptionalMember _ o p q =>
    if q
    then gen o ++ C_ "?" :: match p with PropExpr _ => [C_ "."] | _ => [] end ++ gen p
    else gen o ++ gen p
  (* codegen/src/lib.rs:766-771 *)
  | EParenthesized _ e => parenthesize "(" ")" false (gen e)
  (* codegen/src/lib.rs:1288-1291 *)
  | ESequence _ l => comma_separated (map gen l)
  | ETaggedTemplate _ c t => gen c ++ gen t
  (* codegen/src/lib.rs:1159-1162 *)
  | EThis _ => [S_ "this"]
  (* codegen/src/lib.rs:647-651, 653-662 *)
  | EUnary _ o a => S_ (unary_string o) :: gen a
  | EUpdate _ o true a => S_ (update_string o) :: gen a
  | EUpdate _ o false a => gen a ++ [S_ (update_string o)]
  (* codegen/src/lib.rs:1034-1047 *)
  | EYield _ a g =>
    S_ "yield" :: (if g then [C_ "*"] else []) ++ match a with Some x => Space :: gen x | None => [] end
  (* codegen/src/lib.rs:740-753 *)
  | PropIdent i => C_ "." :: name_ i
  | PropExpr e => parenthesize "[" "]" false (gen e)
  (* codegen/src/lib.rs:755-764 *)
  | ArgExpr e => gen e
  | ArgSpread e => S_ "..." :: gen e
  (* codegen/src/lib.rs:1164-1174 *)
  | LitNull => [S_ "null"]
  | LitBoolean true => [S_ "true"]
  | LitBoolean false => [S_ "false"]
  | LitRegexp s => [Str s]
  | LitString s => quote_ s
  (* codegen/src/lib.rs:1293-1296 *)
  | LitNumber r => [Str r]
  (* codegen/src/lib.rs:1188-1194, 1196-1202 *)
  | LitArray l => parenthesize "[" "]" (negb (is_nil l)) (comma_separated (map gen l))
  | LitObject l => parenthesize "{" "}" (negb (is_nil l)) (comma_separated (map gen l))
  (* codegen/src/lib.rs:1181-1186 *)
  | LitTemplate l => C_ "`" :: flat_map gen l ++ [C_ "`"]
  (* codegen/src/lib.rs:1204-1217 *)
  | TplString s => [Str s]
  | TplExpr e => S_ "${" :: gen e ++ [C_ "}"]
  (* codegen/src/lib.rs:1148-1157 *)
  | ElemElision => []
  | ElemExpr e => gen e
  | ElemSpread e => S_ "..." :: gen e
  (* codegen/src/lib.rs:1219-1224, 1226-1232 *)
  | DefIdentRef i => name_ i
  | DefSpread e => S_ "..." :: gen e
  | DefNamed _ x v => gen x ++ C_ ":" :: Space :: gen v
  | DefMethod m => gen m
  (* codegen/src/lib.rs:1234-1242 *)
  | NameIdent i => name_ i
  | NameString s => quote_ s
  | NameNumber r => [Str r]
  | NameComputed e => parenthesize "[" "]" false (gen e)
  (* codegen/src/lib.rs:806-833 *)
  | Method _ x k p b g a st =>
    (if st then [S_ "static"; Space] else []) ++ (if a then [S_ "async"; Space] else []) ++
    (if g then [C_ "*"] else []) ++
    match k with MKGet => [S_ "get"] | MKSet => [S_ "set"] | MKMethod => [] end ++
    gen x ++ gen p ++ Space :: gen b
  (* codegen/src/lib.rs:1016-1021 *)
  | FormalParameters _ l r =>
    parenthesize "(" ")" false (comma_separated_with_rest (map gen l) (option_map gen r))
  (* codegen/src/lib.rs:989-1002 *)
  | Body _ ds l => StartBlock :: indented (directives_ ds ++ stmts l) ++ [EndBlock]
  | BindIdent i => name_ i
  (* codegen/src/lib.rs:1083-1110 *)
  | BindArray _ l r =>
    parenthesize "[" "]" (negb (is_nil l && match r with None => true | _ => false end))
      (array_binding_elements (map (option_map gen) l) ++
       match r with
       | Some x => (if is_nil l then [] else [C_ ","; Space]) ++ S_ "..." :: gen x
       | None => []
       end)
  (* codegen/src/lib.rs:1112-1118 *)
  | BindObject _ l r =>
    parenthesize "{" "}" (negb (is_nil l && match r with None => true | _ => false end))
      (comma_separated_with_rest (map gen l) (option_map gen r))
  (* codegen/src/lib.rs:1120-1124, 1126-1132, 1028-1032 *)
  | BindSingle _ i o => name_ i ++ initializer_ (option_map gen o)
  | BindNamed _ x y => gen x ++ C_ ":" :: Space :: gen y
  | BindElement _ p o => gen p ++ initializer_ (option_map gen o)
  (* assignment patterns are not traversed (ast/src/traverse/mod.rs:230-232) *)
  | AsgArray _ _ _ | AsgObject _ _ _ | AsgElement _ _ _ | AsgSingle _ _ _ | AsgNamed _ _ _ _ => []
  (* codegen/src/lib.rs:413-418 *)
  | SBlock _ l => StartBlock :: indented (stmts l) ++ [EndBlock]
  (* codegen/src/lib.rs:1257-1267, 1244-1255 *)
  | SBreak _ o => S_ "break" :: match o with Some i => Space :: name_ i | None => [] end ++ [C_ ";"]
  | SContinue _ o => S_ "continue" :: match o with Some i => Space :: name_ i | None => [] end ++ [C_ ";"]
  (* codegen/src/lib.rs:1303-1306 *)
  | SDebugger _ => [S_ "debugger;"]
  (* codegen/src/lib.rs:618-630 *)
  | SDoWhile _ b t => S_ "do " :: stmt b ++ S_ "while" :: Space :: parenthesize "(" ")" false (gen t)
  (* codegen/src/lib.rs:1023-1026 *)
  | SEmpty _ => [C_ ";"]
  (* codegen/src/lib.rs:1269-1271 *)
  | SExpr _ e => gen e ++ [C_ ";"]
  (* codegen/src/lib.rs:535-554, 579-584 *)
  | SFor _ i t u b =>
    S_ "for" :: Space ::
    parenthesize "(" ")" false
      (match i with
       | Some x => gen x ++ match x with SVariable _ _ _ => [DropSemicolon] | _ => [] end
       | None => []
       end ++ C_ ";" :: match t with Some x => Space :: gen x | None => [] end ++
       C_ ";" :: match u with Some x => Space :: gen x | None => [] end) ++
    Space :: stmt b
  (* codegen/src/lib.rs:586-602 *)
  | SForIn _ l r b =>
    S_ "for" :: Space :: parenthesize "(" ")" false (gen l ++ S_ "in" :: Space :: gen r) ++ Space :: stmt b
  (* codegen/src/lib.rs:556-577 *)
  | SForOf _ l r b a =>
    S_ "for" :: (if a then [S_ "await"] else []) ++
    Space :: parenthesize "(" ")" false (gen l ++ S_ "of" :: Space :: gen r) ++ Space :: stmt b
  (* codegen/src/lib.rs:485-505 *)
  | SIf _ c a b =>
    S_ "if" :: Space :: parenthesize "(" ")" false (gen c) ++ NewLine :: indented (stmt a) ++
    match b with Some x => S_ "else" :: NewLine :: indented (stmt x) | None => [] end
  (* codegen/src/lib.rs:454-460 *)
  | SLabeled _ i b => name_ i ++ C_ ":" :: Space :: stmt b
  (* codegen/src/lib.rs:1004-1014 *)
  | SReturn _ o => S_ "return" :: match o with Some x => Space :: gen x | None => [] end ++ [C_ ";"]
  (* codegen/src/lib.rs:469-483 *)
  | SSwitch _ d l =>
    S_ "switch" :: Space :: parenthesize "(" ")" false (gen d) ++
    Space :: StartBlock :: indented (flat_map gen l) ++ [EndBlock]
  (* codegen/src/lib.rs:462-467 *)
  | SThrow _ a => S_ "throw" :: Space :: gen a
  (* codegen/src/lib.rs:420-440 *)
  | STry _ b h f =>
    S_ "try" :: Space :: gen b ++
    match h with Some x => Space :: S_ "catch" :: Space :: gen x | None => [] end ++
    match f with Some x => Space :: S_ "finally" :: Space :: gen x | None => [] end
  (* codegen/src/lib.rs:1058-1081 *)
  | SVariable _ k l =>
    S_ (kind_string k) :: Space :: PushAlign ::
    declarations_ (map (fun d => (gen d, has_initializer d)) l) ++ [Pop]
  (* codegen/src/lib.rs:604-616 *)
  | SWhile _ t b => S_ "while" :: Space :: parenthesize "(" ")" false (gen t) ++ Space :: stmt b
  (* codegen/src/lib.rs:1279-1286 *)
  | SWith _ o b => S_ "with(" :: gen o ++ C_ ")" :: Space :: stmt b
  (* codegen/src/lib.rs:796-799 *)
  | SClassDecl _ i s b => class_ (name_ i) (option_map gen s) (map gen b)
  (* codegen/src/lib.rs:784-794 *)
  | SFunctionDecl _ a g i p b => Separation :: function_ a g (name_ i) (gen p) (gen b)
  (* codegen/src/lib.rs:938-981 *)
  | SImport _ d ns nm from =>
    S_ "import" ::
    match d with Some i => Space :: name_ i | None => [] end ++
    match ns with
    | Some i => (if d then [C_ ","] else []) ++ Space :: C_ "*" :: Space :: S_ "as" :: Space :: name_ i
    | None => []
    end ++
    match nm with
    | Some l => (if d then [C_ ","] else []) ++
                Space :: parenthesize "{" "}" (negb (is_nil l)) (comma_separated (map gen l))
    | None => []
    end ++
    match d, ns, nm with None, None, None => [] | _, _, _ => [Space; S_ "from"] end ++
    Space :: quote_ from ++ [C_ ";"]
  (* codegen/src/lib.rs:861-871, 873-883 (the flag skip_next_separation), 885-892, 894-906, 908-925, 927-936, 983-987 *)
  | XDecl _ d =>
    S_ "export" :: Space ::
    match d with
    | SFunctionDecl _ a g i p b => function_ a g (name_ i) (gen p) (gen b)
    | _ => gen d
    end ++ [StmtEnd]
  | XDefaultDecl _ d =>
    S_ "export default" :: Space ::
    match d with
    | SFunctionDecl _ a g i p b => function_ a g (name_ i) (gen p) (gen b)
    | _ => gen d
    end ++ [StmtEnd]
  | XDefaultExpr _ e => S_ "export default" :: Space :: gen e ++ [C_ ";"]
  | XNamespace _ a from =>
    S_ "export" :: Space :: C_ "*" :: maybe_as_alias a ++ Space :: S_ "from" :: Space :: quote_ from
  | XNamed _ l from =>
    S_ "export" :: Space :: parenthesize "{" "}" (negb (is_nil l)) (comma_separated (map gen l)) ++
    match from with Some s => Space :: S_ "from" :: Space :: quote_ s | None => [] end ++ [C_ ";"]
  | NamedExport _ x a =>
    match a with Some i => name_ i ++ [Space; S_ "as"; Space] | None => [] end ++ name_ x
  | NamedImport _ x a => name_ x ++ maybe_as_alias a
  (* codegen/src/lib.rs:1134-1146 *)
  | VarDecl _ p o =>
    gen p ++
    match o with
    | Some e => if is_function_expr e then PushNoAlign :: initializer_ (Some (gen e)) ++ [Pop]
                else initializer_ (Some (gen e))
    | None => []
    end
  (* not traversed (ast/src/traverse/mod.rs:583) *)
  | ForBinding _ _ _ => []
  (* codegen/src/lib.rs:632-645 *)
  | SwitchCase _ t l =>
    match t with Some x => S_ "case " :: gen x | None => [S_ "default"] end ++
    C_ ":" :: NewLine :: indented (stmts l)
  (* codegen/src/lib.rs:442-452 *)
  | CatchClause _ p b =>
    match p with Some x => parenthesize "(" ")" false (gen x) ++ [Space] | None => [] end ++ gen b
  (* codegen/src/lib.rs:403-411 *)
  | Script _ ds l | Module _ ds l => directives_ ds ++ stmts l
  end.

(** The type of the tree [generate_code] is called with (compare [target] of
    Parser.v: the types [fajt::parse] returns). *)
Inductive root_type : Set := RExpr | RStmt | RProgram.

(** codegen/src/lib.rs:6-11: the calls [program.traverse(&mut codegen)] makes.
    A statement ends with [exit_stmt]; for the [exit_program] of a program see
    [generate]. *)
Definition root (r : root_type) (n : node) : list cmd :=
  match r with
  | RExpr => gen n
  | RStmt => gen n ++ [StmtEnd]
  | RProgram => gen n
  end.

(** codegen/src/lib.rs:6-11: [generate_code]. *)
Definition generated `{PF : Platform} (minified : bool) (r : root_type) (n : node) : gst :=
  let g := exec minified (root r n) gst_new in
  match r with RProgram => do_program_end minified g | _ => g end.

(** The same as a function to texts: [None] for the panic of a build that
    checks for overflow. *)
Definition generate `{PF : Platform} (minified : bool) (r : root_type) (n : node) : option str :=
  let g := generated minified r n in if g_fault g then None else Some (g_out g).
