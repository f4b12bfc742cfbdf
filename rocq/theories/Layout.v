(** * Layout: how a tree is written.

    A small specification, independent of the parser: [lay n] lists the tokens
    a tree is written with, in order, and where each node begins and ends;
    [fits] says that given tokens are such a writing. *)

From Verif Require Import Base Tokens Ast.
Local Open Scope string_scope.
Local Open Scope list_scope.

Inductive mark : Set :=
| Sym (s : string)      (* the punctuator or keyword spelt [s] *)
| Opt (s : string)      (* it or nothing *)
| Rep (s : string)      (* it any number of times *)
| Id (i : ident)        (* the name [id_name i] (identifier or keyword), at [id_span i] *)
| IdOpt (i : ident)     (* it; or, when the name is empty, nothing *)
| Val (v : tvalue)      (* the literal *)
| Begin (sp : span)     (* here the node with the span [sp] begins ... *)
| End (sp : span).      (* ... and ends *)

(** ** Spellings *)

Definition bin_string (o : binary_op) : string :=
  match o with
  | BPlus => "+" | BMinus => "-" | BMultiplication => "*" | BDivision => "/" | BModulus => "%"
  | BExponent => "**" | BShiftLeft => "<<" | BShiftRight => ">>" | BShiftRightUnsigned => ">>>"
  | BLessThan => "<" | BMoreThan => ">" | BLessThanEquals => "<=" | BMoreThanEquals => ">="
  | BInstanceOf => "instanceof" | BIn => "in" | BEqual => "==" | BNotEqual => "!="
  | BStrictEqual => "===" | BStrictNotEqual => "!==" | BBitwiseAnd => "&" | BBitwiseXOR => "^"
  | BBitwiseOR => "|"
  end.
Definition log_string (o : logical_op) : string :=
  match o with LAnd => "&&" | LOr => "||" | LCoalesce => "??" end.
Definition unary_string (o : unary_op) : string :=
  match o with
  | UDelete => "delete" | UVoid => "void" | UTypeof => "typeof" | UPlus => "+" | UMinus => "-"
  | UBitwiseNot => "~" | UNot => "!"
  end.
Definition update_string (o : update_op) : string :=
  match o with UpIncrease => "++" | UpDecrease => "--" end.
Definition assign_string (o : assign_op) : string :=
  match o with
  | AAssign => "=" | AMultiply => "*=" | APower => "**=" | ADivide => "/=" | AModulus => "%="
  | AAdd => "+=" | ASub => "-=" | ALeftShift => "<<=" | ARightShift => ">>=" | AUnsignedRightShift => ">>>="
  | ABitwiseAnd => "&=" | ABitwiseXOr => "^=" | ABitwiseOr => "|="
  end.
Definition kind_string (k : variable_kind) : string :=
  match k with VKConst => "const" | VKLet => "let" | VKVar => "var" end.

(** ** Lists *)

Section Lists.
Variable f : node -> list mark.

Definition many : list node -> list mark := flat_map f.

(** One or more, separated by commas. *)
Fixpoint sep (l : list node) : list mark :=
  match l with
  | [] => []
  | x :: l' => f x ++ match l' with [] => [] | _ => Sym "," :: sep l' end
  end.

Definition opt (o : option node) : list mark := match o with Some x => f x | None => [] end.

(** Comma separated up to [close]; a comma may follow the last one. *)
Definition listed (l : list node) (close : string) : list mark :=
  match l with
  | [] => [Sym close]
  | _ => sep l ++ [Opt ","; Sym close]
  end.

(** The same, but with [...r] at the end. *)
Definition rlisted (l : list node) (r : option node) (close : string) : list mark :=
  match r with
  | None => listed l close
  | Some x => flat_map (fun y => f y ++ [Sym ","]) l ++ Sym "..." :: f x ++ [Sym close]
  end.

(** The elements of an array literal. *)
Fixpoint elements (l : list node) : list mark :=
  match l with
  | [] => [Sym "]"]
  | ElemElision :: l' => Sym "," :: elements l'
  | x :: l' => f x ++ match l' with [] => [Opt ","; Sym "]"] | _ => Sym "," :: elements l' end
  end.

(** The elements of an array binding pattern. *)
Fixpoint bind_elements (l : list (option node)) (rest : option (list mark)) : list mark :=
  match l with
  | [] => match rest with Some r => Sym "..." :: r ++ [Sym "]"] | None => [Sym "]"] end
  | None :: l' => Sym "," :: bind_elements l' rest
  | Some x :: l' =>
    f x ++ match l', rest with
           | [], None => [Opt ","; Sym "]"]
           | _, _ => Sym "," :: bind_elements l' rest
           end
  end.

(** The elements of an array assignment pattern.  The tree has one [None] for
    each comma ([[a, b] = c] has the elements [a], [None], [b]). *)
Fixpoint asg_elements (l : list (option node)) (rest : option (list mark)) : list mark :=
  match l with
  | [] => match rest with Some r => Sym "..." :: r ++ [Sym "]"] | None => [Sym "]"] end
  | None :: l' => Sym "," :: asg_elements l' rest
  | Some x :: l' => f x ++ asg_elements l' rest
  end.

(** The parts of a template after a [${]: an expression, a string that may be
    missing (when it is empty), and so on. *)
Fixpoint template_parts (l : list node) : list mark :=
  match l with
  | TplExpr e :: TplString s :: l' =>
    f e ++ match l' with [] => [Val (VTemplateTail s)] | _ => Val (VTemplateMiddle s) :: template_parts l' end
  | TplExpr e :: l' =>
    f e ++ match l' with [] => [Val (VTemplateTail [])] | _ => Val (VTemplateMiddle []) :: template_parts l' end
  | x :: l' => f x ++ template_parts l'
  | [] => []
  end.
Definition template (l : list node) : list mark :=
  match l with
  | [TplString s] => [Val (VLiteral (TLTemplate s))]
  | TplString s :: l' => Val (VTemplateHead s) :: template_parts l'
  | l' => Val (VTemplateHead []) :: template_parts l'
  end.

End Lists.

Definition str_mark (s : lit_string) : mark := Val (VLiteral (TLString (ls_value s) (ls_delimiter s))).
Definition directives (ds : list lit_string) : list mark := flat_map (fun d => [str_mark d; Opt ";"]) ds.
Definition flag (b : bool) (s : string) : list mark := if b then [Sym s] else [].
Definition idents (o : option ident) : list mark := match o with Some i => [Id i] | None => [] end.
Definition bracket (sp : span) (l : list mark) : list mark := Begin sp :: l ++ [End sp].

(** ** Trees *)

Fixpoint lay (n : node) : list mark :=
  match n with
  (* [x => ..], without parentheses *)
  | EArrow sp a true p b =>
    bracket sp (flag a "async" ++
      match p with FormalParameters psp l None => bracket psp (sep lay l) | _ => lay p end ++ Sym "=>" :: lay b)
  | EArrow sp a false p b => bracket sp (flag a "async" ++ lay p ++ Sym "=>" :: lay b)
  | EAssign sp o l r => bracket sp (lay l ++ Sym (assign_string o) :: lay r)
  | EAwait sp a => bracket sp (Sym "await" :: lay a)
  | EBinary sp o l r => bracket sp (lay l ++ Sym (bin_string o) :: lay r)
  | ELogical sp o l r => bracket sp (lay l ++ Sym (log_string o) :: lay r)
  | ECall sp f asp l => bracket sp (lay f ++ bracket asp (Sym "(" :: listed lay l ")"))
  | EClass sp o h l =>
    bracket sp (Sym "class" :: idents o ++
      match h with Some x => Sym "extends" :: lay x | None => [] end ++
      Sym "{" :: flat_map (fun x => Rep ";" :: lay x) l ++ [Rep ";"; Sym "}"])
  | EConditional sp c a b => bracket sp (lay c ++ Sym "?" :: lay a ++ Sym ":" :: lay b)
  | EFunction sp a g o p b =>
    bracket sp (flag a "async" ++ Sym "function" :: flag g "*" ++ idents o ++ lay p ++ lay b)
  | EIdentRef i | BindIdent i => bracket (id_span i) [Id i]
  | DefIdentRef i | NameIdent i => [Id i]
  | ELiteral sp l => bracket sp (lay l)
  | EMember sp o p => bracket sp (lay o ++ match p with PropIdent i => [Sym "."; Id i] | _ => lay p end)
  | EMetaProperty sp m p => bracket sp [Id m; Sym "."; Id p]
  | ENew sp f None l => bracket sp (Sym "new" :: lay f ++ many lay l)   (* [l] is empty *)
  | ENew sp f (Some asp) l =>
    bracket sp (Sym "new" :: lay f ++ bracket asp (Sym "(" :: listed lay l ")"))
  | EOptionalCall sp f asp l q =>
    bracket sp (lay f ++ flag q "?." ++ bracket asp (Sym "(" :: listed lay l ")"))
  | EOptionalMember sp o p q =>
    bracket sp (lay o ++
      match p with
      | PropIdent i => [Sym (if q then "?." else "."); Id i]
      | _ => flag q "?." ++ lay p
      end)
  | EParenthesized sp x => bracket sp (Sym "(" :: lay x ++ [Sym ")"])
  | ESequence sp l => bracket sp (sep lay l)
  | ETaggedTemplate sp f t => bracket sp (lay f ++ lay t)
  | EThis sp => bracket sp [Sym "this"]
  | EUnary sp o a => bracket sp (Sym (unary_string o) :: lay a)
  | EUpdate sp o true a => bracket sp (Sym (update_string o) :: lay a)
  | EUpdate sp o false a => bracket sp (lay a ++ [Sym (update_string o)])
  | EYield sp o g => bracket sp (Sym "yield" :: flag g "*" ++ opt lay o)
  | CalleeSuper => [Sym "super"]
  | CalleeImport => [Sym "import"]
  | ObjSuper sp => bracket sp [Sym "super"]
  | PropIdent i => [Id i]
  | PropExpr x => Sym "[" :: lay x ++ [Sym "]"]
  | ArgExpr x | ElemExpr x => lay x
  | ArgSpread x | ElemSpread x | DefSpread x => Sym "..." :: lay x
  | LitNull => [Sym "null"]
  | LitBoolean b => [Sym (if b then "true" else "false")]
  | LitString s | NameString s => [str_mark s]
  | LitNumber r | NameNumber r => [Val (VLiteral (TLNumber r))]
  | LitArray l => Sym "[" :: elements lay l
  | LitObject l => Sym "{" :: listed lay l "}"
  | LitRegexp s => [Val (VLiteral (TLRegexp s))]
  | LitTemplate l => template lay l
  | TplString _ => []
  | TplExpr x => lay x
  | ElemElision => []
  | DefNamed sp x y => bracket sp (lay x ++ Sym ":" :: lay y)
  | DefMethod m => lay m
  | NameComputed x => Sym "[" :: lay x ++ [Sym "]"]
  (* the flags of a method may come from the function around it, without [async] or [*] *)
  | Method sp x k p b g a st =>
    flag st "static" ++
    bracket sp (match k with
                | MKGet => [Sym "get"]
                | MKSet => [Sym "set"]
                | MKMethod => (if a then [Opt "async"] else []) ++ (if g then [Opt "*"] else [])
                end ++ lay x ++ lay p ++ lay b)
  | FormalParameters sp l r => bracket sp (Sym "(" :: rlisted lay l r ")")
  | Body sp ds l => bracket sp (Sym "{" :: directives ds ++ many lay l ++ [Sym "}"])
  | BindArray sp l r => bracket sp (Sym "[" :: bind_elements lay l (option_map lay r))
  | BindObject sp l r | AsgObject sp l r => bracket sp (Sym "{" :: rlisted lay l r "}")
  | BindSingle sp i o | AsgSingle sp i o =>
    bracket sp (Id i :: match o with Some x => Sym "=" :: lay x | None => [] end)
  | BindNamed sp x y => bracket sp (lay x ++ Sym ":" :: lay y)
  | BindElement sp x o | AsgElement sp x o | VarDecl sp x o =>
    bracket sp (lay x ++ match o with Some y => Sym "=" :: lay y | None => [] end)
  | AsgArray sp l r => bracket sp (Sym "[" :: asg_elements lay l (option_map lay r))
  | AsgNamed sp x y o =>
    bracket sp (lay x ++ Sym ":" :: lay y ++ match o with Some z => Sym "=" :: lay z | None => [] end)
  | SBlock sp l => bracket sp (Sym "{" :: many lay l ++ [Sym "}"])
  | SBreak sp o => bracket sp (Sym "break" :: idents o ++ [Opt ";"])
  | SContinue sp o => bracket sp (Sym "continue" :: idents o ++ [Opt ";"])
  | SDebugger sp => bracket sp [Sym "debugger"; Opt ";"]
  | SDoWhile sp b t =>
    bracket sp (Sym "do" :: lay b ++ Sym "while" :: Sym "(" :: lay t ++ [Sym ")"; Opt ";"])
  | SEmpty sp => bracket sp [Sym ";"]
  | SExpr sp x => bracket sp (lay x ++ [Opt ";"])
  | SFor sp i t u b =>
    bracket sp (Sym "for" :: Sym "(" ::
      match i with
      | Some (SVariable vsp k l) => bracket vsp (Sym (kind_string k) :: sep lay l)
      | Some x => lay x
      | None => []
      end ++ Sym ";" :: opt lay t ++ Sym ";" :: opt lay u ++ Sym ")" :: lay b)
  | SForIn sp l r b => bracket sp (Sym "for" :: Sym "(" :: lay l ++ Sym "in" :: lay r ++ Sym ")" :: lay b)
  | SForOf sp l r b a =>
    bracket sp (Sym "for" :: flag a "await" ++ Sym "(" :: lay l ++ Sym "of" :: lay r ++ Sym ")" :: lay b)
  | SIf sp c a b =>
    bracket sp (Sym "if" :: Sym "(" :: lay c ++ Sym ")" :: lay a ++
      match b with Some x => Sym "else" :: lay x | None => [] end)
  | SLabeled sp i b => bracket sp (Id i :: Sym ":" :: lay b)
  | SReturn sp o => bracket sp (Sym "return" :: opt lay o ++ [Opt ";"])
  | SSwitch sp x l => bracket sp (Sym "switch" :: Sym "(" :: lay x ++ Sym ")" :: Sym "{" :: many lay l ++ [Sym "}"])
  | SThrow sp x => bracket sp (Sym "throw" :: lay x ++ [Opt ";"])
  | STry sp b h f =>
    bracket sp (Sym "try" :: lay b ++ opt lay h ++
      match f with Some x => Sym "finally" :: lay x | None => [] end)
  | SVariable sp k l => bracket sp (Sym (kind_string k) :: sep lay l ++ [Opt ";"])
  | SWhile sp t b => bracket sp (Sym "while" :: Sym "(" :: lay t ++ Sym ")" :: lay b)
  | SWith sp o b => bracket sp (Sym "with" :: Sym "(" :: lay o ++ Sym ")" :: lay b)
  | SClassDecl sp i h l =>
    bracket sp (Sym "class" :: IdOpt i ::
      match h with Some x => Sym "extends" :: lay x | None => [] end ++
      Sym "{" :: flat_map (fun x => Rep ";" :: lay x) l ++ [Rep ";"; Sym "}"])
  | SFunctionDecl sp a g i p b =>
    bracket sp (flag a "async" ++ Sym "function" :: flag g "*" ++ IdOpt i :: lay p ++ lay b)
  | SImport sp d ns nm s =>
    bracket sp (Sym "import" ::
      match d, ns, nm with
      | None, None, None => []
      | _, _, _ =>
        idents d ++
        match d, ns, nm with Some _, None, None => [] | Some _, _, _ => [Sym ","] | _, _, _ => [] end ++
        match ns with Some i => [Sym "*"; Sym "as"; Id i] | None => [] end ++
        match nm with Some l => Sym "{" :: listed lay l "}" | None => [] end ++ [Sym "from"]
      end ++ [str_mark s; Opt ";"])
  | XDecl sp d => bracket sp (Sym "export" :: lay d)
  | XDefaultExpr sp x => bracket sp (Sym "export" :: Sym "default" :: lay x ++ [Opt ";"])
  | XDefaultDecl sp d => bracket sp (Sym "export" :: Sym "default" :: lay d)
  | XNamed sp l s =>
    bracket sp (Sym "export" :: Sym "{" :: listed lay l "}" ++
      match s with Some s' => [Sym "from"; str_mark s'] | None => [] end ++ [Opt ";"])
  | XNamespace sp a s =>
    bracket sp (Sym "export" :: Sym "*" :: match a with Some i => [Sym "as"; Id i] | None => [] end ++
      [Sym "from"; str_mark s; Opt ";"])
  | ForBinding sp k p => bracket sp (Sym (kind_string k) :: lay p)
  | SwitchCase sp (Some x) l => bracket sp (Sym "case" :: lay x ++ Sym ":" :: many lay l)
  | SwitchCase sp None l => bracket sp (Sym "default" :: Sym ":" :: many lay l)
  | CatchClause sp (Some p) b => bracket sp (Sym "catch" :: Sym "(" :: lay p ++ Sym ")" :: lay b)
  | CatchClause sp None b => bracket sp (Sym "catch" :: lay b)
  | NamedImport sp x (Some i) => bracket sp [Id x; Sym "as"; Id i]
  | NamedImport sp x None => bracket sp [Id x]
  | NamedExport sp x (Some o) => bracket sp [Id o; Sym "as"; Id x]
  | NamedExport sp x None => bracket sp [Id x]
  | Script sp [] [] | Module sp nil nil => []
  | Script sp ds l | Module sp ds l => bracket sp (directives ds ++ many lay l)
  end.

(** ** Writings *)

Definition symbol (s : string) (t : token) : Prop :=
  (exists p, t_value t = VPunct p /\ punct_string p = s) \/
  (exists k, t_value t = VKeyword k /\ keyword_string k = s).

Definition named (i : ident) (t : token) : Prop :=
  t_span t = id_span i /\
  (t_value t = VIdentifier (id_name i) \/ exists k, t_value t = VKeyword k /\ keyword_str k = id_name i).

(** [fits p ts l q]: the tokens [ts], which come after one that ended at [p],
    are as [l] says; the last one ends at [q]. *)
Inductive fits : nat -> list token -> list mark -> nat -> Prop :=
| fits_done p : fits p [] [] p
| fits_sym p s t ts l q : symbol s t -> fits (tend t) ts l q -> fits p (t :: ts) (Sym s :: l) q
| fits_opt p s t ts l q : symbol s t -> fits (tend t) ts l q -> fits p (t :: ts) (Opt s :: l) q
| fits_opt_none p s ts l q : fits p ts l q -> fits p ts (Opt s :: l) q
| fits_rep p s t ts l q : symbol s t -> fits (tend t) ts (Rep s :: l) q -> fits p (t :: ts) (Rep s :: l) q
| fits_rep_none p s ts l q : fits p ts l q -> fits p ts (Rep s :: l) q
| fits_id p i t ts l q : named i t -> fits (tend t) ts l q -> fits p (t :: ts) (Id i :: l) q
| fits_idopt p i t ts l q : named i t -> fits (tend t) ts l q -> fits p (t :: ts) (IdOpt i :: l) q
| fits_idopt_none p i t ts l q :
    id_name i = [] -> id_span i = mk_span (tstart t) (tstart t) ->
    fits p (t :: ts) l q -> fits p (t :: ts) (IdOpt i :: l) q
| fits_val p v t ts l q : t_value t = v -> fits (tend t) ts l q -> fits p (t :: ts) (Val v :: l) q
| fits_begin p sp t ts l q :
    tstart t = sp_start sp -> sp_start sp < sp_end sp ->
    fits p (t :: ts) l q -> fits p (t :: ts) (Begin sp :: l) q
| fits_end p sp ts l q : p = sp_end sp -> fits p ts l q -> fits p ts (End sp :: l) q.
