(** * Unparse: the tokens a tree is printed as (the specification of C34).

    [items m n] lists the tokens of the tree [n] in the order they are printed,
    and where blanks and line breaks stand between them; [m]: in minified code.
    It is written in terms of tokens and knows nothing of the printer.

    [apart m l] says that no two neighbouring tokens of [l] run together, when
    blanks are left out in minified code and a blank is put between letters
    and digits. *)

From Verif Require Import Base Tokens Lexer LexSpec Ast AstSpec Layout Bare Starts.
Local Open Scope string_scope.
Local Open Scope list_scope.

Inductive titem : Set :=
| T (v : tvalue)   (* a token *)
| Sp               (* a blank, left out in minified code *)
| NL               (* a line break, left out in minified code *)
| Brk              (* the same, or nothing *)
| Bl.              (* a blank *)

(** ** Tokens *)

(** How a token is written. *)
Definition spell (v : tvalue) : str :=
  match v with
  | VKeyword k => keyword_str k
  | VIdentifier x => x
  | VPunct p => punct_str p
  | VLiteral (TLString s q) => [q] ++ s ++ [q]
  | VLiteral (TLNumber r) => r
  | VLiteral (TLRegexp s) => s
  | VLiteral (TLTemplate s) => chars "`" ++ s ++ chars "`"
  | VTemplateHead s => chars "`" ++ s ++ chars "${"
  | VTemplateMiddle s => chars "}" ++ s ++ chars "${"
  | VTemplateTail s => chars "}" ++ s ++ chars "`"
  end.

(** A piece of a template ([h]: the first, [e]: the last). *)
Definition piece (h e : bool) (s : str) : tvalue :=
  match h, e with
  | true, true => VLiteral (TLTemplate s)
  | true, false => VTemplateHead s
  | false, false => VTemplateMiddle s
  | false, true => VTemplateTail s
  end.
(** It goes on after a substitution. *)
Definition resumes (v : tvalue) : bool := match v with VTemplateMiddle _ | VTemplateTail _ => true | _ => false end.

Definition word_char (c : N) : bool := (ascii_alnum c || N.eqb c 95 || N.eqb c 36)%bool.
Definition digit_char (c : N) : bool := in_range 48 57 c.

Definition word_tok (x : str) : tvalue :=
  match keyword_from_str x with Some k => VKeyword k | None => VIdentifier x end.

(** A token that can be written as [spell] says: no escapes, ASCII. *)
Definition plain (v : tvalue) : Prop :=
  match v with
  | VKeyword _ | VPunct _ => True
  | VIdentifier x => keyword_from_str x = None /\ forallb word_char x = true /\
                     exists c x', x = c :: x' /\ digit_char c = false
  | VLiteral (TLNumber r) => ascii_str r = true /\ exists after, number r after
  | VLiteral (TLString s q) => (q = 34%N \/ q = 39%N) /\ ascii_str s = true /\ string_body q s s
  | VLiteral (TLTemplate s) | VTemplateTail s => ascii_str s = true /\ template_body (chars "`") s s
  | VTemplateHead s | VTemplateMiddle s => ascii_str s = true /\ template_body (chars "${") s s
  | VLiteral (TLRegexp s) =>
    ascii_str s = true /\ exists b flags, s = chars "/" ++ b ++ chars "/" ++ flags /\ regexp_body b /\
      b <> [] /\ hd 0%N b <> ch "*" /\ forallb word_char flags = true
  end.

Definition starts_with (p s : str) : bool := str_eqb (firstn (length p) s) p.

(** The token [v] ends where it should when [c] follows. *)
Definition before (v : tvalue) (c : N) : bool :=
  match v with
  | VKeyword _ | VIdentifier _ | VLiteral (TLRegexp _) => negb (word_char c) && negb (N.eqb c (ch "\"))
  | VLiteral (TLNumber r) =>
    (* [5.a] is not [5] and [.a] *)
    negb (word_char c) && (negb (N.eqb c (ch ".")) || existsb (fun d => negb (digit_char d || N.eqb d 95)) r)
  | VPunct p =>
    forallb (fun q => negb (starts_with (punct_str p ++ [c]) (punct_str q))) all_puncts &&
    match p with
    | PDot | PQuestionMarkDot => negb (digit_char c) && negb (N.eqb c (ch "."))
    | PSlash => negb (N.eqb c (ch "/")) && negb (N.eqb c (ch "*"))     (* a comment *)
    | PLessThan => negb (N.eqb c (ch "!"))                             (* the same *)
    | PDoubleMinus => negb (N.eqb c (ch ">"))                          (* the same *)
    | _ => true
    end
  | _ => true
  end.

Definition wordlike (v : tvalue) : bool :=
  match v with VKeyword _ | VIdentifier _ | VLiteral (TLNumber _) => true | _ => false end.

(** [v] can be written right after [u], or a blank is written between them. *)
Definition together (u v : tvalue) : bool :=
  match spell v with
  | c :: _ => (wordlike v && ascii_alnum (last (spell u) 0%N) && ascii_alnum c) || before u c
  | [] => true
  end.

Fixpoint apart (m : bool) (prev : option tvalue) (blank : bool) (l : list titem) : bool :=
  match l with
  | [] => true
  | T v :: l' => match prev with Some u => blank || together u v | None => true end && apart m (Some v) false l'
  | Sp :: l' | NL :: l' => apart m prev (blank || negb m) l'
  | Bl :: l' => apart m prev true l'
  | Brk :: l' => apart m prev blank l'
  end.

(** No line break comes before the [}] that ends a substitution ([b]: a line
    break may come here, or nothing comes before). *)
Fixpoint snug (b : bool) (l : list titem) : bool :=
  match l with
  | [] => true
  | T v :: l' => negb (resumes v && b) && snug false l'
  | NL :: l' | Brk :: l' => snug true l'
  | Sp :: l' | Bl :: l' => snug b l'
  end.

(** ** Trees *)

Notation P p := (T (VPunct p)).
Notation K k := (T (VKeyword k)).

(** Something is written in minified code. *)
Definition ink (l : list titem) : bool := existsb (fun x => match x with T _ | Bl => true | _ => false end) l.

(** Without a semicolon at the end. *)
Fixpoint dropped (l : list titem) : list titem :=
  match l with
  | [] => []
  | P PSemiColon :: l' => if ink l' then P PSemiColon :: dropped l' else l'
  | x :: l' => x :: dropped l'
  end.

(** A template: [h]: the first piece, [s]: of which [s] was met; [l]: what
    comes next, texts and substitutions. *)
Fixpoint tpl_items (h : bool) (s : str) (l : list (str + list titem)) : list titem :=
  match l with
  | [] => [T (piece h true s)]
  | inl s' :: l' => tpl_items h (s ++ s') l'
  | inr x :: l' => T (piece h false s) :: x ++ tpl_items false [] l'
  end.
(** Texts and substitutions, and no two texts next to each other ([b]: after a text). *)
Fixpoint pieces_ok (b : bool) (l : list node) : bool :=
  match l with
  | [] => true
  | TplString _ :: l' => negb b && pieces_ok true l'
  | TplExpr _ :: l' => pieces_ok false l'
  | _ => false
  end.
(** Other text (a token only by chance). *)
Definition raw (s : str) : titem := T (VIdentifier s).

Fixpoint commas (l : list (list titem)) : list titem :=
  match l with
  | [] => []
  | [x] => x
  | x :: l' => x ++ P PComma :: Sp :: commas l'
  end.
Definition rest (first : bool) (r : option (list titem)) : list titem :=
  match r with
  | Some x => (if first then [] else [P PComma; Sp]) ++ P PTripleDot :: x
  | None => []
  end.
Definition nil_ {A} (l : list A) : bool := match l with [] => true | _ => false end.
Definition sps (b : bool) : list titem := if b then [Sp] else [].
Definition nest (o c : punct) (b : bool) (x : list titem) : list titem := P o :: sps b ++ x ++ sps b ++ [P c].
Definition equals (o : option (list titem)) : list titem :=
  match o with Some x => Sp :: P PEqual :: Sp :: x | None => [] end.

Definition nm (i : ident) : list titem := match id_name i with [] => [] | x => [T (word_tok x)] end.
Definition nms (o : option ident) : list titem := match o with Some i => nm i | None => [] end.
Definition str_item (s : lit_string) : titem := T (VLiteral (TLString (ls_value s) (ls_delimiter s))).
Definition dirs (ds : list lit_string) : list titem := flat_map (fun d => [str_item d; P PSemiColon; NL]) ds.
Definition as_name (o : option ident) : list titem :=
  match o with Some i => Sp :: K KAs :: Sp :: nm i | None => [] end.

Fixpoint decl_items (l : list (list titem * bool)) : list titem :=
  match l with
  | [] => []
  | [(x, _)] => x
  | (x, init) :: l' => x ++ P PComma :: (if init then NL else Sp) :: decl_items l'
  end.
Fixpoint pats (l : list (option (list titem))) : list titem :=
  match l with
  | [] => []
  | [Some x] => x
  | [None] => [P PComma]
  | o :: l' => match o with Some x => x | None => [] end ++ P PComma :: Sp :: pats l'
  end.

Definition fun_items (a g : bool) (name params body : list titem) : list titem :=
  (if a then [K KAsync; Bl] else []) ++ K KFunction :: (if g then [P PStar] else []) ++
  Sp :: name ++ params ++ Sp :: body.

Definition has_init (n : node) : bool := match n with VarDecl _ _ (Some _) => true | _ => false end.

Section Items.
Variable m : bool.

(** A block; in minified code the semicolon before the closing brace is left out. *)
Definition blk (l : list titem) : list titem :=
  P PBracketOpen :: Brk :: (if m then dropped l else l) ++ [P PBracketClose].

Definition class_items (name : list titem) (h : option (list titem)) (l : list (list titem)) : list titem :=
  K KClass :: name ++ match h with Some x => K KExtends :: x | None => [] end ++
  Sp :: blk (flat_map (fun x => x ++ [NL]) l).

Fixpoint items (n : node) : list titem :=
  let stmts l := flat_map (fun x => items x ++ [Brk]) l in
  match n with
  | EArrow _ a b p e =>
    (if a then [K KAsync; Sp] else []) ++
    (if b then match p with FormalParameters _ l _ => flat_map items l | _ => [] end else items p) ++
    Sp :: P PEqualGreater :: Sp :: items e
  | EAssign _ o a b => items a ++ Sp :: T (assign_tok o) :: Sp :: items b
  | EAwait _ a => K KAwait :: Sp :: items a
  | EBinary _ o a b => items a ++ Sp :: T (bin_tok o) :: Sp :: items b
  | ELogical _ o a b => items a ++ Sp :: T (log_tok o) :: Sp :: items b
  | ECall _ a _ l | EOptionalCall _ a _ l false => items a ++ nest PParenOpen PParenClose false (commas (map items l))
  | CalleeSuper | ObjSuper _ => [K KSuper]
  | CalleeImport => [K KImport]
  | EClass _ i h l => class_items (nms i) (option_map items h) (map items l)
  | EConditional _ a b c => items a ++ Sp :: P PQuestionMark :: Sp :: items b ++ Sp :: P PColon :: Sp :: items c
  | EFunction _ a g i p b => fun_items a g (nms i) (items p) (items b)
  | EIdentRef i | DefIdentRef i | NameIdent i | BindIdent i => nm i
  | ELiteral _ l => items l
  | EMember _ o p | EOptionalMember _ o p false => items o ++ items p
  | EMetaProperty _ a b => nm a ++ P PDot :: nm b
  | ENew _ a s l =>
    K KNew :: Sp :: items a ++
    match s with Some _ => nest PParenOpen PParenClose false (commas (map items l)) | None => [] end
  | EOptionalCall _ a _ l true =>
    items a ++ P PQuestionMarkDot :: nest PParenOpen PParenClose false (commas (map items l))
  | EOptionalMember _ o p true =>
    items o ++ match p with
               | PropIdent i => P PQuestionMarkDot :: nm i
               | PropExpr e => P PQuestionMarkDot :: items p
               | _ => P PQuestionMark :: items p
               end
  | EParenthesized _ e => nest PParenOpen PParenClose false (items e)
  | ESequence _ l => commas (map items l)
  | ETaggedTemplate _ a t => items a ++ items t
  | EThis _ => [K KThis]
  | EUnary _ o a => T (unary_tok o) :: items a
  | EUpdate _ o true a => T (update_tok o) :: items a
  | EUpdate _ o false a => items a ++ [T (update_tok o)]
  | EYield _ a g => K KYield :: (if g then [P PStar] else []) ++ match a with Some x => Sp :: items x | None => [] end
  | PropIdent i => P PDot :: nm i
  | PropExpr e | NameComputed e => nest PBraceOpen PBraceClose false (items e)
  | ArgExpr e | ElemExpr e => items e
  | ArgSpread e | ElemSpread e | DefSpread e => P PTripleDot :: items e
  | LitNull => [K KNull]
  | LitBoolean b => [K (if b then KTrue else KFalse)]
  | LitRegexp s => [T (VLiteral (TLRegexp s))]
  | LitString s | NameString s => [str_item s]
  | LitNumber r | NameNumber r => [T (VLiteral (TLNumber r))]
  | LitArray l => nest PBraceOpen PBraceClose (negb (nil_ l)) (commas (map items l))
  | LitObject l => nest PBracketOpen PBracketClose (negb (nil_ l)) (commas (map items l))
  | LitTemplate l =>
    if pieces_ok false l
    then tpl_items true [] (map (fun x => match x with TplString s => inl s | TplExpr e => inr (items e) | _ => inr [] end) l)
    else raw (chars "`") :: flat_map items l ++ [raw (chars "`")]
  | TplString s => [raw s]
  | TplExpr e => raw (chars "${") :: items e ++ [P PBracketClose]
  | ElemElision => []
  | DefNamed _ x v => items x ++ P PColon :: Sp :: items v
  | DefMethod x => items x
  | Method _ x k p b g a st =>
    (if st then [K KStatic; Sp] else []) ++ (if a then [K KAsync; Sp] else []) ++ (if g then [P PStar] else []) ++
    match k with MKGet => [K KGet] | MKSet => [K KSet] | MKMethod => [] end ++ items x ++ items p ++ Sp :: items b
  | FormalParameters _ l r =>
    nest PParenOpen PParenClose false (commas (map items l) ++ rest (nil_ l) (option_map items r))
  | Body _ ds l => blk (dirs ds ++ stmts l)
  | BindArray _ l r =>
    nest PBraceOpen PBraceClose (negb (nil_ l && match r with None => true | _ => false end))
      (pats (map (option_map items) l) ++ rest (nil_ l) (option_map items r))
  | BindObject _ l r =>
    nest PBracketOpen PBracketClose (negb (nil_ l && match r with None => true | _ => false end))
      (commas (map items l) ++ rest (nil_ l) (option_map items r))
  | BindSingle _ i o => nm i ++ equals (option_map items o)
  | BindNamed _ x y => items x ++ P PColon :: Sp :: items y
  | BindElement _ p o => items p ++ equals (option_map items o)
  | AsgArray _ _ _ | AsgObject _ _ _ | AsgElement _ _ _ | AsgSingle _ _ _ | AsgNamed _ _ _ _ => []
  | SBlock _ l => blk (stmts l)
  | SBreak _ o => K KBreak :: match o with Some i => Sp :: nm i | None => [] end ++ [P PSemiColon]
  | SContinue _ o => K KContinue :: match o with Some i => Sp :: nm i | None => [] end ++ [P PSemiColon]
  | SDebugger _ => [K KDebugger; P PSemiColon]
  | SDoWhile _ b t =>
    K KDo :: Bl :: items b ++ Brk :: K KWhile :: Sp :: nest PParenOpen PParenClose false (items t)
  | SEmpty _ => [P PSemiColon]
  | SExpr _ e => items e ++ [P PSemiColon]
  | SFor _ i t u b =>
    K KFor :: Sp :: P PParenOpen ::
    match i with
    | Some (SVariable _ k l) => T (kind_tok k) :: Sp :: decl_items (map (fun d => (items d, has_init d)) l)
    | Some x => items x
    | None => []
    end ++ P PSemiColon :: match t with Some x => Sp :: items x | None => [] end ++
    P PSemiColon :: match u with Some x => Sp :: items x | None => [] end ++ P PParenClose ::
    Sp :: items b ++ [Brk]
  | SForIn _ l r b =>
    K KFor :: Sp :: nest PParenOpen PParenClose false (items l ++ K KIn :: Sp :: items r) ++ Sp :: items b ++ [Brk]
  | SForOf _ l r b a =>
    K KFor :: (if a then [K KAwait] else []) ++ Sp ::
    nest PParenOpen PParenClose false (items l ++ K KOf :: Sp :: items r) ++ Sp :: items b ++ [Brk]
  | SIf _ c a b =>
    K KIf :: Sp :: nest PParenOpen PParenClose false (items c) ++ NL :: items a ++ Brk ::
    match b with Some x => K KElse :: NL :: items x ++ [Brk] | None => [] end
  | SLabeled _ i b => nm i ++ P PColon :: Sp :: items b ++ [Brk]
  | SReturn _ o => K KReturn :: match o with Some x => Sp :: items x | None => [] end ++ [P PSemiColon]
  | SSwitch _ d l => K KSwitch :: Sp :: nest PParenOpen PParenClose false (items d) ++ Sp :: blk (flat_map items l)
  | SThrow _ a => K KThrow :: Sp :: items a
  | STry _ b h f =>
    K KTry :: Sp :: items b ++ match h with Some x => Sp :: K KCatch :: Sp :: items x | None => [] end ++
    match f with Some x => Sp :: K KFinally :: Sp :: items x | None => [] end
  | SVariable _ k l =>
    T (kind_tok k) :: Sp :: decl_items (map (fun d => (items d, has_init d)) l) ++ [P PSemiColon]
  | SWhile _ t b => K KWhile :: Sp :: nest PParenOpen PParenClose false (items t) ++ Sp :: items b ++ [Brk]
  | SWith _ o b => K KWith :: nest PParenOpen PParenClose false (items o) ++ Sp :: items b ++ [Brk]
  | SClassDecl _ i h l => class_items (nm i) (option_map items h) (map items l)
  | SFunctionDecl _ a g i p b => Brk :: fun_items a g (nm i) (items p) (items b)
  | SImport _ d ns l from =>
    K KImport :: match d with Some i => Sp :: nm i | None => [] end ++
    match ns with
    | Some i => (if d then [P PComma] else []) ++ Sp :: P PStar :: Sp :: K KAs :: Sp :: nm i
    | None => []
    end ++
    match l with
    | Some l => (if d then [P PComma] else []) ++
                Sp :: nest PBracketOpen PBracketClose (negb (nil_ l)) (commas (map items l))
    | None => []
    end ++
    match d, ns, l with None, None, None => [] | _, _, _ => [Sp; K KFrom] end ++
    [Sp; str_item from; P PSemiColon]
  | XDecl _ d =>
    K KExport :: Sp ::
    match d with SFunctionDecl _ a g i p b => fun_items a g (nm i) (items p) (items b) | _ => items d end ++ [Brk]
  | XDefaultDecl _ d =>
    K KExport :: Bl :: K KDefault :: Sp ::
    match d with SFunctionDecl _ a g i p b => fun_items a g (nm i) (items p) (items b) | _ => items d end ++ [Brk]
  | XDefaultExpr _ e => K KExport :: Bl :: K KDefault :: Sp :: items e ++ [P PSemiColon]
  | XNamespace _ a from => K KExport :: Sp :: P PStar :: as_name a ++ [Sp; K KFrom; Sp; str_item from]
  | XNamed _ l from =>
    K KExport :: Sp :: nest PBracketOpen PBracketClose (negb (nil_ l)) (commas (map items l)) ++
    match from with Some s => [Sp; K KFrom; Sp; str_item s] | None => [] end ++ [P PSemiColon]
  | NamedExport _ x a => match a with Some i => nm i ++ [Sp; K KAs; Sp] | None => [] end ++ nm x
  | NamedImport _ x a => nm x ++ as_name a
  | VarDecl _ p o => items p ++ equals (option_map items o)
  | ForBinding _ _ _ => []
  | SwitchCase _ t l =>
    match t with Some x => K KCase :: Bl :: items x | None => [K KDefault] end ++ P PColon :: NL :: stmts l
  | CatchClause _ p b =>
    match p with Some x => nest PParenOpen PParenClose false (items x) ++ [Sp] | None => [] end ++ items b
  | Script _ ds l | Module _ ds l => dirs ds ++ stmts l
  end.

Definition tpl_part (x : node) : str + list titem :=
  match x with TplString s => inl s | TplExpr e => inr (items e) | _ => inr [] end.
Lemma items_template l : pieces_ok false l = true -> items (LitTemplate l) = tpl_items true [] (map tpl_part l).
Proof. intros H. cbn [items]. now rewrite H. Qed.

End Items.

(** ** Trees whose code reads back as the same tree

    The printer writes some trees as another tree; these conditions exclude
    them (see PropCodegen for what happens without). *)

(** The statement at the end of a statement. *)
Fixpoint tail_stmt (n : node) : node :=
  match n with
  | SIf _ _ _ (Some x) | SIf _ _ x None => tail_stmt x
  | SWhile _ _ x | SWith _ _ x | SFor _ _ _ _ x | SForIn _ _ _ x | SForOf _ _ _ x _ | SLabeled _ _ x => tail_stmt x
  | _ => n
  end.
Definition tail_do (n : node) : bool := match tail_stmt n with SDoWhile _ _ _ => true | _ => false end.
Definition tail_throw (n : node) : bool := match tail_stmt n with SThrow _ _ => true | _ => false end.
Definition tail_empty (n : node) : bool := match tail_stmt n with SEmpty _ => true | _ => false end.
Definition empty_stmt (n : node) : bool := match n with SEmpty _ => true | _ => false end.

(** [throw] and [do .. while] are printed without a semicolon: nothing but a
    closing brace comes after [throw], and no semicolon after [do .. while].
    [cl]: the list is followed by a closing brace (or the end); [d]: a
    semicolon before it is left out. *)
Fixpoint list_ok (cl d : bool) (l : list node) : bool :=
  match l with
  | [] => true
  | a :: l' =>
    match l' with
    | [] => (cl || negb (tail_throw a)) && negb (d && tail_empty a)
    | x :: _ => negb (tail_throw a) && negb (tail_do a && empty_stmt x)
    end && list_ok cl d l'
  end.
Fixpoint cases_ok (d : bool) (l : list node) : bool :=
  match l with
  | [] => true
  | SwitchCase _ _ s :: l' => (if nil_ l' then list_ok true d s else list_ok false false s) && cases_ok d l'
  | _ => false
  end.

(** The parameters of an arrow function that also read as an expression. *)
Definition not_in (l : list str) (x : str) : bool := negb (existsb (str_eqb x) l).
Definition ref_name : str -> bool := not_in [chars "let"; chars "async"].
Definition target_name : str -> bool := not_in [chars "let"; chars "async"; chars "eval"; chars "arguments"].
Definition short_name : str -> bool := not_in [chars "static"; chars "async"; chars "get"; chars "set"].
Fixpoint covers (n : node) : bool :=
  match n with
  | BindIdent i => ref_name (id_name i)
  | BindElement _ p None => covers p
  | BindElement _ (BindIdent i) (Some _) => target_name (id_name i)
  | BindArray _ l r =>
    forallb (fun o => match o with Some x => covers x | None => true end) l &&
    match r with Some x => covers x | None => true end
  | BindObject _ l r => forallb covers l && match r with Some x => covers x | None => true end
  | BindSingle _ i None => short_name (id_name i)
  | BindNamed _ x y => match x with NameComputed _ => false | _ => covers y end
  | _ => false
  end.

Section Printable.
Variable m : bool.

Definition string_first (l : list node) : bool :=
  match l with
  | [] => false
  | a :: _ => match items m a with T (VLiteral (TLString _ _)) :: _ => true | _ => false end
  end.

(** The condition on a node .. *)
Definition node_ok (n : node) : bool :=
  match n with
  | LitArray l => match last l LitNull with ElemElision => false | _ => true end
  | BindArray _ l (Some _) => match l with [] => true | _ => match last l None with None => false | _ => true end end
  | SVariable _ _ l => negb (nil_ l)
  | ForBinding _ _ _ | XNamespace _ _ _ => false
  | AsgArray _ _ _ | AsgObject _ _ _ | AsgElement _ _ _ | AsgSingle _ _ _ | AsgNamed _ _ _ _ => false
  | SIf _ _ a (Some _) | SDoWhile _ a _ => negb (tail_throw a)
  | SBlock _ l => list_ok true m l
  | Body _ _ l | Script _ _ l | Module _ _ l => list_ok true m l && negb (string_first l)
  | SSwitch _ _ l => cases_ok m l
  | EArrow _ a false (FormalParameters _ l r) _ =>
    forallb covers l && match r with Some x => negb a || covers x | None => true end
  | _ => true
  end.

(** .. and on a tree. *)
Definition printable (n : node) : Prop := forall x, descendant n x -> node_ok x = true.

End Printable.
