(** * Starts: the tokens a construct can start with. *)

From Verif Require Import Base Tokens Ast Parser AstSpec Layout Bare Source Written.
Local Open Scope string_scope.
Local Open Scope list_scope.

(** ** Operators *)

Lemma punct_string_inj p q : punct_string p = punct_string q -> p = q.
Proof. destruct p, q; intros H; first [reflexivity|discriminate H]. Qed.
Lemma keyword_string_inj p q : keyword_string p = keyword_string q -> p = q.
Proof. destruct p, q; intros H; first [reflexivity|discriminate H]. Qed.
Lemma punct_not_keyword p k : punct_string p <> keyword_string k.
Proof. destruct p, k; discriminate. Qed.

Lemma symbol_punct p t : symbol (punct_string p) t -> t_value t = VPunct p.
Proof.
  intros [(q & E & H)|(k & E & H)].
  - apply punct_string_inj in H. congruence.
  - symmetry in H. now apply punct_not_keyword in H.
Qed.
Lemma symbol_keyword k t : symbol (keyword_string k) t -> t_value t = VKeyword k.
Proof.
  intros [(q & E & H)|(q & E & H)].
  - now apply punct_not_keyword in H.
  - apply keyword_string_inj in H. congruence.
Qed.

Definition bin_tok (o : binary_op) : tvalue :=
  match o with
  | BPlus => VPunct PPlus | BMinus => VPunct PMinus | BMultiplication => VPunct PStar | BDivision => VPunct PSlash
  | BModulus => VPunct PPercent | BExponent => VPunct PDoubleStar | BShiftLeft => VPunct PDoubleLessThan
  | BShiftRight => VPunct PDoubleGreaterThan | BShiftRightUnsigned => VPunct PTripleGreaterThan
  | BLessThan => VPunct PLessThan | BMoreThan => VPunct PGreaterThan | BLessThanEquals => VPunct PLessEqual
  | BMoreThanEquals => VPunct PGreaterEqual | BInstanceOf => VKeyword KInstanceof | BIn => VKeyword KIn
  | BEqual => VPunct PDoubleEqual | BNotEqual => VPunct PNotEqual | BStrictEqual => VPunct PTripleEqual
  | BStrictNotEqual => VPunct PExclamationDoubleEqual | BBitwiseAnd => VPunct PAmpersand | BBitwiseXOR => VPunct PCaret
  | BBitwiseOR => VPunct PPipe
  end.
Definition log_tok (o : logical_op) : tvalue :=
  match o with LAnd => VPunct PDoubleAmpersand | LOr => VPunct PDoublePipe | LCoalesce => VPunct PDoubleQuestionMark end.
Definition unary_tok (o : unary_op) : tvalue :=
  match o with
  | UDelete => VKeyword KDelete | UVoid => VKeyword KVoid | UTypeof => VKeyword KTypeof | UPlus => VPunct PPlus
  | UMinus => VPunct PMinus | UBitwiseNot => VPunct PTilde | UNot => VPunct PExclamation
  end.
Definition update_tok (o : update_op) : tvalue :=
  match o with UpIncrease => VPunct PDoublePlus | UpDecrease => VPunct PDoubleMinus end.
Definition assign_tok (o : assign_op) : tvalue :=
  match o with
  | AAssign => VPunct PEqual | AMultiply => VPunct PStarEqual | APower => VPunct PDoubleStarEqual
  | ADivide => VPunct PSlashEqual | AModulus => VPunct PPercentEqual | AAdd => VPunct PPlusEqual
  | ASub => VPunct PMinusEqual | ALeftShift => VPunct PDoubleLessEqual | ARightShift => VPunct PDoubleGreaterEqual
  | AUnsignedRightShift => VPunct PTripleGreaterEqual | ABitwiseAnd => VPunct PAmpersandEqual
  | ABitwiseXOr => VPunct PCaretEqual | ABitwiseOr => VPunct PPipeEqual
  end.
Definition kind_tok (k : variable_kind) : tvalue :=
  VKeyword match k with VKConst => KConst | VKLet => KLet | VKVar => KVar end.

Lemma sym_bin o t : symbol (bin_string o) t -> t_value t = bin_tok o.
Proof. destruct o; intros H; first [now apply symbol_punct|now apply symbol_keyword]. Qed.
Lemma sym_log o t : symbol (log_string o) t -> t_value t = log_tok o.
Proof. destruct o; intros H; first [now apply symbol_punct|now apply symbol_keyword]. Qed.
Lemma sym_unary o t : symbol (unary_string o) t -> t_value t = unary_tok o.
Proof. destruct o; intros H; first [now apply symbol_punct|now apply symbol_keyword]. Qed.
Lemma sym_update o t : symbol (update_string o) t -> t_value t = update_tok o.
Proof. destruct o; intros H; first [now apply symbol_punct|now apply symbol_keyword]. Qed.
Lemma sym_assign o t : symbol (assign_string o) t -> t_value t = assign_tok o.
Proof. destruct o; intros H; first [now apply symbol_punct|now apply symbol_keyword]. Qed.
Lemma sym_kind o t : symbol (kind_string o) t -> t_value t = kind_tok o.
Proof. destruct o; intros H; first [now apply symbol_punct|now apply symbol_keyword]. Qed.

(** ** First tokens *)

Definition isname (c : ctx) (v : tvalue) : bool :=
  match v with VIdentifier _ => true | VKeyword k => usable c k | _ => false end.

Lemma name_isname c x t : name c x t -> isname c (t_value t) = true.
Proof. intros [->|(k & -> & H & _)]; [reflexivity|exact H]. Qed.

Lemma isname_ident c t : isname c (t_value t) = is_identifier_token (Some t) (keyword_context c).
Proof. unfold isname, is_identifier_token. destruct (t_value t); try reflexivity. destruct k; cbn; try reflexivity; destruct (c_await c), (c_yield c), (c_strict c); reflexivity. Qed.

(** The first token of an expression. *)
Definition fexp (k : nat) (c : ctx) (v : tvalue) : bool :=
  match v with
  | VIdentifier _ => true
  | VLiteral (TLRegexp _) => false
  | VLiteral _ => true
  | VTemplateHead _ => true
  | VPunct (PParenOpen | PBraceOpen | PBracketOpen | PSlash | PSlashEqual) => true
  | VPunct (PPlus | PMinus | PTilde | PExclamation) => Nat.leb k 15
  | VPunct (PDoublePlus | PDoubleMinus) => Nat.leb k 16
  | VPunct _ => false
  | VKeyword kk =>
    match kk with
    | KThis | KNull | KTrue | KFalse | KFunction | KClass | KAsync => true
    | KNew | KSuper | KImport => Nat.leb k 18
    | KDelete | KVoid | KTypeof => Nat.leb k 15
    | KAwait => if c_await c then Nat.leb k 15 else true
    | KYield => usable c KYield || (c_yield c && (Nat.leb k 1))
    | KLet => false
    | _ => usable c kk
    end
  | _ => false
  end%bool.

Lemma fexp_le k k' c v : k' <= k -> fexp k c v = true -> fexp k' c v = true.
Proof.
  intros H. destruct v as [kk| |p|[]| | |]; try (intros; assumption).
  - destruct kk; cbn [fexp]; intros E; try exact E;
      try (destruct (c_await c); [|reflexivity]);
      rewrite ?Bool.orb_true_iff, ?Bool.andb_true_iff, ?Nat.leb_le in *; try lia; intuition lia.
  - destruct p; cbn [fexp]; intros E; try exact E; rewrite ?Nat.leb_le in *; lia.
Qed.

(** The second token, when the first is a name. *)
Definition sec (k : nat) (c : ctx) (v : tvalue) (ts : list token) : Prop :=
  isname c v = true ->
  match ts with
  | [] => v <> VKeyword KAsync
  | u :: _ => t_value u <> VPunct PColon /\
      (2 <= k -> t_value u <> VPunct PEqualGreater /\
        (v = VKeyword KAsync -> t_value u = VKeyword KFunction /\ t_fol u = false))
  end.

Definition starts (k : nat) (c : ctx) (ts : list token) : Prop :=
  exists t ts', ts = t :: ts' /\ fexp k c (t_value t) = true /\ sec k c (t_value t) ts'.

Lemma starts_le k k' c ts : k' <= k -> starts k c ts -> starts k' c ts.
Proof.
  intros H (t & ts' & E & Hf & Hs). exists t, ts'. split; [exact E|]. split; [eapply fexp_le; eauto|].
  intros Hn. specialize (Hs Hn). destruct ts' as [|u us]; [exact Hs|]. destruct Hs as [H1 H2]. split; [exact H1|].
  intros Hk. apply H2. lia.
Qed.

Lemma starts_app k c ts u us : starts k c ts -> t_value u <> VPunct PColon -> t_value u <> VPunct PEqualGreater ->
  starts k c (ts ++ u :: us).
Proof.
  intros (t & ts' & -> & Hf & Hs) Ha Hb. exists t, (ts' ++ u :: us). split; [reflexivity|]. split; [exact Hf|].
  intros Hn. specialize (Hs Hn). destruct ts' as [|w ws]; [|exact Hs]. cbn [app]. split; [exact Ha|].
  intros _. split; [exact Hb|]. intros E. now apply Hs in E.
Qed.

Definition head (P : tvalue -> bool) (ts : list token) : Prop := exists t ts', ts = t :: ts' /\ P (t_value t) = true.

Definition fpat (c : ctx) (v : tvalue) : bool :=
  match v with VPunct PBraceOpen | VPunct PBracketOpen => true | _ => isname c v end.
Definition felem (c : ctx) (v : tvalue) : bool :=
  match v with VPunct PTripleDot => true | _ => fexp 1 c v end.
(** The name of a property. *)
Definition fname (v : tvalue) : bool :=
  match v with
  | VIdentifier _ | VKeyword _ | VLiteral (TLString _ _) | VLiteral (TLNumber _) | VPunct PBraceOpen => true
  | _ => false
  end.
Definition fmethod (v : tvalue) : bool := match v with VPunct PStar => true | _ => fname v end.
Definition fprop (v : tvalue) : bool := match v with VPunct PTripleDot => true | _ => fmethod v end.
(** A statement or declaration. *)
Definition fitem (v : tvalue) : bool :=
  match v with
  | VPunct PBracketClose | VKeyword KCase | VKeyword KDefault => false
  | _ => true
  end.
Definition fstmt (v : tvalue) : bool :=
  match v with
  | VKeyword KFunction | VKeyword KClass | VKeyword KImport | VKeyword KExport | VKeyword KConst => false
  | _ => fitem v
  end.
Definition feq (a b : tvalue) : bool := if tvalue_eq_dec a b then true else false.

Definition stmt_second (v : tvalue) (ts : list token) : Prop :=
  match v with
  | VKeyword KLet => exists u us, ts = u :: us /\ t_value u = VPunct PColon
  | VKeyword KAsync => exists u us, ts = u :: us /\ t_value u <> VKeyword KFunction
  | _ => True
  end.

Definition opthead (P : tvalue -> bool) (ts : list token) : Prop := ts = [] \/ head P ts.

Definition hoist_start (ts : list token) : Prop :=
  exists t ts', ts = t :: ts' /\
    (t_value t = VKeyword KFunction \/ t_value t = VKeyword KClass \/
     (t_value t = VKeyword KAsync /\ exists u us, ts' = u :: us /\ t_value u = VKeyword KFunction /\ t_fol u = false)).
Definition var_start (k : variable_kind) (c : ctx) (ts : list token) : Prop :=
  exists t u us, ts = t :: u :: us /\ t_value t = kind_tok k /\ fpat c (t_value u) = true.

Definition SS (cc : cat) (c : ctx) (ts : list token) : Prop :=
  match cc with
  | CE k => starts k c ts
  | CNew | CCall => starts 18 c ts
  | COpt => starts 17 c ts
  | CSeq => starts 1 c ts
  | CElem | CArg => head (felem c) ts
  | CPat | CBind | CDecl | CDecls => head (fpat c) ts
  | CName => (exists t, ts = [t] /\ fname (t_value t) = true /\ t_value t <> VPunct PBraceOpen) \/
             (exists o u us, ts = o :: u :: us /\ t_value o = VPunct PBraceOpen /\ fexp 1 c (t_value u) = true)
  | CProp => head fprop ts
  | CBProp | CAsgProp => head fname ts
  | CAsg => starts 19 c ts
  | CAsgTarget => starts 17 c ts
  | CAsgElem | CAsgSeq => starts 1 c ts
  | CMethod _ => exists t u us, ts = t :: u :: us /\ fmethod (t_value t) = true /\ t_value u <> VPunct PColon /\
      (t_value u = VPunct PParenOpen \/
       In (t_value t) [VPunct PStar; VPunct PBraceOpen; VKeyword KAsync; VKeyword KGet; VKeyword KSet])
  | CStmt _ => exists t ts', ts = t :: ts' /\ fstmt (t_value t) = true /\ stmt_second (t_value t) ts'
  | CItem _ | CTop _ => head fitem ts
  | CVar _ k => var_start k c ts
  | CHoist => hoist_start ts
  | CLex _ => hoist_start ts \/ var_start VKLet c ts \/ var_start VKConst c ts
  | CCases => head (fun v => negb (fitem v)) ts
  | COptE => ts = [] \/ starts 0 c ts
  | CForInit => ts = [] \/ starts 0 (with_in false c) ts \/ exists k, var_start k c ts
  | CForLeft => starts 17 c ts \/ exists k, var_start k c ts
  | CCatch => opthead (feq (VKeyword KCatch)) ts
  | CFinally => opthead (feq (VKeyword KFinally)) ts
  | CHeritage => opthead (feq (VKeyword KExtends)) ts
  | CInit => opthead (feq (VPunct PEqual)) ts
  | CBody | CBlock => head (feq (VPunct PBracketOpen)) ts
  | CClause => head (fun v => match v with VPunct PStar | VPunct PBracketOpen => true | _ => isname c v end) ts
  | CImport | CExport => head (fun v => match v with VIdentifier _ | VKeyword _ => true | _ => false end) ts
  | _ => True
  end.

(** Only some of the flags matter. *)
Lemma fexp_in b k c v : fexp k (with_in b c) v = fexp k c v.
Proof. reflexivity. Qed.
Lemma starts_in b k c ts : starts k (with_in b c) ts -> starts k c ts.
Proof. exact (fun H => H). Qed.

Lemma head_app P ts us : head P ts -> head P (ts ++ us).
Proof. intros (t & ts' & -> & H). now exists t, (ts' ++ us). Qed.
Lemma head_cons P t ts : P (t_value t) = true -> head P (t :: ts).
Proof. intros H. now exists t, ts. Qed.
Lemma head_le (P Q : tvalue -> bool) ts : (forall v, P v = true -> Q v = true) -> head P ts -> head Q ts.
Proof. intros H (t & ts' & -> & Hp). exists t, ts'. split; auto. Qed.

Lemma starts_head k c ts : starts k c ts -> head (fexp k c) ts.
Proof. intros (t & ts' & -> & H & _). now exists t, ts'. Qed.

Lemma starts_cons k c t ts : fexp k c (t_value t) = true -> sec k c (t_value t) ts -> starts k c (t :: ts).
Proof. intros H1 H2. now exists t, ts. Qed.
Lemma starts_kw k c t ts : fexp k c (t_value t) = true -> isname c (t_value t) = false -> starts k c (t :: ts).
Proof. intros H1 H2. apply starts_cons; [exact H1|]. intros E. congruence. Qed.

Lemma fexp_name k c x t : name c x t -> ~ kw KLet t -> fexp k c (t_value t) = true.
Proof.
  intros [->|(kk & E & H & _)] Hl; [reflexivity|]. unfold kw in Hl. rewrite E in *.
  destruct kk; try reflexivity; try discriminate H; try exact H; try congruence.
  - cbn [usable fexp] in *. now destruct (c_await c).
  - cbn [fexp]. now rewrite H.
Qed.

Lemma fpat_name c x t : name c x t -> fpat c (t_value t) = true.
Proof. intros H. apply name_isname in H. destruct (t_value t); try discriminate H; exact H. Qed.

Lemma fname_any x t : anyname x t -> fname (t_value t) = true /\ t_value t <> VPunct PBraceOpen.
Proof. intros [->|(k & -> & _)]; split; first [reflexivity|discriminate]. Qed.

Lemma felem_exp c v : fexp 1 c v = true -> felem c v = true.
Proof. intros H. destruct v as [| |[]| | | |]; first [reflexivity|exact H]. Qed.

Lemma fexp_fitem k c v : fexp k c v = true -> fitem v = true.
Proof. intros H. destruct v as [[]| |[]| | | |]; first [reflexivity|discriminate H]. Qed.

Lemma name_second c ns : SS CName c ns ->
  exists u us, ns = u :: us /\ t_value u <> VPunct PColon.
Proof.
  intros [(u & -> & H & _)|(o & u & us & -> & H & _)].
  - exists u, []. split; [reflexivity|]. intros E. now rewrite E in H.
  - exists o, (u :: us). split; [reflexivity|]. congruence.
Qed.

Ltac tokval := unfold pu, kw, str_tok in *;
  repeat match goal with
  | H : symbol (unary_string _) _ |- _ => apply sym_unary in H
  | H : symbol (update_string _) _ |- _ => apply sym_update in H
  | H : symbol (assign_string _) _ |- _ => apply sym_assign in H
  | H : symbol (bin_string _) _ |- _ => apply sym_bin in H
  | H : symbol (log_string _) _ |- _ => apply sym_log in H
  | H : symbol (kind_string _) _ |- _ => apply sym_kind in H
  end.

Lemma G_starts cc c ts r : G cc c ts r -> SS cc c ts.
Proof.
  induction 1; cbn [SS] in *; try exact Logic.I; tokval.
  all: try (apply starts_kw; [match goal with H : t_value _ = _ |- _ => rewrite H; reflexivity end|
                              match goal with H : t_value _ = _ |- _ => rewrite H; reflexivity end]; fail).
  all: try (apply starts_app; [first [assumption|eapply starts_le; [|eassumption]; lia]|
              match goal with H : t_value ?t = _ |- t_value ?t <> _ => rewrite H; discriminate end|
              match goal with H : t_value ?t = _ |- t_value ?t <> _ => rewrite H; discriminate end]; fail).
  all: try assumption.
  all: try (eapply starts_le; [|eassumption]; lia).
  all: try (apply head_cons; match goal with H : t_value ?t = _ |- context [t_value ?t] => rewrite H; reflexivity end).
  all: try (right; apply head_cons; match goal with H : t_value ?t = _ |- context [t_value ?t] => rewrite H; reflexivity end).
  all: try (left; reflexivity).
  all: try (eexists _, _; split; [reflexivity|]; match goal with H : t_value ?t = _ |- context [t_value ?t] => rewrite H end;
            split; [reflexivity|exact Logic.I]; fail).
  all: try (eexists _, _; split; [reflexivity|]; tauto).
  - apply starts_cons; [now apply fexp_name with x|]. now intros _.
  - apply starts_kw; destruct H as [H|H]; rewrite H; reflexivity.
  - apply starts_cons; [match goal with H : t_value _ = _ |- _ => now rewrite H end|]. intros _. rewrite H0. repeat split; try discriminate; assumption.
  - apply starts_app; [eapply starts_le; [|eassumption]; lia| |]; rewrite H1; destruct o; discriminate.
  - apply starts_kw; rewrite H1; now destruct o.
  - apply starts_kw; rewrite H; now destruct o.
  - apply starts_kw; rewrite H0; cbn; now rewrite H.
  - apply starts_app; [assumption| |]; rewrite H0; destruct o; discriminate.
  - apply starts_app; [assumption| |]; rewrite H0; destruct o; discriminate.
  - apply starts_app; [eapply starts_le; [|eassumption]; lia| |]; rewrite H2; destruct o; discriminate.
  - apply starts_kw; rewrite H0; cbn; rewrite H; [now rewrite Bool.orb_true_r|reflexivity].
  - apply starts_kw; rewrite H0; cbn; rewrite H; [now rewrite Bool.orb_true_r|reflexivity].
  - apply starts_cons; [now apply fexp_name with x|]. intros _. split; [congruence|lia].
  - apply starts_cons; [match goal with H : t_value _ = _ |- _ => now rewrite H end|]. intros _. split; [|lia].
    apply name_isname in H0. intros E. now rewrite E in H0.
  - apply starts_cons; [match goal with H : t_value _ = _ |- _ => now rewrite H end|]. intros _. split; [congruence|lia].
  - apply starts_head in IHG. eapply head_le; [|exact IHG]. apply felem_exp.
  - apply starts_head in IHG. eapply head_le; [|exact IHG]. apply felem_exp.
  - apply head_cons. apply name_isname in H. destruct (t_value t); try discriminate; reflexivity.
  - destruct IHG1 as [(u & -> & Hz & _)|(o & u & us & -> & Hz & _)].
    + apply head_cons. destruct (t_value u) as [| |[]|[]| | |]; first [reflexivity|discriminate].
    + apply head_cons. now rewrite Hz.
  - destruct IHG as (t & u & us & -> & Hz & _). apply head_cons.
    destruct (t_value t) as [| |[]|[]| | |]; first [reflexivity|discriminate].
  - left. exists t. split; [reflexivity|]. now apply fname_any with x.
  - left. exists t. split; [reflexivity|]. rewrite H. split; [reflexivity|discriminate].
  - left. exists t. split; [reflexivity|]. rewrite H. split; [reflexivity|discriminate].
  - right. destruct IHG as (u & us & -> & Hu & _). exists o, u, (us ++ [cl]). auto.
  - apply head_cons. now apply fpat_name with x.
  - now apply head_app.
  - apply head_cons. apply name_isname in H. destruct (t_value t); try discriminate; reflexivity.
  - destruct IHG1 as [(u & -> & Hz & _)|(o & u & us & -> & Hz & _)].
    + now apply head_cons.
    + apply head_cons. now rewrite Hz.
  - destruct IHG2 as [->|(u & vs & -> & Hu)]; [rewrite app_nil_r; eapply starts_le; [|exact IHG1]; lia|].
    unfold feq in Hu. destruct (tvalue_eq_dec (VPunct PEqual) (t_value u)) as [E|]; [|discriminate].
    apply starts_app; [eapply starts_le; [|exact IHG1]; lia| |]; rewrite <- E; discriminate.
  - apply head_cons. apply name_isname in H. destruct (t_value t); try discriminate; reflexivity.
  - destruct IHG1 as [(u & -> & Hz & _)|(o & u & us & -> & Hz & _)].
    + now apply head_cons.
    + apply head_cons. now rewrite Hz.
  - destruct IHG1 as [(u & -> & Hz & _)|(q & u & us & -> & Hz & Hy)].
    + exists u, o, (ps ++ bs). split; [reflexivity|]. split; [|split; [congruence|auto]].
      destruct (t_value u) as [| |[]|[]| | |]; first [reflexivity|discriminate].
    + exists q, u, (us ++ o :: ps ++ bs). split; [reflexivity|]. rewrite Hz. split; [reflexivity|]. split.
      * intros E. now rewrite E in Hy.
      * right. cbn. auto.
  - destruct (name_second _ _ IHG1) as (u & us & -> & Hu). exists k, u, (us ++ o :: cl :: bs). rewrite H1.
    repeat split; try exact Hu; try reflexivity. right. cbn. auto.
  - destruct (name_second _ _ IHG1) as (u & us & -> & Hu). exists k, u, (us ++ o :: ps ++ cl :: bs). rewrite H1.
    repeat split; try exact Hu; try reflexivity. right. cbn. auto 6.
  - destruct (name_second _ _ IHG1) as (u & us & -> & Hu). exists s, u, (us ++ o :: ps ++ bs). rewrite H.
    repeat split; try exact Hu; try reflexivity. right. cbn. auto.
  - destruct (name_second _ _ IHG1) as (u & us & -> & Hu). unfold star in H1. destruct g.
    + destruct H1 as (w & -> & Hw). exists s, w, ((u :: us) ++ o :: ps ++ bs). rewrite H.
      split; [reflexivity|]. split; [reflexivity|]. unfold pu in Hw. rewrite Hw. split; [discriminate|right; cbn; auto].
    + subst gt. exists s, u, (us ++ o :: ps ++ bs). rewrite H.
      repeat split; try exact Hu; try reflexivity. right. cbn. auto.
  - destruct IHG as (t & ts' & -> & Hz). exists t, ts'. split; [reflexivity|]. unfold feq in Hz.
    destruct (tvalue_eq_dec (VPunct PBracketOpen) (t_value t)) as [E|]; [|discriminate]. rewrite <- E. split; reflexivity.
  - destruct IHG as (t & u & us & -> & Hz & Hy). eexists _, _. split; [reflexivity|]. rewrite Hz. split; reflexivity.
  - destruct IHG as (t & ts' & -> & Hf & Hs). exists t, (ts' ++ us). split; [reflexivity|]. cbn [not_first] in H0. split.
    + destruct (t_value t) as [[]| |[]| | | |]; try reflexivity; try discriminate Hf; exfalso; apply H0; cbn; auto 6.
    + unfold sec in Hs. destruct (t_value t) as [[]| |[]| | | |] eqn:Et; try exact Logic.I; try discriminate Hf.
      specialize (Hs eq_refl). destruct ts' as [|u vs]; [now contradiction Hs|].
      exists u, (vs ++ us). split; [reflexivity|]. intros E. now apply (H1 t u vs eq_refl).
  - exists l, (d :: ts). split; [reflexivity|]. apply name_isname in H. split.
    + destruct (t_value l) as [[]| |[]| | | |]; try reflexivity; discriminate H.
    + destruct (t_value l) as [[]| |[]| | | |]; try exact Logic.I; exists d, ts; split; try reflexivity; congruence.
  - destruct IHG as (t & ts' & -> & Hf & _). exists t, ts'. split; [reflexivity|].
    destruct (t_value t) as [[]| |[]| | | |]; try reflexivity; discriminate Hf.
  - destruct IHG as [(t & ts' & -> & Hz)|[(t & u & us & -> & Hz & _)|(t & u & us & -> & Hz & _)]]; apply head_cons.
    + destruct Hz as [->|[->|[-> _]]]; reflexivity.
    + now rewrite Hz.
    + now rewrite Hz.
  - now left.
  - destruct k; [auto|auto|congruence].
  - destruct IHG as (u & us' & -> & Hu). exists t, u, (us' ++ us). auto.
  - destruct IHG as (u & us' & -> & Hu). exists t, u, (us' ++ us). auto.
  - destruct IHG as (u & us' & -> & Hu). exists t, u, (us' ++ us). auto.
  - now apply head_app.
  - now apply head_app.
  - eexists _, _. split; [reflexivity|]. right. right. split; [assumption|]. eauto.
  - now right.
  - right. now left.
  - right. right. destruct IHG as (u & us' & -> & Hu). exists k, t, u, us'. auto.
  - right. destruct (H1 true) as (u & us' & -> & Hu). exists k, t, u, us'. auto.
  - left. exact (H0 true).
  - left. eapply starts_le; [|exact (H0 true)]; lia.
  - apply head_cons. apply name_isname in H. destruct (t_value t); try discriminate; exact H.
  - apply head_cons. apply name_isname in H. destruct (t_value u); try discriminate; exact H.
  - apply head_cons. apply name_isname in H. destruct (t_value u); try discriminate; exact H.
  - apply head_cons. apply name_isname in H. destruct (t_value t); try discriminate; reflexivity.
  - apply head_cons. destruct H as [->|(? & -> & _)]; reflexivity.
  - apply head_cons. destruct H as [->|(? & -> & _)]; reflexivity.
  - apply head_cons. destruct H as [->|(? & -> & _)]; reflexivity.
Qed.

(** ** No construct starts with a token that is read on demand only *)

Lemma name_ord c x t : name c x t -> ordinary t.
Proof. intros [E|(k & E & _)]; unfold ordinary; now rewrite E. Qed.
Lemma anyname_ord x t : anyname x t -> ordinary t.
Proof. intros [E|(k & E & _)]; unfold ordinary; now rewrite E. Qed.
Lemma name_not_opener c x t : name c x t -> opener (t_value t) = true -> False.
Proof. intros [E|(k & E & _)]; rewrite E; discriminate. Qed.
Lemma anyname_not_opener x t : anyname x t -> opener (t_value t) = true -> False.
Proof. intros [E|(k & E & _)]; rewrite E; discriminate. Qed.
Lemma star_ord b ts : star b ts -> ord_hd ts.
Proof. destruct b; [intros (t & -> & E); cbn; unfold ordinary; now rewrite E|now intros ->]. Qed.
Lemma optname_ord c o ts : optname c o ts -> ord_hd ts.
Proof. intros [[_ ->]|(x & t & _ & -> & H)]; [exact Logic.I|]. now apply name_ord in H. Qed.
Lemma dname_ord c x ts : dname c x ts -> ord_hd ts.
Proof. intros [(t & -> & H)|(_ & -> & _)]; [|exact Logic.I]. now apply name_ord in H. Qed.
Lemma ends_ord ts nx : ends ts nx -> ord_hd ts.
Proof. intros [(t & -> & E)|[-> _]]; [cbn; unfold ordinary; now rewrite E|exact Logic.I]. Qed.
Lemma ends_expr_ord ts nx : ends_expr ts nx -> ord_hd ts.
Proof. intros [(t & -> & E)|[-> _]]; [cbn; unfold ordinary; now rewrite E|exact Logic.I]. Qed.

Definition OH (cc : cat) (ts : list token) : Prop := match cc with CNoDir _ => True | _ => ord_hd ts end.
Lemma G_ord cc c ts r : G cc c ts r -> OH cc ts.
Proof.
  induction 1; cbn [OH] in *; tokval;
    try assumption; try exact Logic.I;
    try (cbn [ord_hd app]; match goal with H : t_value ?t = _ |- ordinary ?t => unfold ordinary; rewrite H; reflexivity end);
    try (cbn [ord_hd app]; first [eapply name_ord; eassumption|eapply anyname_ord; eassumption]);
    repeat (apply ord_app; [first [assumption|eapply ends_ord; eassumption|eapply ends_expr_ord; eassumption]|]);
    try assumption; try exact Logic.I;
    try (cbn [ord_hd app]; match goal with H : t_value ?t = _ |- ordinary ?t => unfold ordinary; rewrite H; reflexivity end);
    try (first [eapply ends_ord; eassumption|eapply ends_expr_ord; eassumption]).
  all: try (match goal with H : t_value ?t = _ ?o |- ord_hd (?t :: _) => cbn [ord_hd]; unfold ordinary; rewrite H; destruct o; reflexivity end).
  - destruct H as [H|H]; cbn [ord_hd]; unfold ordinary; rewrite H; reflexivity.
  - apply ord_app; [|assumption]. destruct ts as [|t ts]; [congruence|]. exact (H0 t eq_refl).
  - exact (H0 true).
  - exact (H0 true).
Qed.
