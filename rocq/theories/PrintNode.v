(** * PrintNode: the printer calls of a tree write the tokens of the tree. *)

From Verif Require Import Base Tokens Lexer LexSpec Ast AstSpec Layout Bare Starts Codegen PropLexer Unparse PrintLex Print.
Local Open Scope string_scope.
Local Open Scope list_scope.

Section Nodes.
Variable m : bool.
Notation rd := (reads m).

Lemma r_str v cs l : rd cs l -> rd (Str (spell v) :: cs) (T v :: l).
Proof. intros H. apply (rd_app m [_] [_] _ _ (rd_str m v) H). Qed.
Lemma r_char p c cs l : punct_str p = [c] -> rd cs l -> rd (Char c :: cs) (P p :: l).
Proof. intros E H. apply (rd_app m [_] [_] _ _ (rd_char m p c E) H). Qed.
Lemma r_space cs l : rd cs l -> rd (Space :: cs) (Sp :: l).
Proof. intros H. apply (rd_app m [_] [_] _ _ (rd_space m) H). Qed.
Lemma r_new_line cs l : rd cs l -> rd (NewLine :: cs) (NL :: l).
Proof. intros H. apply (rd_app m [_] [_] _ _ (rd_new_line m) H). Qed.
Lemma r_separation cs l : rd cs l -> rd (Separation :: cs) (Brk :: l).
Proof. intros H. apply (rd_app m [_] [_] _ _ (rd_separation m) H). Qed.
Lemma r_stmt_end cs l : rd cs l -> rd (StmtEnd :: cs) (Brk :: l).
Proof. intros H. apply (rd_app m [_] [_] _ _ (rd_stmt_end m) H). Qed.
Lemma r_indent cs l : rd cs l -> rd (PushIndent :: cs) l.
Proof. intros H. apply (rd_app m [_] [] _ _ (rd_indent m) H). Qed.
Lemma r_align cs l : rd cs l -> rd (PushAlign :: cs) l.
Proof. intros H. apply (rd_app m [_] [] _ _ (rd_align m) H). Qed.
Lemma r_no_align cs l : rd cs l -> rd (PushNoAlign :: cs) l.
Proof. intros H. apply (rd_app m [_] [] _ _ (rd_no_align m) H). Qed.
Lemma r_pop cs l : rd cs l -> rd (Pop :: cs) l.
Proof. intros H. apply (rd_app m [_] [] _ _ (rd_pop m) H). Qed.
Lemma r_question_dot cs l : rd cs l -> rd (C_ "?" :: C_ "." :: cs) (P PQuestionMarkDot :: l).
Proof. intros H. apply (rd_app m [_; _] [_] _ _ (rd_question_dot m) H). Qed.
Lemma r_two u v cs l : before u (hd 0%N (spell v)) = true -> rd cs l -> rd (Str (spell u ++ spell v) :: cs) (T u :: T v :: l).
Proof. intros E H. apply (rd_app m [_] [_; _] _ _ (rd_two m u v E) H). Qed.
Lemma r_two_blank u v cs l : rd cs l -> rd (Str (spell u ++ 32%N :: spell v) :: cs) (T u :: Bl :: T v :: l).
Proof. intros H. apply (rd_app m [_] [_; _; _] _ _ (rd_two_blank m u v) H). Qed.
Lemma r_blank u cs l : rd cs l -> rd (Str (spell u ++ [32%N]) :: cs) (T u :: Bl :: l).
Proof. intros H. apply (rd_app m [_] [_; _] _ _ (rd_blank m u) H). Qed.
Lemma r_quote s cs l : rd cs l -> rd (quote_ s ++ cs) (str_item s :: l).
Proof. intros H. apply (rd_app m _ [_] _ _ (rd_quote m s) H). Qed.
Lemma r_block cs l : rd cs l -> rd (StartBlock :: indented cs ++ [EndBlock]) (blk m l).
Proof.
  intros H. apply rd_block. unfold indented. apply r_indent. rewrite <- (app_nil_r l). apply rd_app; auto. apply rd_pop.
Qed.

Lemma spell_word x : spell (word_tok x) = x.
Proof.
  unfold word_tok. destruct (keyword_from_str x) as [k|] eqn:E; auto. apply C06_keyword_roundtrip in E. now subst x.
Qed.
Lemma r_name i : rd (name_ i) (nm i).
Proof.
  unfold name_, nm. destruct (id_name i) as [|c x] eqn:E; [apply rd_empty|].
  rewrite <- (spell_word (c :: x)) at 1. apply rd_str.
Qed.
Lemma r_names o : rd (names_ o) (nms o).
Proof. destruct o; [apply r_name|apply rd_nil]. Qed.

Lemma r_ap cs l ds k : rd cs l -> rd ds k -> rd (cs ++ ds) (l ++ k).
Proof. apply rd_app. Qed.
Lemma r_ap0 cs ds k : rd cs [] -> rd ds k -> rd (cs ++ ds) k.
Proof. intros. apply (rd_app m cs [] ds k); auto. Qed.
Lemma r_cons_ap cs x ds k : rd cs [x] -> rd ds k -> rd (cs ++ ds) (x :: k).
Proof. intros. apply (rd_app m cs [x] ds k); auto. Qed.

Lemma r_sps (b : bool) cs l : rd cs l -> rd ((if b then [Space] else nil) ++ cs) (sps b ++ l).
Proof. intros H. destruct b; [now apply r_space|exact H]. Qed.
Lemma r_parens o c po pc b x l : punct_str po = [ch o] -> punct_str pc = [ch c] -> rd x l ->
  rd (parenthesize o c b x) (nest po pc b l).
Proof.
  intros Eo Ec H. unfold parenthesize, nest. apply r_char; auto. apply r_sps. apply rd_app; auto. apply r_sps.
  now apply rd_char.
Qed.
Lemma r_commas (l : list node) (f : node -> list cmd) (g : node -> list titem) : (forall x, In x l -> rd (f x) (g x)) ->
  rd (comma_separated (map f l)) (commas (map g l)).
Proof.
  induction l as [|a l IH]; intros H; [apply rd_nil|]. destruct l as [|b l].
  - cbn. apply H. now left.
  - cbn [map comma_separated commas] in *. apply rd_app; [apply H; now left|]. apply r_char; [reflexivity|]. apply r_space.
    apply IH. intros x Hx. apply H. now right.
Qed.
Lemma r_flat (l : list node) (f : node -> list cmd) (g : node -> list titem) : (forall x, In x l -> rd (f x) (g x)) -> rd (flat_map f l) (flat_map g l).
Proof.
  induction l as [|a l IH]; intros H; [apply rd_nil|]. cbn [flat_map].
  apply rd_app; [apply H; now left|]. apply IH. intros x Hx. apply H. now right.
Qed.
Lemma r_dirs ds : rd (directives_ ds) (dirs ds).
Proof.
  unfold directives_, dirs. induction ds as [|d ds IH]; [apply rd_nil|]. cbn [flat_map].
  apply rd_app; auto. apply r_quote. apply r_char; [reflexivity|]. apply rd_new_line.
Qed.
Lemma r_equals (o : option node) (f : node -> list cmd) (g : node -> list titem) :
  (forall x, o = Some x -> rd (f x) (g x)) -> rd (initializer_ (option_map f o)) (equals (option_map g o)).
Proof. destruct o as [a|]; cbn; intros H; [|apply rd_nil]. apply r_space, r_char; [reflexivity|]. apply r_space. now apply H. Qed.
Lemma r_rest {A} (l : list A) (r : option node) (f : node -> list cmd) (g : node -> list titem) : (forall x, r = Some x -> rd (f x) (g x)) ->
  rd match option_map f r with Some r => (if is_nil l then [] else [C_ ","; Space]) ++ S_ "..." :: r | None => [] end
     (rest (nil_ l) (option_map g r)).
Proof.
  intros H. unfold rest. destruct r as [x|]; cbn [option_map]; [|apply rd_nil]. destruct l; cbn [is_nil nil_ app].
  - apply (r_str (VPunct PTripleDot)). now apply H.
  - apply r_char; [reflexivity|]. apply r_space. apply (r_str (VPunct PTripleDot)). now apply H.
Qed.

(** A node the printer can print: no empty list of declarations. *)
Definition kind_ok (n : node) : Prop := match n with SVariable _ _ l => l <> [] | _ => True end.

Lemma r_decls l : l <> [] -> (forall d, In d l -> rd (gen d) (items m d)) ->
  exists cs, declarations_ (map (fun d => (gen d, has_initializer d)) l) = cs ++ [C_ ";"] /\
    rd cs (decl_items (map (fun d => (items m d, has_init d)) l)).
Proof.
  intros Hl. induction l as [|a l IH]; [congruence|]. intros H. destruct l as [|b l].
  - exists (gen a). split; [reflexivity|]. apply H. now left.
  - destruct IH as (cs & E & Hr); [discriminate|intros; apply H; now right|].
    exists (gen a ++ C_ "," :: (if has_initializer a then NewLine else Space) :: cs). cbn [map declarations_] in *. rewrite E. split.
    + now rewrite <- !app_assoc.
    + cbn [map decl_items] in *. apply rd_app; [apply H; now left|]. apply r_char; [reflexivity|].
      change (has_init a) with (has_initializer a). destruct (has_initializer a); [now apply r_new_line|now apply r_space].
Qed.

Lemma r_pats l : (forall d, In (Some d) l -> rd (gen d) (items m d)) ->
  rd (array_binding_elements (map (option_map gen) l)) (pats (map (option_map (items m)) l)).
Proof.
  induction l as [|a l IH]; intros H; [apply rd_nil|]. destruct l as [|b l].
  - destruct a as [a|]; cbn.
    + apply H. now left.
    + apply r_char; [reflexivity|]. apply rd_nil.
  - cbn [map array_binding_elements pats] in *.
    assert (X : rd match option_map gen a with Some x => x | None => [] end match option_map (items m) a with Some x => x | None => [] end).
    { destruct a as [a|]; cbn; [|apply rd_nil]. apply H. now left. }
    destruct a as [a|]; cbn [option_map] in *; (apply rd_app; [exact X|]; apply r_char; [reflexivity|]; apply r_space;
      apply IH; intros d Hd; apply H; now right).
Qed.

Lemma r_class nc ni (h : option node) (l : list node) (f g : node -> list cmd) (fi : node -> list titem) : rd nc ni ->
  (forall x, h = Some x -> rd (f x) (fi x)) -> (forall x, In x l -> rd (g x) (fi x)) ->
  rd (class_ nc (option_map f h) (map g l)) (class_items m ni (option_map fi h) (map fi l)).
Proof.
  intros Hn Hh Hl. unfold class_, class_items. apply (r_str (VKeyword KClass)). apply rd_app; auto. apply rd_app.
  - destruct h as [x|]; cbn [option_map]; [|apply rd_nil]. apply (r_str (VKeyword KExtends)). auto.
  - apply r_space. change (PushIndent :: flat_map (fun x => x ++ [NewLine]) (map g l) ++ [Pop; EndBlock])
      with (PushIndent :: flat_map (fun x => x ++ [NewLine]) (map g l) ++ [Pop] ++ [EndBlock]).
    rewrite app_assoc, app_comm_cons. apply rd_block. apply r_indent. rewrite <- (app_nil_r (flat_map _ (map fi l))).
    apply rd_app; [|apply rd_pop]. clear Hn Hh. induction l as [|a l IH]; [apply rd_nil|]. cbn [map flat_map].
    apply rd_app; [|apply IH; intros; apply Hl; now right]. apply rd_app; [apply Hl; now left|apply rd_new_line].
Qed.

Lemma r_fun a g nc ni pc pi bc bi : rd nc ni -> rd pc pi -> rd bc bi ->
  rd (function_ a g nc pc bc) (fun_items a g ni pi bi).
Proof.
  intros Hn Hp Hb. unfold function_, fun_items. apply rd_app.
  - destruct a; [|apply rd_nil]. apply (r_blank (VKeyword KAsync)), rd_nil.
  - apply (r_str (VKeyword KFunction)). apply rd_app.
    + destruct g; [|apply rd_nil]. apply r_char; [reflexivity|apply rd_nil].
    + apply r_space. apply rd_app; auto. apply rd_app; auto. now apply r_space.
Qed.


(** The calls of a tree. *)
Lemma r_app_assoc a b c l : rd (a ++ b ++ c) l -> rd ((a ++ b) ++ c) l.
Proof. now rewrite <- app_assoc. Qed.
Lemma r_items_rest (l : list node) (r : option node) : (forall x, In x l -> rd (gen x) (items m x)) ->
  (forall x, r = Some x -> rd (gen x) (items m x)) ->
  rd (comma_separated_with_rest (map gen l) (option_map gen r)) (commas (map (items m) l) ++ rest (nil_ l) (option_map (items m) r)).
Proof.
  intros Hl Hr. unfold comma_separated_with_rest. apply rd_app; [now apply r_commas|].
  replace (is_nil (map gen l)) with (is_nil l) by now destruct l. now apply r_rest.
Qed.

Lemma r_indented cs l : rd cs l -> rd (indented cs) l.
Proof. intros H. unfold indented. apply r_indent. rewrite <- (app_nil_r l). apply rd_app; auto. apply rd_pop. Qed.
Lemma r_indented_stmt a b x y : rd a x -> rd b y -> rd (indented (a ++ [StmtEnd]) ++ b) (x ++ Brk :: y).
Proof.
  intros Ha Hb. unfold indented. rewrite <- app_comm_cons, <- !app_assoc. apply r_indent.
  apply rd_app; auto. cbn [app]. now apply r_stmt_end, r_pop.
Qed.

(** A template. *)
Lemma r_template_from l : forall (h b : bool) s cs, (if b then cs = [Str s] else cs = [] /\ s = []) -> pieces_ok b l = true ->
  (forall e, In (TplExpr e) l -> rd (gen e) (items m e)) ->
  rd ((Char (if h then ch "`" else ch "}") :: cs) ++ flat_map gen l ++ [C_ "`"]) (tpl_items h s (map (tpl_part m) l)).
Proof.
  induction l as [|x l IH]; intros h b s cs Hcs Hp Hl.
  - cbn [flat_map map tpl_items app]. apply (rd_piece m h true). destruct b; auto.
  - cbn [pieces_ok] in Hp. destruct x; try discriminate Hp; cbn [flat_map gen map tpl_part tpl_items].
    + apply andb_true_iff in Hp. destruct Hp as [Hb Hp]. destruct b; [discriminate|]. destruct Hcs as [-> ->].
      apply (IH h true s0 [Str s0]); auto. intros e He. apply Hl. now right.
    + match goal with |- context [gen ?x] => rename x into n end. rewrite <- app_assoc. cbn [app]. rewrite <- app_assoc.
      change (Char (if h then ch "`" else ch "}") :: cs ++ S_ "${" :: gen n ++ [C_ "}"] ++ flat_map gen l ++ [C_ "`"])
        with ((Char (if h then ch "`" else ch "}") :: cs) ++ [S_ "${"] ++ (gen n ++ [C_ "}"] ++ flat_map gen l ++ [C_ "`"])).
      rewrite app_assoc. apply (r_cons_ap _ (T (piece h false s))).
      * apply (rd_piece m h false). destruct b; auto.
      * apply rd_app; [apply Hl; now left|]. apply (IH false false [] []); auto. intros e He. apply Hl. now right.
Qed.
Lemma r_template l : pieces_ok false l = true -> (forall e, In (TplExpr e) l -> rd (gen e) (items m e)) ->
  rd (C_ "`" :: flat_map gen l ++ [C_ "`"]) (tpl_items true [] (map (tpl_part m) l)).
Proof. intros Hp Hl. apply (r_template_from l true false [] []); auto. Qed.

Ltac leaf IH :=
  apply IH; cbn [children opt_list];
  solve [ repeat match goal with H : ?o = Some _ |- _ => is_var o; subst o end; cbn [opt_list app];
          repeat first [ assumption | left; reflexivity | right; assumption
                       | apply in_or_app; first [ left; solve [repeat first [assumption | left; reflexivity | right]]
                                                | right; solve [repeat first [assumption | left; reflexivity | right]] ]
                       | right ] ].

Ltac rds IH :=
  lazymatch goal with
  | |- rd ((?a ++ ?b) ++ ?c) _ => apply r_app_assoc; rds IH
  | |- rd (indented (_ ++ [StmtEnd]) ++ _) _ => apply r_indented_stmt; rds IH
  | |- rd (match ?o with Some _ => _ | None => _ end ++ _) _ => first [is_var o; destruct o; cbn [app option_map]; rds IH | idtac]
  | |- rd (match ?o with Some _ => _ | None => _ end) _ => first [is_var o; destruct o; cbn [app option_map]; rds IH | idtac]
  | |- rd ((if ?o then _ else _) ++ _) _ => first [is_var o; destruct o; cbn [app]; rds IH | idtac]
  | |- rd (if ?o then _ else _) _ => first [is_var o; destruct o; cbn [app]; rds IH | idtac]
  | |- rd (match ?k with MKGet => _ | MKSet => _ | MKMethod => _ end ++ _) _ => destruct k; cbn [app]; rds IH
  | |- rd (?a ++ ?b) (?x ++ ?y) => apply rd_app; rds IH
  | |- rd (Str ?s :: _) (T ?v :: _) =>
      first [ refine (r_str v _ _ _); rds IH
            | match goal with |- rd _ (T v :: T ?w :: _) => refine (r_two v w _ _ _ _); [vm_compute; reflexivity|rds IH] end
            | match goal with |- rd _ (T v :: Bl :: T ?w :: _) => refine (r_two_blank v w _ _ _); rds IH end
            | refine (r_blank v _ _ _); rds IH | idtac ]
  | |- rd (C_ "?" :: C_ "." :: _) (P PQuestionMarkDot :: _) => apply r_question_dot; rds IH
  | |- rd (Char _ :: _) (P ?p :: _) => apply r_char; [reflexivity|]; rds IH
  | |- rd (Space :: _) _ => apply r_space; rds IH
  | |- rd (NewLine :: _) _ => apply r_new_line; rds IH
  | |- rd (Separation :: _) _ => apply r_separation; rds IH
  | |- rd (StmtEnd :: _) _ => apply r_stmt_end; rds IH
  | |- rd (StartBlock :: indented _ ++ [EndBlock]) _ => apply r_block; rds IH
  | |- rd (PushIndent :: _) _ => apply r_indent; rds IH
  | |- rd (Pop :: _) _ => apply r_pop; rds IH
  | |- rd [] _ => apply rd_nil
  | |- rd (name_ _) _ => apply r_name
  | |- rd (names_ _) _ => apply r_names
  | |- rd (quote_ ?s ++ _) _ => apply r_quote; rds IH
  | |- rd (quote_ ?s) _ => apply rd_quote
  | |- rd (directives_ ?s) _ => apply r_dirs
  | |- rd (parenthesize _ _ _ _) _ => apply r_parens; [reflexivity|reflexivity|]; rds IH
  | |- rd (comma_separated (map _ _)) _ => apply r_commas; let x := fresh in let Hx := fresh in intros x Hx; rds IH
  | |- rd (comma_separated_with_rest (map _ _) _) _ =>
      apply r_items_rest; let x := fresh in let Hx := fresh in intros x Hx; rds IH
  | |- rd (flat_map _ _) _ => apply r_flat; let x := fresh in let Hx := fresh in intros x Hx; rds IH
  | |- rd (initializer_ _) _ => apply r_equals; let x := fresh in let Hx := fresh in intros x Hx; rds IH
  | |- rd (function_ _ _ _ _ _) _ => apply r_fun; rds IH
  | |- rd (class_ _ _ _) _ => apply r_class; [rds IH|let x := fresh in let Hx := fresh in intros x Hx; rds IH..]
  | |- rd (gen _) _ => try (leaf IH)
  | _ => idtac
  end.

Lemma gen_reads : forall n, (forall d, descendant n d -> kind_ok d) -> rd (gen n) (items m n).
Proof.
  induction n as [n IH] using node_children_ind2. intros Hk.
  assert (IH1 : forall c, In c (children n) -> rd (gen c) (items m c)).
  { intros c Hc. apply IH; auto. intros d Hd. apply Hk. eapply desc_child; eauto. }
  assert (IH2 : forall c e, In e (children n) -> In c (children e) -> rd (gen c) (items m c)).
  { intros c e He Hc. apply IH; eauto. intros d Hd. apply Hk. eapply desc_child; eauto. eapply desc_child; eauto. }
  pose proof (Hk n (desc_here n)) as Hn. assert (Hk1 : forall c, In c (children n) -> kind_ok c).
  { intros c Hc. apply Hk. eapply desc_child; eauto. constructor. }
  clear IH Hk.
  assert (IHo : forall o : option node, (forall x, o = Some x -> In x (children n)) ->
            forall x, o = Some x -> rd (gen x) (items m x)) by (intros o Ho x Hx; apply IH1; eauto).
  destruct n; cbn [gen items]; rds IH1.
  - destruct n1; try apply rd_nil. apply r_flat. intros x Hx. eapply IH2; [now left|]. cbn [children]. apply in_or_app. now left.
  - destruct n1; try apply rd_nil. apply r_flat. intros x Hx. eapply IH2; [now left|]. cbn [children]. apply in_or_app. now left.
  - destruct operator; rds IH1.
  - destruct operator; rds IH1.
  - destruct operator; rds IH1.
  - destruct optional; cbn [app]; rds IH1.
  - assert (IHp : rd (gen n2) (items m n2)) by (leaf IH1).
    destruct n2; cbn [app]; try (apply r_char; [reflexivity|exact IHp]).
    + cbn [gen] in IHp |- *. apply r_question_dot. apply r_name.
    + apply r_question_dot. exact IHp.
  - destruct operator; rds IH1.
  - destruct operator; rds IH1.
  - destruct operator; rds IH1.
  - destruct (pieces_ok false parts) eqn:Ep.
    + apply r_template; auto. intros e He. apply (IH2 e (TplExpr e)); [exact He|]. cbn [children]. now left.
    + apply (r_cons_ap [_]); [now apply rd_raw|]. apply rd_app; [|now apply rd_raw]. apply r_flat. intros x Hx. now apply IH1.
  - apply (rd_str m (VIdentifier s)).
  - apply (r_str (VIdentifier (chars "${"))). rds IH1.
  - apply r_pats. intros d Hd. apply IH1. cbn [children]. apply in_or_app. left. clear -Hd.
    induction elements as [|[x|] l IHl]; cbn [cat_options].
    + destruct Hd.
    + destruct Hd as [E|Hd]; [injection E as ->; now left|]. right. auto.
    + destruct Hd as [E|Hd]; [discriminate E|]. auto.
  - destruct elements; cbn [is_nil nil_ app rest]; rds IH1; apply IH1; cbn [children]; apply in_or_app; right; now left.
  - cbn [app]. rds IH1.
  - unfold parenthesize. rewrite <- !app_comm_cons, <- !app_assoc. apply r_char; [reflexivity|]. cbn [app].
    apply rd_app.
    { destruct init as [i|]; [|apply rd_nil].
      assert (Hi : rd (gen i) (items m i)) by (apply IH1; cbn [children opt_list app]; now left).
      assert (Y : (forall k l s, i <> SVariable s k l) -> rd (gen i ++ []) (items m i)) by (intros _; now rewrite app_nil_r).
      destruct i; cbn [gen items] in *; try (apply Y; discriminate). clear Y Hi.
      assert (Hne : declarations <> []) by (apply (Hk1 (SVariable sp0 kind declarations)); cbn [children opt_list app]; now left).
      destruct (r_decls declarations Hne) as (cs & E & Hr).
      { intros d Hd. eapply IH2; [cbn [children opt_list app]; now left|exact Hd]. }
      rewrite E.
      replace ((S_ (kind_string kind) :: Space :: PushAlign :: (cs ++ [C_ ";"]) ++ [Pop]) ++ [DropSemicolon])
        with ((S_ (kind_string kind) :: Space :: PushAlign :: cs) ++ [C_ ";"; Pop; DropSemicolon])
        by (cbn [app]; rewrite <- !app_assoc; reflexivity).
      apply rd_drop. destruct kind; rds IH1; apply r_align; exact Hr. }
    apply r_char; [reflexivity|]. rewrite <- app_assoc. apply rd_app.
    { destruct test; rds IH1; try (apply IH1; cbn [children opt_list]; apply in_or_app; right; now left). }
    cbn [app]. apply r_char; [reflexivity|]. apply rd_app.
    { destruct update; rds IH1; try (apply IH1; cbn [children opt_list]; apply in_or_app; right; apply in_or_app; right; now left). }
    cbn [app]. rds IH1; try (apply IH1; cbn [children opt_list]; repeat (apply in_or_app; right); now left).
  - apply r_indented. rds IH1.
  - cbn [kind_ok] in Hn. destruct (r_decls declarations Hn) as (cs & E & Hr).
    { intros d Hd. now apply IH1. }
    rewrite E, <- app_assoc. destruct kind; rds IH1; apply r_align, rd_app; auto; cbn [app]; rds IH1.
  - change (Str (chars "with(")) with (Str (spell (VKeyword KWith) ++ spell (VPunct PParenOpen))). unfold nest.
    cbn [sps app]. apply r_two; [reflexivity|]. rewrite <- app_assoc. cbn [app]. rds IH1.
  - assert (Y : rd (gen n) (items m n)) by (leaf IH1).
    assert (Z : forall c, In c (children n) -> rd (gen c) (items m c)) by (intros c Hc; eapply IH2; [now left|exact Hc]).
    destruct n; try exact Y. rds Z.
  - assert (Y : rd (gen n) (items m n)) by (leaf IH1).
    assert (Z : forall c, In c (children n) -> rd (gen c) (items m c)) by (intros c Hc; eapply IH2; [now left|exact Hc]).
    destruct n; try exact Y. rds Z.
  - unfold maybe_as_alias, as_name. rds IH1.
  - assert (X : rd (initializer_ (Some (gen n0))) (equals (Some (items m n0)))).
    { cbn [initializer_ equals]. rds IH1. }
    destruct (is_function_expr n0); auto. apply r_no_align. rewrite <- (app_nil_r (equals _)). apply rd_app; auto. apply rd_pop.
  - apply r_indented. rds IH1.
  - apply r_indented. rds IH1.
  - destruct parameter; cbn [app].
    + rewrite <- !app_assoc. rds IH1.
    + rds IH1.
  - unfold maybe_as_alias, as_name. rds IH1.
  - destruct alias_of; cbn [app].
    + rewrite <- !app_assoc. rds IH1.
    + rds IH1.
Qed.

End Nodes.
