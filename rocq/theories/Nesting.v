(** * Nesting: the nodes of a tree are written inside one another. *)

From Verif Require Import Base Tokens Ast ParseState AstSpec Layout LayoutSound.
Local Open Scope string_scope.
Local Open Scope list_scope.

(** A node is written as [lay] says, or, for the parameter of [x => ..] and the
    declaration in the head of a [for], without parentheses or semicolon. *)
Definition lays (n : node) (l : list mark) : Prop :=
  l = lay n \/
  match n with
  | FormalParameters sp bs None => l = bracket sp (sep lay bs)
  | SVariable sp k ds => l = bracket sp (Sym (kind_string k) :: sep lay ds)
  | _ => False
  end.

Inductive subs : list mark -> list node -> Prop :=
| subs_nil l : subs l []
| subs_cons l lc r c cs : lays c lc -> subs r cs -> subs (l ++ lc ++ r) (c :: cs).

Lemma subs_app_l l r cs : subs r cs -> subs (l ++ r) cs.
Proof.
  intros H. destruct H as [r|l' lc r c cs H1 H2]; [constructor|]. rewrite app_assoc. now constructor.
Qed.
Lemma subs_skip m r cs : subs r cs -> subs (m :: r) cs.
Proof. apply (subs_app_l [m]). Qed.
Lemma subs_app l r cs ds : subs l cs -> subs r ds -> subs (l ++ r) (cs ++ ds).
Proof.
  intros H1 H2. induction H1 as [l|l lc r1 c cs H H1 IH]; cbn.
  - now apply subs_app_l.
  - rewrite <- !app_assoc. now constructor.
Qed.
Lemma subs_one n r cs : subs r cs -> subs (lay n ++ r) (n :: cs).
Proof. intros H. apply (subs_cons []); [left; reflexivity|exact H]. Qed.
Lemma subs_lay n : subs (lay n) [n].
Proof. rewrite <- (app_nil_r (lay n)). apply subs_one, subs_nil. Qed.
Lemma subs_app_nil l cs r : subs l cs -> subs (l ++ r) cs.
Proof. intros H. rewrite <- (app_nil_r cs). apply subs_app; [exact H|constructor]. Qed.
Lemma subs_bracket sp l cs : subs l cs -> subs (bracket sp l) cs.
Proof. intros H. unfold bracket. apply subs_skip. now apply subs_app_nil. Qed.

Lemma subs_many l : subs (many lay l) l.
Proof. induction l; cbn; [constructor|]. now apply subs_one. Qed.
Lemma subs_sep l : subs (sep lay l) l.
Proof.
  induction l as [|x l IH]; [constructor|]. cbn [sep]. apply subs_one.
  destruct l; [constructor|]. now apply subs_skip.
Qed.
Lemma subs_opt o : subs (opt lay o) (opt_list o).
Proof. destruct o; cbn; [apply subs_lay|constructor]. Qed.
Lemma subs_listed l close : subs (listed lay l close) l.
Proof. unfold listed. destruct l; [constructor|]. apply subs_app_nil, subs_sep. Qed.
Lemma subs_rlisted l r close : subs (rlisted lay l r close) (l ++ opt_list r).
Proof.
  unfold rlisted. destruct r as [x|]; cbn [opt_list].
  - apply subs_app.
    + induction l as [|y l IH]; cbn [flat_map]; [constructor|]. rewrite <- app_assoc. apply subs_one. now apply subs_skip.
    + apply subs_skip. apply subs_one. constructor.
  - rewrite app_nil_r. apply subs_listed.
Qed.
Lemma subs_elements l : subs (elements lay l) l.
Proof.
  induction l as [|x l IH]; [constructor|].
  assert (H : subs match l with [] => [Opt ","; Sym "]"] | _ => Sym "," :: elements lay l end l).
  { destruct l; [constructor|]. now apply subs_skip. }
  destruct x; cbn [Layout.elements]; try (apply subs_one; exact H).
  apply (subs_cons [] [] _ ElemElision); [left; reflexivity|]. now apply subs_skip.
Qed.
Lemma subs_bind_elements l r : subs (bind_elements lay l (option_map lay r)) (cat_options l ++ opt_list r).
Proof.
  induction l as [|[x|] l IH]; cbn [bind_elements cat_options].
  - destruct r; cbn; [|constructor]. apply subs_skip, subs_one. constructor.
  - cbn [app]. apply subs_one. destruct l; [destruct r|]; now apply subs_skip.
  - now apply subs_skip.
Qed.
Lemma subs_asg_elements l r : subs (asg_elements lay l (option_map lay r)) (cat_options l ++ opt_list r).
Proof.
  induction l as [|[x|] l IH]; cbn [asg_elements cat_options].
  - destruct r; cbn; [|constructor]. apply subs_skip, subs_one. constructor.
  - cbn [app]. now apply subs_one.
  - now apply subs_skip.
Qed.
Lemma subs_str s r cs : subs r cs -> subs r (TplString s :: cs).
Proof. intros H. apply (subs_cons [] [] r (TplString s)); [left; reflexivity|exact H]. Qed.
Lemma subs_tpl e r cs : subs r cs -> subs (lay e ++ r) (TplExpr e :: cs).
Proof. intros H. apply (subs_one (TplExpr e)). exact H. Qed.
Lemma subs_template_parts l : subs (template_parts lay l) l.
Proof.
  assert (H : forall n l, length l <= n -> subs (template_parts lay l) l); [|eauto].
  clear l. induction n as [|n IH]; intros l Hl.
  - destruct l; [constructor|cbn in Hl; lia].
  - destruct l as [|x l]; [constructor|]. cbn [length] in Hl.
    assert (Hx : subs (lay x ++ template_parts lay l) (x :: l)) by (apply subs_one; apply IH; lia).
    assert (He : forall l', length l' <= n ->
      subs match l' with [] => [Val (VTemplateTail [])] | _ => Val (VTemplateMiddle []) :: template_parts lay l' end l').
    { intros l' H'. destruct l'; [constructor|]. apply subs_skip. apply IH. cbn in *; lia. }
    destruct x; try exact Hx. destruct l as [|y l]; [cbn; apply subs_tpl; constructor|].
    cbn [length] in Hl.
    pose proof (He (y :: l) ltac:(cbn; lia)) as Hy.
    destruct y; cbn [template_parts] in *; apply subs_tpl; try exact Hy. apply subs_str.
    destruct l; [constructor|]. apply subs_skip. apply IH. cbn in *; lia.
Qed.
Lemma subs_template l : subs (template lay l) l.
Proof.
  destruct l as [|x l]; [constructor|].
  destruct x; cbn [template]; try (apply subs_skip; apply (subs_template_parts (_ :: l))).
  apply subs_str. destruct l; [constructor|]. apply subs_skip, subs_template_parts.
Qed.
Lemma subs_elem l r : subs (flat_map (fun x => Rep ";" :: lay x) l ++ r) l.
Proof. induction l as [|x l IH]; cbn [flat_map]; [constructor|]. rewrite <- app_assoc. cbn [app]. apply subs_skip. now apply subs_one. Qed.

(** The children of a node are written one after the other inside it. *)
Ltac sub :=
  repeat first
  [ assumption
  | apply subs_nil
  | apply subs_many | apply subs_sep | apply subs_opt | apply subs_listed | apply subs_rlisted | apply subs_elements
  | apply subs_bind_elements | apply subs_asg_elements | apply subs_template | apply subs_elem
  | apply subs_lay
  | apply subs_one
  | apply subs_bracket
  | apply subs_skip
  | match goal with |- subs (_ ++ _) (_ ++ _) => apply subs_app end ].

Lemma subs_init o r cs : subs r cs ->
  subs (match o with Some x => Sym "=" :: lay x | None => [] end ++ r) (opt_list o ++ cs).
Proof. intros H. apply subs_app; [destruct o|exact H]; sub. Qed.

Lemma subs_extends o r cs : subs r cs ->
  subs (match o with Some x => Sym "extends" :: lay x | None => [] end ++ r) (opt_list o ++ cs).
Proof. intros H. apply subs_app; [destruct o|exact H]; sub. Qed.
Lemma subs_flag b s r cs : subs r cs -> subs (flag b s ++ r) cs.
Proof. intros H. now apply subs_app_l. Qed.
Lemma subs_idents o r cs : subs r cs -> subs (idents o ++ r) cs.
Proof. intros H. now apply subs_app_l. Qed.
Lemma subs_directives o r cs : subs r cs -> subs (Layout.directives o ++ r) cs.
Proof. intros H. now apply subs_app_l. Qed.

Ltac sub2 :=
  repeat first
  [ progress sub
  | apply subs_flag | apply subs_idents | apply subs_directives | apply subs_extends
  | match goal with |- subs (many lay ?l ++ _) ?l => apply subs_app_nil end
  | match goal with |- subs (listed lay ?l _ ++ _) ?l => apply subs_app_nil end
  | match goal with |- subs (opt lay ?l ++ _) (opt_list ?l) => apply subs_app_nil end
  | match goal with |- subs (sep lay ?l ++ _) ?l => apply subs_app_nil end ].

Lemma subs_arrow_params n : lays n match n with FormalParameters psp l None => bracket psp (sep lay l) | _ => lay n end.
Proof. destruct n; try (left; reflexivity). destruct rest; [left|right]; reflexivity. Qed.
Lemma subs_for_init n :
  lays n match n with SVariable vsp k l => bracket vsp (Sym (kind_string k) :: sep lay l) | _ => lay n end.
Proof. destruct n; try (left; reflexivity). right; reflexivity. Qed.

Ltac dest :=
  repeat match goal with
  | |- context [match ?o with Some _ => _ | None => _ end] => is_var o; destruct o
  | |- context [if ?b then _ else _] => is_var b; destruct b
  end.

Lemma lay_subs n : subs (lay n) (children n).
Proof.
  destruct n; cbn [lay children]; try solve [sub]; try solve [sub2]; try solve [dest; cbn [opt_list app]; sub2].
  - destruct binding_parameter; sub2. apply (subs_cons [] _ _ n1); [apply subs_arrow_params|sub].
  - sub2. destruct n2; try apply subs_lay. apply (subs_app_l [Sym "."]). apply (subs_lay (PropIdent id)).
  - sub2. destruct n2; try (apply subs_flag, subs_lay).
    apply (subs_app_l [Sym (if optional then "?." else ".")]). apply (subs_lay (PropIdent id)).
  - apply subs_flag, subs_bracket. destruct kind; cbn [app]; try solve [sub].
    apply subs_app_l. sub.
  - apply subs_bracket. do 2 apply subs_skip. apply subs_app; [|sub]. destruct init as [x|]; cbn [opt_list]; [|constructor].
    rewrite <- (app_nil_r (match x with SVariable _ _ _ => _ | _ => _ end)). apply (subs_cons [] _ _ x []); [|constructor].
    apply (subs_for_init x).
  - apply subs_bracket, subs_skip. apply subs_app_nil.
    destruct default_binding, namespace_binding, named_imports; cbn [idents app]; try apply subs_nil;
      repeat apply subs_skip; apply subs_app_nil; apply subs_listed.
Qed.

Lemma lays_subs n l : lays n l -> subs l (children n).
Proof.
  intros [->|H]; [apply lay_subs|]. destruct n; try contradiction.
  - destruct rest; [contradiction|]. subst l. cbn [children opt_list]. rewrite app_nil_r. sub.
  - subst l. sub.
Qed.

(** ** Descendants *)

Lemma subs_in l cs c : subs l cs -> In c cs -> exists u lc v, lays c lc /\ l = u ++ lc ++ v.
Proof.
  induction 1 as [l|l lc r d ds H H1 IH]; intros Hin; [destruct Hin|]. destruct Hin as [->|Hin].
  - exists l, lc, r. auto.
  - destruct (IH Hin) as (u & lc' & v & Hl & ->). exists (l ++ lc ++ u), lc', v. rewrite <- !app_assoc. auto.
Qed.

Lemma descendant_infix n x : descendant n x -> forall l, lays n l ->
  exists u lx v, lays x lx /\ l = u ++ lx ++ v.
Proof.
  induction 1 as [n|n c x Hin Hd IH]; intros l Hl.
  - exists [], l, []. rewrite app_nil_r. auto.
  - destruct (subs_in _ _ _ (lays_subs _ _ Hl) Hin) as (u & lc & v & Hc & ->).
    destruct (IH _ Hc) as (u' & lx & v' & Hx & ->). exists (u ++ u'), lx, (v' ++ v).
    rewrite <- !app_assoc. auto.
Qed.

(** Two children, in order. *)
Lemma subs_two l c1 x c2 y c3 : subs l (c1 ++ x :: c2 ++ y :: c3) ->
  exists u lx v ly w, lays x lx /\ lays y ly /\ l = u ++ lx ++ v ++ ly ++ w.
Proof.
  revert l. induction c1 as [|c c1 IH]; intros l H; inversion H as [|l0 lc r d ds H1 H2]; subst; cbn [app] in *.
  - destruct (subs_in _ _ y H2) as (u & ly & v & Hy & ->); [apply in_or_app; right; left; reflexivity|].
    exists l0, lc, u, ly, v. auto.
  - destruct (IH _ H2) as (u & lx & v & ly & w & Hx & Hy & ->).
    exists (l0 ++ lc ++ u), lx, v, ly, w. rewrite <- !app_assoc. auto.
Qed.

(** ** Spans *)

(** The nodes that carry a span; the empty program is left out. *)
Definition has_span (n : node) : bool :=
  match n with
  | CalleeSuper | CalleeImport | PropIdent _ | PropExpr _ | ArgExpr _ | ArgSpread _ | LitNull | LitBoolean _
  | LitString _ | LitNumber _ | LitArray _ | LitObject _ | LitRegexp _ | LitTemplate _ | TplString _ | TplExpr _
  | ElemElision | ElemExpr _ | ElemSpread _ | DefIdentRef _ | DefSpread _ | DefMethod _ | NameIdent _
  | NameString _ | NameNumber _ | NameComputed _ => false
  | Script _ [] [] | Module _ nil nil => false
  | _ => true
  end.

Definition is_sym (m : mark) : Prop := match m with Sym _ => True | _ => False end.

Lemma lays_bracket n l : lays n l -> has_span n = true ->
  exists pre ms, l = pre ++ bracket (node_span n) ms /\ Forall is_sym pre.
Proof.
  assert (H0 : forall l, exists pre ms, bracket (node_span n) l = pre ++ bracket (node_span n) ms /\ Forall is_sym pre).
  { intros l0. exists [], l0. auto. }
  intros [->|H] Hs.
  - destruct n; try discriminate Hs; cbn [lay node_span] in *; try apply H0;
      try match goal with |- context [flag _ "static"] => fail 1 | _ => dest end; try apply H0.
    + exists (flag is_static "static"). eexists. split; [reflexivity|]. destruct is_static; repeat constructor.
    + discriminate Hs.
    + discriminate Hs.
  - destruct n; try contradiction; cbn [node_span] in *; [destruct rest; [contradiction|]|]; subst l; apply H0.
Qed.

Lemma fits_drop p ts l m q : fits p ts (l ++ m) q -> exists a b, ts = a ++ b /\ fits (fin p a) b m q.
Proof.
  remember (l ++ m) as k eqn:E. intros H. revert l E.
  assert (Hbase : forall p ts q, fits p ts m q -> exists a b, ts = a ++ b /\ fits (fin p a) b m q).
  { intros p0 ts0 q0 H0. exists [], ts0. auto. }
  induction H; intros l0 E;
    (destruct l0 as [|x l0]; [cbn in E; subst; apply Hbase; econstructor; eauto; fail|]); cbn in E; try discriminate E;
    injection E as <- E.
  all: try (match goal with IH : forall l, _ -> exists a b, _ |- exists a b, ?t :: ?ts = _ /\ _ =>
      destruct (IH _ E) as (a & b & -> & Hf); exists (t :: a), b; rewrite fin_cons; auto; fail end).
  all: try (match goal with IH : forall l, _ -> exists a b, _ |- _ => apply (IH _ E) end).
  destruct (IHfits (Rep s :: l0)) as (a & b & -> & Hf); [cbn; now rewrite E|].
  exists (t :: a), b. rewrite fin_cons. auto.
Qed.

Definition after (p : nat) (ts : list token) : Prop := Forall (fun t => p <= tstart t) ts.

Lemma after_fin p a b : ordered (a ++ b) -> after p (a ++ b) -> after (fin p a) b /\ p <= fin p a.
Proof.
  revert p. induction a as [|t a IH]; intros p Ho Ha; [split; [exact Ha|unfold fin; cbn; lia]|].
  cbn [app] in *. rewrite fin_cons. apply ordered_cons in Ho. destruct Ho as (H1 & H2 & H3).
  destruct (IH _ H3 H2) as [H4 H5]. split; [exact H4|]. inversion Ha; subst. lia.
Qed.

Lemma begin_inv p ts sp l q : fits p ts (Begin sp :: l) q ->
  exists t ts', ts = t :: ts' /\ tstart t = sp_start sp /\ sp_start sp < sp_end sp /\ fits p ts l q.
Proof. intros H. inversion H; subst. eauto 6. Qed.
Lemma end_inv p ts sp l q : fits p ts (End sp :: l) q -> p = sp_end sp /\ fits p ts l q.
Proof. intros H. inversion H; subst. auto. Qed.

(** Beginnings come in order. *)
Lemma begin_begin p ts s1 w s2 m q : ordered ts -> after p ts ->
  fits p ts (Begin s1 :: w ++ Begin s2 :: m) q -> sp_start s1 <= sp_start s2.
Proof.
  intros Ho Ha H. apply begin_inv in H. destruct H as (t & ts' & -> & H1 & _ & H).
  apply fits_drop in H. destruct H as (a & b & E & H). apply begin_inv in H.
  destruct H as (t2 & b' & -> & H2 & _ & H). rewrite <- H1, <- H2.
  apply ordered_cons in Ho. destruct Ho as (O1 & O2 & O3). destruct a as [|u a]; cbn in E; injection E as -> E.
  - lia.
  - subst ts'. apply Forall_app in O2. destruct O2 as [_ O2]. inversion O2; subst. lia.
Qed.
(** So do ends. *)
Lemma end_end p ts s1 w s2 m q : ordered ts -> after p ts ->
  fits p ts (End s1 :: w ++ End s2 :: m) q -> sp_end s1 <= sp_end s2.
Proof.
  intros Ho Ha H. apply end_inv in H. destruct H as [-> H].
  apply fits_drop in H. destruct H as (a & b & -> & H). apply end_inv in H. destruct H as [<- _].
  now apply after_fin in Ha.
Qed.
Lemma end_begin p ts s1 w s2 m q : ordered ts -> after p ts ->
  fits p ts (End s1 :: w ++ Begin s2 :: m) q -> sp_end s1 <= sp_start s2.
Proof.
  intros Ho Ha H. apply end_inv in H. destruct H as [-> H].
  apply fits_drop in H. destruct H as (a & b & -> & H). apply begin_inv in H. destruct H as (t & b' & -> & <- & _).
  apply after_fin in Ha; [|exact Ho]. destruct Ha as [Ha Hp]. inversion Ha; subst. lia.
Qed.

(** Drop, keeping the order. *)
Lemma drop_ordered p ts l m q : ordered ts -> after p ts -> fits p ts (l ++ m) q ->
  exists a b, ts = a ++ b /\ ordered b /\ after (fin p a) b /\ fits (fin p a) b m q.
Proof.
  intros Ho Ha H. apply fits_drop in H. destruct H as (a & b & -> & H). exists a, b.
  apply after_fin in Ha; [|exact Ho]. apply ordered_app in Ho. tauto.
Qed.

Lemma bracket_exact p ts sp ms l q : ordered ts -> after p ts -> fits p ts (bracket sp ms ++ l) q ->
  exists tx t2, ts = tx ++ t2 /\ tx <> [] /\ sp = span_of tx.
Proof.
  unfold bracket. cbn [app]. rewrite <- app_assoc. intros Ho Ha H.
  apply begin_inv in H. destruct H as (t & ts' & E & H1 & H2 & H).
  apply fits_drop in H. destruct H as (a & b & -> & H). cbn [app] in H. apply end_inv in H. destruct H as [H3 _].
  assert (Hne : a <> []).
  { intros ->. unfold fin in H3. cbn in H3. cbn [app] in E. subst b. inversion Ha; subst. lia. }
  exists a, b. repeat split; auto. destruct sp as [s e]. cbn in *. unfold span_of. f_equal.
  - destruct a as [|u a]; [congruence|]. cbn in E. injection E as -> _. cbn. auto.
  - rewrite <- H3. now apply fin_tfin.
Qed.

Section Tree.
Variables (a : node) (ts : list token) (q : nat).
Hypothesis Hord : ordered ts.
Hypothesis Hfits : fits 0 ts (lay a) q.

Lemma after0 l : after 0 l.
Proof. apply Forall_forall. intros. lia. Qed.

(** Every span is that of a run of tokens. *)
Theorem span_exact x : descendant a x -> has_span x = true ->
  exists t1 tx t2, ts = t1 ++ tx ++ t2 /\ tx <> [] /\ node_span x = span_of tx.
Proof.
  intros Hd Hs. destruct (descendant_infix _ _ Hd (lay a) (or_introl eq_refl)) as (u & lx & v & Hx & E).
  destruct (lays_bracket _ _ Hx Hs) as (pre & ms & -> & _). pose proof Hfits as H.
  rewrite E, <- app_assoc, app_assoc in H. apply drop_ordered in H; auto using after0.
  destruct H as (t1 & b & -> & Ho & Ha & H). apply bracket_exact in H; auto.
  destruct H as (tx & t2 & -> & Hne & Hsp). exists t1, tx, t2. auto.
Qed.

Lemma app_split_begin (pre : list mark) s m u s' m' : Forall is_sym pre ->
  pre ++ Begin s :: m = u ++ Begin s' :: m' ->
  exists w, u = pre ++ w /\ Begin s :: m = w ++ Begin s' :: m'.
Proof.
  revert u. induction pre as [|x pre IH]; intros u Hp E; [exists u; auto|].
  inversion Hp; subst. destruct u as [|y u]; cbn in E; injection E as -> E; [contradiction|].
  destruct (IH _ H2 E) as (w & -> & E'). exists w. auto.
Qed.

(** A descendant's span lies inside. *)
Theorem span_nested x y : descendant a x -> descendant x y -> has_span x = true -> has_span y = true ->
  sp_start (node_span x) <= sp_start (node_span y) /\ sp_end (node_span y) <= sp_end (node_span x).
Proof.
  intros Hd Hd2 Hs Hs2.
  destruct (descendant_infix _ _ Hd (lay a) (or_introl eq_refl)) as (u & lx & v & Hx & E).
  destruct (descendant_infix _ _ Hd2 _ Hx) as (u' & ly & v' & Hy & E').
  destruct (lays_bracket _ _ Hx Hs) as (pre & ms & Ex & Hpre).
  destruct (lays_bracket _ _ Hy Hs2) as (pre' & ms' & -> & Hpre').
  pose proof Hfits as H. rewrite E in H. apply drop_ordered in H; auto using after0.
  destruct H as (t1 & b & -> & Ho & Ha & H).
  rewrite E' in Ex. unfold bracket in *. rewrite <- !app_assoc in Ex. cbn [app] in Ex. rewrite <- !app_assoc in Ex.
  cbn [app] in Ex. rewrite app_assoc in Ex. symmetry in Ex.
  destruct (app_split_begin _ _ _ _ _ _ Hpre Ex) as (w & Eu & Ew).
  assert (Elx : lx = pre ++ Begin (node_span x) :: ms ++ [End (node_span x)]).
  { rewrite E', <- !app_assoc. cbn [app]. rewrite <- !app_assoc. cbn [app]. rewrite app_assoc, Eu.
    rewrite <- app_assoc. f_equal. symmetry. exact Ew. }
  split.
  - assert (Hb : fits (fin 0 t1) b (pre ++ Begin (node_span x) :: (ms ++ [End (node_span x)]) ++ v) q).
    { rewrite Elx, <- app_assoc in H. exact H. }
    apply drop_ordered in Hb; auto. destruct Hb as (a2 & b2 & -> & Ho2 & Ha2 & Hb).
    change (Begin (node_span x) :: (ms ++ [End (node_span x)]) ++ v)
      with ((Begin (node_span x) :: ms ++ [End (node_span x)]) ++ v) in Hb. rewrite Ew, <- app_assoc in Hb.
    destruct w as [|z w]; cbn [app] in *.
    + injection Ew as -> _. lia.
    + injection Ew as <- _. eapply begin_begin; eauto.
  - (* ends: from the end of the list *)
    destruct v' as [|z v'] using rev_ind.
    + assert (El : last (Begin (node_span x) :: ms ++ [End (node_span x)]) (Sym "") =
                   last (w ++ Begin (node_span y) :: ms' ++ [End (node_span y)]) (Sym "")) by (rewrite Ew; reflexivity).
      rewrite app_comm_cons, last_last, app_comm_cons, app_assoc, last_last in El. injection El as ->. lia.
    + clear IHv'.
      assert (El : last (Begin (node_span x) :: ms ++ [End (node_span x)]) (Sym "") = z).
      { rewrite Ew. rewrite !app_comm_cons, !app_assoc, last_last. reflexivity. }
      rewrite app_comm_cons, last_last in El. subst z.
      rewrite E' in H. rewrite <- !app_assoc in H. cbn [app] in H. rewrite <- !app_assoc in H. cbn [app] in H.
      rewrite (app_assoc u'), (app_comm_cons ms'), (app_assoc (u' ++ pre')) in H.
      apply drop_ordered in H; auto. destruct H as (a2 & b2 & -> & Ho2 & Ha2 & H).
      eapply end_end; eauto.
Qed.

(** Siblings, and what is inside them, come in order. *)
Theorem siblings_ordered n c1 x c2 y c3 x' y' :
  descendant a n -> children n = c1 ++ x :: c2 ++ y :: c3 ->
  descendant x x' -> descendant y y' -> has_span x' = true -> has_span y' = true ->
  sp_end (node_span x') <= sp_start (node_span y').
Proof.
  intros Hd Ec Hx Hy Hsx Hsy.
  destruct (descendant_infix _ _ Hd (lay a) (or_introl eq_refl)) as (u & ln & v & Hn & E).
  pose proof (lays_subs _ _ Hn) as Hsub. rewrite Ec in Hsub.
  destruct (subs_two _ _ _ _ _ _ Hsub) as (u1 & lx & v1 & ly & w1 & Hlx & Hly & ->).
  destruct (descendant_infix _ _ Hx _ Hlx) as (u2 & lx' & v2 & Hlx' & ->).
  destruct (descendant_infix _ _ Hy _ Hly) as (u3 & ly' & v3 & Hly' & ->).
  destruct (lays_bracket _ _ Hlx' Hsx) as (pre & ms & -> & _).
  destruct (lays_bracket _ _ Hly' Hsy) as (pre' & ms' & -> & _).
  pose proof Hfits as H. rewrite E in H. unfold bracket in H.
  repeat (rewrite <- !app_assoc in H; cbn [app] in H).
  replace (u ++ u1 ++ u2 ++ pre ++ Begin (node_span x') :: ms ++ End (node_span x') :: v2 ++ v1 ++ u3 ++ pre' ++
     Begin (node_span y') :: ms' ++ End (node_span y') :: v3 ++ w1 ++ v) with
    ((u ++ u1 ++ u2 ++ pre ++ Begin (node_span x') :: ms) ++ End (node_span x') :: (v2 ++ v1 ++ u3 ++ pre') ++
     Begin (node_span y') :: ms' ++ End (node_span y') :: v3 ++ w1 ++ v) in H
    by (repeat (rewrite <- !app_assoc; cbn [app]); reflexivity).
  apply drop_ordered in H; auto using after0. destruct H as (a2 & b2 & -> & Ho2 & Ha2 & H).
  eapply end_begin; eauto.
Qed.

End Tree.
