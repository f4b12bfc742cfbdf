(** * Regen: the tokens a written tree is printed as are a program for the same tree. *)

From Verif Require Import Base Tokens Lexer LexSpec Ast AstSpec Parser Layout Bare Written Starts Source PropLexer Unparse PrintLex Print PrintShape.
Local Open Scope string_scope.
Local Open Scope list_scope.

Section Regen.
Variable m : bool.

(** ** Inverting [shown] *)

Lemma shown_nil_inv b ts b' : shown b [] ts b' -> ts = [] /\ b' = b.
Proof. intros H. inversion H; auto. Qed.
Lemma shown_T_inv b v l ts b' : shown b (T v :: l) ts b' -> special v = false ->
  exists t us, ts = t :: us /\ t_value t = v /\ (t_fol t = true -> b = true) /\ shown false l us b'.
Proof.
  intros H HV. inversion H as [|? ? ? t us ? E1 E2 E3 E4|? ? ? o t us ? E1 E2 E3 E4 E5|? ? ? ? ? Hn]; subst; eauto 10;
    exfalso; [congruence|now apply (Hn v)].
Qed.
Lemma shown_two_inv b v l ts b' : shown b (T v :: l) ts b' -> special v = true ->
  exists o t us, ts = o :: t :: us /\ slashes v (t_value o) /\ t_value t = v /\ (t_fol o = true -> b = true) /\ shown false l us b'.
Proof.
  intros H HV. inversion H as [|? ? ? t us ? E1 E2 E3 E4|? ? ? o t us ? E1 E2 E3 E4 E5|? ? ? ? ? Hn]; subst; eauto 10;
    exfalso; [congruence|now apply (Hn v)].
Qed.
(** The first token. *)
Lemma shown_first b v l ts b' : shown b (T v :: l) ts b' ->
  exists t us, ts = t :: us /\ slashes v (t_value t) /\ (t_fol t = true -> b = true).
Proof.
  intros H. destruct (special v) eqn:E.
  - apply shown_two_inv in H; [|exact E]. destruct H as (o & t & us & -> & E1 & _ & F & _). eauto 10.
  - apply shown_T_inv in H; [|exact E]. destruct H as (t & us & -> & <- & F & _). exists t, us. repeat split; auto. now apply slashes_same.
Qed.
(** The same token, or both begin a regular expression. *)
Definition slashy (v : tvalue) : bool := match v with VPunct PSlash | VPunct PSlashEqual => true | _ => false end.
Definition akin (v w : tvalue) : Prop := w = v \/ (slashy v = true /\ slashy w = true).
Lemma slashes_akin v w w' : slashes v w -> slashes v w' -> akin w w'.
Proof.
  unfold slashes, akin. destruct v as [| | |[]| | |]; intros -> || intros [-> | ->]; intros -> || intros [-> | ->]; auto.
Qed.
Lemma akin_eq v w : akin v w -> slashy w = false -> w = v.
Proof. intros [H|[_ H]] E; [exact H|congruence]. Qed.
Lemma says_akin t t' : akin (t_value t) (t_value t') -> says_constructor t' = says_constructor t.
Proof.
  unfold says_constructor. intros [H|[H H']]; [now rewrite H|].
  destruct (t_value t) as [| |[]| | | |]; try discriminate H; destruct (t_value t') as [| |[]| | | |]; try discriminate H'; reflexivity.
Qed.
Lemma slashes_eq v w : slashes v w -> opener w = false -> v = w.
Proof. unfold slashes. destruct v as [| | |[]| | |]; intros H; (subst; auto) || (destruct H; subst; auto). all: discriminate. Qed.
Lemma name_ord c x t : name c x t -> special (t_value t) = false.
Proof. intros [H|(k & H & _)]; now rewrite H. Qed.
Lemma anyname_ord x t : anyname x t -> special (t_value t) = false.
Proof. intros [H|(k & H & _)]; now rewrite H. Qed.
Lemma shown_gap_inv b x l ts b' : shown b (x :: l) ts b' -> (forall v, x <> T v) -> shown (b || breaks x) l ts b'.
Proof. intros H Hx. inversion H; subst; auto; exfalso; eapply Hx; eauto. Qed.
Lemma shown_sp b l ts b' : shown b (Sp :: l) ts b' -> shown b l ts b'.
Proof. intros H. apply shown_gap_inv in H; [|discriminate]. cbn [breaks] in H. now rewrite orb_false_r in H. Qed.
Lemma shown_bl b l ts b' : shown b (Bl :: l) ts b' -> shown b l ts b'.
Proof. intros H. apply shown_gap_inv in H; [|discriminate]. cbn [breaks] in H. now rewrite orb_false_r in H. Qed.
Lemma shown_nl b l ts b' : shown b (NL :: l) ts b' -> shown true l ts b'.
Proof. intros H. apply shown_gap_inv in H; [|discriminate]. cbn [breaks] in H. now rewrite orb_true_r in H. Qed.
Lemma shown_brk b l ts b' : shown b (Brk :: l) ts b' -> shown true l ts b'.
Proof. intros H. apply shown_gap_inv in H; [|discriminate]. cbn [breaks] in H. now rewrite orb_true_r in H. Qed.
Lemma shown_app_inv l1 l2 : forall b ts b', shown b (l1 ++ l2) ts b' ->
  exists ts1 ts2 b1, ts = ts1 ++ ts2 /\ shown b l1 ts1 b1 /\ shown b1 l2 ts2 b'.
Proof.
  induction l1 as [|x l1 IH]; intros b ts b' H; cbn [app] in H.
  - exists [], ts, b. repeat split; auto. constructor.
  - inversion H as [|? v ? t us ? Ht Hv Hf Hs|? v ? o t us ? Hv Ho Ht Hf Hs|? ? ? ? ? Hn Hs]; subst.
    + destruct (IH _ _ _ Hs) as (ts1 & ts2 & b1 & -> & H1 & H2). exists (t :: ts1), ts2, b1. repeat split; auto. now apply sh_T.
    + destruct (IH _ _ _ Hs) as (ts1 & ts2 & b1 & -> & H1 & H2). exists (o :: t :: ts1), ts2, b1. repeat split; auto. now apply sh_two.
    + destruct (IH _ _ _ Hs) as (ts1 & ts2 & b1 & -> & H1 & H2). exists ts1, ts2, b1. repeat split; auto. now constructor.
Qed.
Lemma shown_sps b s ts b' : shown b (sps s) ts b' -> ts = [] /\ b' = b.
Proof. destruct s; intros H; [apply shown_sp in H|]; now apply shown_nil_inv in H. Qed.
Definition alike (t t' : token) : Prop := t_value t' = t_value t.
Lemma shown_toks ts : Forall ordinary ts -> forall b ts' b', shown b (map (fun t => T (t_value t)) ts) ts' b' -> Forall2 alike ts ts'.
Proof.
  induction ts as [|t ts IH]; intros HO b ts' b' H; cbn [map] in H.
  - apply shown_nil_inv in H. destruct H as [-> _]. constructor.
  - apply Forall_cons_iff in HO. destruct HO as [HO1 HO2]. apply shown_T_inv in H; [|exact HO1]. destruct H as (t' & us & -> & E & _ & H). constructor; eauto.
Qed.
Lemma shown_solid l ts b b' : shown b l ts b' -> solid l -> b' = false.
Proof.
  intros H (l0 & v & -> & _). apply shown_app_inv in H. destruct H as (ts1 & ts2 & b1 & -> & _ & H).
  destruct (special v) eqn:E.
  - apply shown_two_inv in H; [|exact E]. destruct H as (o & t & us & -> & _ & _ & _ & H). now apply shown_nil_inv in H.
  - apply shown_T_inv in H; [|exact E]. destruct H as (t & us & -> & _ & _ & H). now apply shown_nil_inv in H.
Qed.

(** ** Tokens that look the same *)

Lemma name_alike c x t t' : name c x t -> t_value t' = t_value t -> name c x t'.
Proof. unfold name. now intros H ->. Qed.
Lemma anyname_alike x t t' : anyname x t -> t_value t' = t_value t -> anyname x t'.
Proof. unfold anyname. now intros H ->. Qed.
Lemma symbol_alike s t t' : symbol s t -> t_value t' = t_value t -> symbol s t'.
Proof. unfold symbol. now intros H ->. Qed.
Lemma optname_alike c x ts ts' : optname c x ts -> Forall2 alike ts ts' -> optname c x ts'.
Proof.
  intros [[-> ->]|(y & t & -> & -> & H)] HF; inversion HF as [|? t' ? ? Ht HF']; subst.
  - now left.
  - inversion HF'; subst. right. exists y, t'. repeat split. eapply name_alike; eauto.
Qed.
Lemma dname_alike c x ts ts' : dname c x ts -> Forall2 alike ts ts' -> dname c x ts'.
Proof.
  intros [(t & -> & H)|(Hd & -> & ->)] HF; inversion HF as [|? t' ? ? Ht HF']; subst.
  - inversion HF'; subst. left. exists t'. split; auto. eapply name_alike; eauto.
  - right. auto.
Qed.
Lemma star_alike g ts ts' : star g ts -> Forall2 alike ts ts' -> star g ts'.
Proof.
  destruct g; cbn [star]; [intros (t & -> & H)|intros ->]; intros HF; inversion HF as [|? t' ? ? Ht HF']; subst; auto.
  inversion HF'; subst. exists t'. split; auto. unfold pu in *. rewrite Ht. exact H.
Qed.
Lemma optname_ord c x ts : optname c x ts -> Forall ordinary ts.
Proof. intros [[-> ->]|(y & t & -> & -> & H)]; repeat constructor. eapply name_ord; eauto. Qed.
Lemma dname_ord c x ts : dname c x ts -> Forall ordinary ts.
Proof. intros [(t & -> & H)|(Hd & -> & ->)]; repeat constructor. eapply name_ord; eauto. Qed.
Lemma star_ord g ts : star g ts -> Forall ordinary ts.
Proof. destruct g; cbn [star]; [intros (t & -> & H)|intros ->]; repeat constructor. unfold ordinary. unfold pu in H. now rewrite H. Qed.
(** The same token, or both begin a regular expression, or both are the end. *)
Definition eqv (x y : option token) : Prop :=
  match x, y with Some t, Some t' => akin (t_value t) (t_value t') | None, None => True | _, _ => False end.

Lemma headed_shown l ts b ts' b' : headed l ts -> shown b l ts' b' ->
  exists t us t' us', ts = t :: us /\ ts' = t' :: us' /\ akin (t_value t) (t_value t') /\ (t_fol t' = true -> b = true).
Proof.
  intros (v & l' & t & us & -> & -> & E) H. apply shown_first in H. destruct H as (t' & us' & -> & E' & Hf).
  exists t, us, t', us'. repeat split; auto. eapply slashes_akin; eauto.
Qed.
Lemma not_first_shown vs l ts b ts' b' : not_first vs ts -> headed l ts -> shown b l ts' b' -> existsb slashy vs = false -> not_first vs ts'.
Proof.
  intros Hn Hh Hs Hv. destruct (headed_shown _ _ _ _ _ Hh Hs) as (t & us & t' & us' & -> & -> & E & _).
  cbn [not_first] in *. intros HI. assert (X : slashy (t_value t') = false).
  { destruct (slashy (t_value t')) eqn:X; auto. assert (Y : existsb slashy vs = true) by (apply existsb_exists; eauto). congruence. }
  apply Hn. now rewrite <- (akin_eq _ _ E X).
Qed.
Lemma first_fol l ts ts' b' : headed l ts -> shown false l ts' b' -> forall t, first ts' None = Some t -> t_fol t = false.
Proof.
  intros Hh Hs t0 E0. destruct (headed_shown _ _ _ _ _ Hh Hs) as (t & us & t' & us' & -> & -> & _ & Hf).
  cbn [first] in E0. injection E0 as <-. destruct (t_fol t'); auto. now discriminate Hf.
Qed.
Lemma shown_second l : forall b ts b' v, shown b l ts b' -> second l = Some v -> exists t us, ts = t :: us /\ slashes v (t_value t).
Proof.
  induction l as [|x l IH]; intros b ts b' v H E; [discriminate E|].
  destruct x as [w| | | |]; cbn [second] in E;
    [|apply shown_sp in H|apply shown_nl in H|apply shown_brk in H|apply shown_bl in H]; eauto.
  injection E as <-. apply shown_first in H. destruct H as (t & us & -> & E & _). eauto.
Qed.
Lemma asyncs_shown l ts b ts' b' : asyncs l ts -> headed l ts -> shown b l ts' b' ->
  (forall t u vs, ts = t :: u :: vs -> ~ (kw KAsync t /\ kw KFunction u)) ->
  (forall t u vs, ts' = t :: u :: vs -> ~ (kw KAsync t /\ kw KFunction u)).
Proof.
  intros Ha Hh Hs H t' u' vs' -> [Ka Kf]. destruct (headed_shown _ _ _ _ _ Hh Hs) as (t & us & t1 & us' & -> & E1 & E & _).
  injection E1 as <- <-. unfold kw in *. cbn [asyncs] in Ha. destruct Ha as (l' & u & vs & -> & -> & E2); [symmetry; rewrite Ka in E; now apply akin_eq|].
  apply shown_T_inv in Hs; [|reflexivity]. destruct Hs as (t2 & us2 & E3 & _ & _ & Hs). injection E3 as <- <-.
  destruct (shown_second _ _ _ _ _ Hs E2) as (u1 & vs1 & E4 & E5). injection E4 as <- <-.
  apply (H t u vs eq_refl). rewrite Kf in E5. rewrite Ka in E. split; [symmetry; now apply akin_eq|now apply slashes_eq].
Qed.

(** ** Leaving out the last semicolon *)

Definition dr (d : bool) (l : list titem) : list titem := if d then dropped l else l.
Lemma ink_app a b : ink (a ++ b) = (ink a || ink b)%bool.
Proof. apply existsb_app. Qed.
Lemma dr_app d a b : ink b = true -> dr d (a ++ b) = a ++ dr d b.
Proof.
  intros H. destruct d; auto. cbn [dr]. induction a as [|x a IH]; auto. cbn [app].
  assert (E : dropped (x :: a ++ b) = x :: dropped (a ++ b)).
  { destruct x as [v| | | |]; auto. destruct v as [k|y|p|t|s|s|s]; auto. destruct p; auto.
    cbn [dropped]. rewrite ink_app, H, orb_true_r. reflexivity. }
  rewrite E, IH. reflexivity.
Qed.
Lemma dr_gap d a b : ink b = false -> dr d (a ++ b) = dr d a ++ b.
Proof.
  intros H. destruct d; auto. cbn [dr]. induction a as [|x a IH]; cbn [app].
  - cbn [dropped app]. induction b as [|y b IHb]; auto. cbn [ink existsb] in H. apply orb_false_iff in H. destruct H as [Hy Hb].
    destruct y; try discriminate Hy; cbn [dropped]; f_equal; auto.
  - destruct x as [v| | | |]; cbn [dropped app]; try (f_equal; exact IH).
    destruct v as [k|y|p|t|s|s|s]; try (cbn [dropped app]; f_equal; exact IH).
    destruct p; try (cbn [dropped app]; f_equal; exact IH).
    rewrite ink_app, H, orb_false_r. destruct (ink a); cbn [app]; auto. f_equal. exact IH.
Qed.
Lemma dr_nil d : dr d [] = [].
Proof. now destruct d. Qed.
Lemma dr_solid d l : solid l -> dr d l = l.
Proof.
  intros (l0 & v & -> & H). rewrite dr_app by reflexivity. f_equal. destruct d; auto. cbn [dr].
  destruct v as [k|y|p|t|s|s|s]; auto. destruct p; auto. congruence.
Qed.
Lemma dr_T d v l : v <> VPunct PSemiColon -> dr d (T v :: l) = T v :: dr d l.
Proof. intros H. destruct d; auto. destruct v as [k|y|p|t|s|s|s]; auto. destruct p; auto. congruence. Qed.
Lemma dr_semi d l : ink l = true -> dr d (P PSemiColon :: l) = P PSemiColon :: dr d l.
Proof. intros H. apply (dr_app d [P PSemiColon]). exact H. Qed.
Lemma dr_sp d l : dr d (Sp :: l) = Sp :: dr d l. Proof. now destruct d. Qed.
Lemma dr_bl d l : dr d (Bl :: l) = Bl :: dr d l. Proof. now destruct d. Qed.
Lemma dr_nl d l : dr d (NL :: l) = NL :: dr d l. Proof. now destruct d. Qed.
Lemma dr_brk d l : dr d (Brk :: l) = Brk :: dr d l. Proof. now destruct d. Qed.
Lemma headed_ink l ts : headed l ts -> ink l = true.
Proof. intros (v & l' & t & us & -> & _). reflexivity. Qed.
Lemma headed'_ink l ts : headed' l ts -> ink l = true.
Proof. intros [H|(l' & -> & H)]; [|cbn [ink existsb]; cbn [orb]]; eapply headed_ink; eauto. Qed.

(** What follows is a closing brace or the end. *)
Definition closes (nx : option token) : Prop := match nx with Some t => pu PBracketClose t | None => True end.
Definition semi (nx : option token) : Prop := match nx with Some t => pu PSemiColon t | None => False end.
Lemma closes_semi nx : closes nx -> ~ semi nx.
Proof. destruct nx; cbn; unfold pu; [intros -> |]; intros; [discriminate|tauto]. Qed.
Lemma closes_inserted nx : closes nx -> inserted nx.
Proof.
  destruct nx as [t|]; [|auto]. cbn. unfold pu. intros ->. repeat split; auto; discriminate.
Qed.
Lemma closes_ends nx : closes nx -> ends_expr [] nx.
Proof.
  intros H. right. split; auto. split; [now apply closes_inserted|]. destruct nx as [t|]; auto.
  unfold closes, pu in H. unfold continues. now rewrite H.
Qed.
Lemma ends_expr_ends us nx : ends_expr us nx -> ends us nx.
Proof. intros [H|(H & H' & _)]; [left|right]; auto. Qed.
Lemma shown_ends d nx b ts b' : (d = true -> closes nx) -> shown b (dr d [P PSemiColon]) ts b' -> ends_expr ts nx.
Proof.
  intros Hd H. destruct d; cbn [dr dropped ink existsb] in H.
  - apply shown_nil_inv in H. destruct H as [-> _]. apply closes_ends. auto.
  - apply shown_T_inv in H; [|reflexivity]. destruct H as (t & us & -> & E & _ & H). apply shown_nil_inv in H. destruct H as [-> _].
    left. eauto.
Qed.
Lemma eqv_not nx nx' k : eqv nx nx' -> (forall t, nx = Some t -> ~ kw k t) -> forall t, nx' = Some t -> ~ kw k t.
Proof.
  intros He H t ->. destruct nx as [u|]; [|contradiction]. unfold kw, eqv in *. intros E. apply (H u eq_refl).
  rewrite E in He. symmetry. now apply akin_eq.
Qed.

(** ** Lists *)

Lemma commas_inv {A} (f : A -> list titem) a l b ts b' : shown b (commas (map f (a :: l))) ts b' ->
  (l = [] /\ shown b (f a) ts b') \/
  (l <> [] /\ exists ts1 b1 t us, ts = ts1 ++ t :: us /\ shown b (f a) ts1 b1 /\ t_value t = VPunct PComma /\
     shown false (commas (map f l)) us b').
Proof.
  intros H. destruct l as [|x l]; [left; auto|right]. split; [discriminate|].
  change (shown b (f a ++ P PComma :: Sp :: commas (map f (x :: l))) ts b') in H.
  apply shown_app_inv in H. destruct H as (ts1 & ts2 & b1 & -> & H1 & H2).
  apply shown_T_inv in H2; [|reflexivity]. destruct H2 as (t & us & -> & E & _ & H2). apply shown_sp in H2. eauto 10.
Qed.
Lemma rest_shift (b : bool) r : rest false (Some r) = P PComma :: Sp :: rest true (Some r).
Proof. reflexivity. Qed.
Lemma commas_rest_inv {A} (f : A -> list titem) a l r b ts b' : shown b (commas (map f (a :: l)) ++ rest false r) ts b' ->
  (l = [] /\ r = None /\ shown b (f a) ts b') \/
  ((l <> [] \/ r <> None) /\ exists ts1 b1 t us, ts = ts1 ++ t :: us /\ shown b (f a) ts1 b1 /\ t_value t = VPunct PComma /\
     shown false (commas (map f l) ++ rest (nil_ l) r) us b').
Proof.
  intros H. destruct l as [|x l].
  - cbn [map commas] in H. destruct r as [r|]; [|left; cbn [rest] in H; rewrite app_nil_r in H; auto].
    right. split; [right; discriminate|]. cbn [map commas nil_ app]. rewrite (rest_shift true) in H.
    apply shown_app_inv in H. destruct H as (ts1 & ts2 & b1 & -> & H1 & H2).
    apply shown_T_inv in H2; [|reflexivity]. destruct H2 as (t & us & -> & E & _ & H2). apply shown_sp in H2. eauto 10.
  - right. split; [left; discriminate|].
    change (shown b ((f a ++ P PComma :: Sp :: commas (map f (x :: l))) ++ rest false r) ts b') in H.
    rewrite <- app_assoc in H. cbn [app] in H.
    apply shown_app_inv in H. destruct H as (ts1 & ts2 & b1 & -> & H1 & H2).
    apply shown_T_inv in H2; [|reflexivity]. destruct H2 as (t & us & -> & E & _ & H2). apply shown_sp in H2. eauto 10.
Qed.
Lemma pats_rest_inv {A} (f : A -> list titem) a l r b ts b' :
  (r <> None -> l = [] -> a <> None) ->
  shown b (pats (map (option_map f) (a :: l)) ++ rest false r) ts b' ->
  (l = [] /\ r = None /\ match a with Some a => shown b (f a) ts b' | None => exists t, ts = [t] /\ t_value t = VPunct PComma end) \/
  ((l <> [] \/ r <> None) /\ exists ts1 b1 t us, ts = ts1 ++ t :: us /\
     match a with Some a => shown b (f a) ts1 b1 | None => ts1 = [] end /\ t_value t = VPunct PComma /\
     shown false (pats (map (option_map f) l) ++ rest (nil_ l) r) us b').
Proof.
  intros Hr H. destruct l as [|x l].
  - cbn [map pats] in H. destruct r as [r|].
    + right. split; [right; discriminate|]. destruct a as [a|]; [|now elim Hr].
      cbn [map pats nil_ app]. cbn [option_map] in H. rewrite (rest_shift true) in H.
      apply shown_app_inv in H. destruct H as (ts1 & ts2 & b1 & -> & H1 & H2).
      apply shown_T_inv in H2; [|reflexivity]. destruct H2 as (t & us & -> & E & _ & H2). apply shown_sp in H2. eauto 10.
    + left. cbn [rest] in H. rewrite app_nil_r in H. repeat split; auto. destruct a as [a|]; auto.
      cbn [option_map] in H. apply shown_T_inv in H; [|reflexivity]. destruct H as (t & us & -> & E & _ & H). apply shown_nil_inv in H.
      destruct H as [-> _]. eauto.
  - right. split; [left; discriminate|].
    assert (E : pats (map (option_map f) (a :: x :: l)) =
                match a with Some a => f a | None => [] end ++ P PComma :: Sp :: pats (map (option_map f) (x :: l))).
    { destruct a; reflexivity. }
    rewrite E, <- app_assoc in H. cbn [app] in H.
    apply shown_app_inv in H. destruct H as (ts1 & ts2 & b1 & -> & H1 & H2).
    apply shown_T_inv in H2; [|reflexivity]. destruct H2 as (t & us & -> & E2 & _ & H2). apply shown_sp in H2.
    exists ts1, b1, t, us. repeat split; auto. destruct a; auto. now apply shown_nil_inv in H1.
Qed.
Lemma decl_inv (f : node -> list titem) g a l b ts b' : shown b (decl_items (map (fun d => (f d, g d)) (a :: l))) ts b' ->
  (l = [] /\ shown b (f a) ts b') \/
  (l <> [] /\ exists ts1 b1 t us b2, ts = ts1 ++ t :: us /\ shown b (f a) ts1 b1 /\ t_value t = VPunct PComma /\
     shown b2 (decl_items (map (fun d => (f d, g d)) l)) us b').
Proof.
  intros H. destruct l as [|x l]; [left; auto|right]. split; [discriminate|].
  change (shown b (f a ++ P PComma :: (if g a then NL else Sp) :: decl_items (map (fun d => (f d, g d)) (x :: l))) ts b') in H.
  apply shown_app_inv in H. destruct H as (ts1 & ts2 & b1 & -> & H1 & H2).
  apply shown_T_inv in H2; [|reflexivity]. destruct H2 as (t & us & -> & E & _ & H2).
  destruct (g a); [apply shown_nl in H2|apply shown_sp in H2]; eauto 12.
Qed.

(** ** Trees *)

Local Notation okn := (PrintShape.okn m).
Local Notation oko := (PrintShape.oko m).
Local Notation okr := (PrintShape.okr m).

Lemma cons_loop {A} (x : A) l : l = x :: l -> False.
Proof. intros E. apply (f_equal (@length A)) in E. cbn [length] in E. lia. Qed.
Lemma tvalue_semi v : v = VPunct PSemiColon \/ v <> VPunct PSemiColon.
Proof. destruct v as [k|y|p|t|s|s|s]; try (right; discriminate). destruct p; first [now left | right; discriminate]. Qed.

(** ** Patterns that also read as expressions *)

Lemma up_to k c ts a : G (CE (16 - k)) c ts (N a) -> k <= 16 -> forall j, j <= 16 - k -> G (CE j) c ts (N a).
Proof.
  intros H Hk j Hj. remember (16 - k - j) as d eqn:Ed. revert j Hj Ed.
  induction d as [|d IH]; intros j Hj Ed.
  - replace j with (16 - k) by lia. exact H.
  - apply g_up; [lia|]. apply IH; lia.
Qed.
Lemma up16 c ts a : G (CE 16) c ts (N a) -> forall j, j <= 16 -> G (CE j) c ts (N a).
Proof. intros H j Hj. apply (up_to 0); [exact H|lia|exact Hj]. Qed.
Lemma primary_17 c ts a : G (CE 19) c ts (N a) -> G (CE 17) c ts (N a).
Proof. intros H. now apply g_lhs_new, g_member, g_primary. Qed.
Lemma primary_1 c ts a : G (CE 19) c ts (N a) -> G (CE 1) c ts (N a).
Proof. intros H. apply up16; [|lia]. now apply g_lhs, primary_17. Qed.
Lemma seq_expr c ts l : G CSeq c ts (NS l) -> exists e, G (CE 0) c ts (N e).
Proof.
  intros H. inversion H; subst.
  - eexists. apply g_up; [lia|eassumption].
  - eexists. eapply g_sequence; eassumption.
Qed.
Lemma not_in_false (l : list str) x y : not_in l x = true -> In y l -> x <> y.
Proof.
  unfold not_in. intros H Hy ->. apply negb_true_iff in H. assert (X : existsb (str_eqb y) l = true); [|congruence].
  apply existsb_exists. exists y. split; auto. now apply str_eqb_eq.
Qed.
Lemma name_not_kw c x t k l : name c x t -> not_in l x = true -> In (keyword_str k) l -> t_value t <> VKeyword k.
Proof.
  intros [H|(j & H & _ & ->)] Hn Hk E; rewrite H in E; [discriminate|]. injection E as ->.
  exact (not_in_false _ _ _ Hn Hk eq_refl).
Qed.
Lemma last_cons {A} (a : A) l d : l <> [] -> last (a :: l) d = last l d.
Proof. now destruct l. Qed.
Lemma cover_ident c x t : name c x t -> ref_name x = true -> G (CE 19) (with_in true c) [t] (N (EIdentRef (id x))).
Proof.
  intros H Hr. apply g_ident; [exact H| |]; eapply name_not_kw; try eassumption; cbn; auto.
Qed.
Lemma target_ref x : target_name x = true -> ref_name x = true.
Proof.
  unfold target_name, ref_name, not_in. intros H. apply negb_true_iff in H. apply negb_true_iff.
  cbn [existsb] in *. destruct (str_eqb x (chars "let")); [discriminate|]. destruct (str_eqb x (chars "async")); [discriminate|]. reflexivity.
Qed.
Lemma cover_assign c x t us o e : name c x t -> target_name x = true -> t_value o = VPunct PEqual ->
  G (CE 1) (with_in true c) us (N e) -> G (CE 1) (with_in true c) (t :: o :: us) (N (EAssign z AAssign (EIdentRef (id x)) e)).
Proof.
  intros H Hr Ho He. apply (g_assign _ AAssign [t]).
  - now apply primary_17, cover_ident, target_ref.
  - intros [E|[]]. symmetry in E. revert E. eapply name_not_kw; try eassumption; cbn; auto.
  - intros _. split; eapply not_in_false; try eassumption; cbn; auto.
  - left. exists PEqual. auto.
  - exact He.
Qed.
Lemma cover_short c x t : name c x t -> short_name x = true -> G CProp (with_in true c) [t] (N (DefIdentRef (id x))).
Proof.
  intros H Hr. apply g_prop_short; [exact H|]. intros HI.
  repeat (destruct HI as [E|HI]; [symmetry in E; revert E; eapply name_not_kw; try eassumption; cbn; auto|]). destruct HI.
Qed.
Lemma cover_name c ts n : G CName c ts (N n) -> match n with NameComputed _ => False | _ => True end ->
  G CName (with_in true c) ts (N n).
Proof. intros H Hn. inversion H; subst; try contradiction; econstructor; eauto. Qed.

(** ** Arrow functions *)

Lemma arrow_regen c o ps cl a bs b p r b0 b0' : t_value o = VPunct PParenOpen ->
  shown b0 (commas (map (items m) p) ++ rest (nil_ p) (option_map (items m) r)) ps b0' ->
  t_value cl = VPunct PParenClose -> t_value a = VPunct PEqualGreater -> t_fol a = false ->
  G CConcise (arrow_ctx false c) bs (N b) ->
  (forall b ts b' cl, shown b (commas (map (items m) p) ++ rest (nil_ p) (option_map (items m) r)) ts b' ->
     t_value cl = VPunct PParenClose -> G CParams c (ts ++ [cl]) (NR p r)) ->
  (p <> [] -> forall b ts b', shown b (commas (map (items m) p)) ts b' -> exists l, G CSeq (with_in true c) ts (NS l)) ->
  G (CE 1) c (o :: ps ++ cl :: a :: bs) (N (EArrow z false false (FormalParameters z p r) b)).
Proof.
  intros Ho Hs Hcl Ha Hf Hb HP HC. pose proof (HP _ _ _ _ Hs Hcl) as HX. destruct p as [|p0 p]; destruct r as [r|].
  - cbn [map commas nil_ rest option_map app] in Hs. apply shown_T_inv in Hs; [|reflexivity]. destruct Hs as (d & us & -> & Ed & _ & Hs).
    cbn [app] in *. replace (us ++ cl :: a :: bs) with ((us ++ [cl]) ++ a :: bs) by (now rewrite <- app_assoc).
    now apply g_arrow_rest.
  - cbn [map commas nil_ rest option_map app] in Hs. apply shown_nil_inv in Hs. destruct Hs as [-> _].
    now apply g_arrow_none.
  - apply shown_app_inv in Hs. destruct Hs as (es & us & b1 & -> & Hs & Hr). cbn [nil_ rest option_map app] in Hr.
    apply shown_T_inv in Hr; [|reflexivity]. destruct Hr as (k & us1 & -> & Ek & _ & Hr). apply shown_sp in Hr.
    apply shown_T_inv in Hr; [|reflexivity]. destruct Hr as (d & us2 & -> & Ed & _ & Hr).
    destruct (HC ltac:(discriminate) _ _ _ Hs) as (l & Hl).
    rewrite <- app_assoc in HX |- *. cbn [app] in *.
    replace (us2 ++ cl :: a :: bs) with ((us2 ++ [cl]) ++ a :: bs) by (now rewrite <- app_assoc).
    eapply g_arrow_more; eauto.
  - cbn [rest option_map] in Hs. rewrite app_nil_r in Hs. destruct (HC ltac:(discriminate) _ _ _ Hs) as (l & Hl).
    destruct (seq_expr _ _ _ Hl) as (e & He). eapply g_arrow; eauto.
Qed.

(** ** Classes *)

Lemma method_false c ts n : G (CMethod false) c ts (N n) -> method_items m n = items m n.
Proof. intros H. destruct (G_method _ _ _ _ H) as (? & ? & ? & ? & ? & ? & ->). reflexivity. Qed.
Lemma method_true c ts n : G (CMethod true) c ts (N n) -> items m n = K KStatic :: Sp :: method_items m n.
Proof. intros H. destruct (G_method _ _ _ _ H) as (? & ? & ? & ? & ? & ? & ->). reflexivity. Qed.
Definition member_list (l : list node) : list titem := flat_map (fun x => items m x ++ [NL]) l.
Lemma members_dropped b c ts l : G (CMembers b) c ts (NS l) -> Forall good ts -> Forall okn l -> forall d, dr d (member_list l) = member_list l.
Proof.
  intros H. remember (CMembers b) as cc eqn:Ec. remember (NS l) as r eqn:Er. revert b l Ec Er.
  assert (Hone : forall a l d, solid (items m a) -> dr d (member_list l) = member_list l ->
                   dr d (member_list (a :: l)) = member_list (a :: l)).
  { intros a l d Ha Hl. unfold member_list in *. cbn [flat_map]. destruct (ink (flat_map (fun x => items m x ++ [NL]) l)) eqn:Ei.
    - rewrite dr_app by exact Ei. now rewrite Hl.
    - rewrite dr_gap by exact Ei. rewrite dr_gap by reflexivity. now rewrite dr_solid. }
  induction H; intros b' l' Ec Er Hg Ho dd; try discriminate Ec; injection Er as <-; injection Ec as ->.
  - apply dr_nil.
  - apply Forall_cons_iff in Hg. destruct Hg. eapply IHG; eauto.
  - apply Forall_app in Hg. destruct Hg as [Hg1 Hg2]. apply Forall_cons_iff in Ho. destruct Ho as [Ho1 Ho2]. apply Hone; [|eapply IHG; eauto].
    destruct ts as [|t ts]; [contradiction|]. specialize (H t eq_refl).
    rewrite <- (method_false _ _ _ H). pose proof (G_shape m _ _ _ _ H Hg1 Ho1) as (_ & _ & _ & S & _). exact S.
  - apply Forall_cons_iff in Hg. destruct Hg as [_ Hg]. apply Forall_app in Hg. destruct Hg as [Hg1 Hg2].
    apply Forall_cons_iff in Ho. destruct Ho as [Ho1 Ho2]. apply Hone; [|eapply IHG2; eauto].
    rewrite (method_true _ _ _ H0). pose proof (G_shape m _ _ _ _ H0 Hg1 Ho1) as (_ & _ & _ & S & _). now apply solid_cons, solid_cons.
Qed.
Lemma class_eq n h l : (forall d, dr d (member_list l) = member_list l) ->
  class_items m n (option_map (items m) h) (map (items m) l) =
  K KClass :: n ++ match h with Some x => K KExtends :: items m x | None => [] end ++
  Sp :: P PBracketOpen :: Brk :: member_list l ++ [P PBracketClose].
Proof.
  intros H. specialize (H m). unfold class_items, blk. rewrite flat_map_map. fold (member_list l).
  change (if m then dropped (member_list l) else member_list l) with (dr m (member_list l)). rewrite H. now destruct h.
Qed.

(** ** Lists of statements *)

Lemma semi_first nx c ts a : G (CTop nx) c ts (N a) -> forall t us, ts = t :: us -> t_value t = VPunct PSemiColon -> empty_stmt a = true.
Proof.
  intros H t us -> E.
  assert (HE : forall k c es e vs, G (CE k) c es (N e) -> es ++ vs = t :: us -> False).
  { intros k c' es e vs He Hx. apply G_starts in He. cbn [SS] in He. destruct He as (t' & ts' & -> & Hf & _).
    injection Hx as -> _. now rewrite E in Hf. }
  inversion H; subst; unfold kw, pu in *; try congruence.
  match goal with X : G (CItem _) _ _ _ |- _ => inversion X; subst end.
  - match goal with X : G (CStmt _) _ _ _ |- _ => inversion X; subst end; unfold kw, pu in *; try congruence; try reflexivity.
    + match goal with X : G CBlock _ _ _ |- _ => inversion X; subst end. unfold pu in *. congruence.
    + match goal with X : G (CVar _ _) _ _ _ |- _ => inversion X; subst end. unfold kw in *. congruence.
    + exfalso. eapply HE; eassumption.
    + match goal with X : name _ _ _ |- _ => destruct X as [X|(? & X & _)]; congruence end.
  - match goal with X : G (CLex _) _ _ _ |- _ => inversion X; subst end.
    + match goal with X : G CHoist _ _ _ |- _ => inversion X; subst end; unfold kw in *; congruence.
    + match goal with X : G (CVar _ _) _ _ _ |- _ => inversion X; subst end; unfold kw in *; congruence.
Qed.

(** The first statement of a list, as it was written. *)
Definition begins (a : node) (ts : list token) : Prop :=
  headed' (items m a) ts /\ (forall t us, ts = t :: us -> t_value t = VPunct PSemiColon -> empty_stmt a = true) /\
  (forall t us, ts = t :: us -> is_str t = true -> string_first m [a] = true).
Lemma begins_app a ts us : begins a ts -> begins a (ts ++ us).
Proof.
  intros (Hh & H1 & H2).
  assert (X : exists t vs, ts = t :: vs).
  { destruct Hh as [(v & l' & t & us' & _ & -> & _)|(l' & _ & v & l'' & t & us' & _ & -> & _)]; eauto. }
  destruct X as (t & vs & ->). split; [|split].
  - destruct Hh as [Hh|(l' & E & Hh)]; [left|right; exists l'; split; auto];
      (rewrite <- (app_nil_r (items m a)) || rewrite <- (app_nil_r l')); now apply headed_app.
  - cbn [app]. intros t' us' Ex. injection Ex as <- _. eauto.
  - cbn [app]. intros t' us' Ex. injection Ex as <- _. eauto.
Qed.
Lemma items_bare2 n : items m n = bare_items m n \/ exists s a g i p b, n = SFunctionDecl s a g i p b.
Proof. destruct n; auto. right. eauto 10. Qed.
Lemma top_begins nx c ts a : G (CTop nx) c ts (N a) -> Forall good ts -> okn a -> begins a ts.
Proof.
  intros H Hg Ho. split; [|split].
  - pose proof (G_shape m _ _ _ _ H Hg Ho) as (_ & _ & S & _). exact S.
  - eapply semi_first; eauto.
  - intros t us -> Ht. unfold is_str in Ht. destruct (t_value t) eqn:E; try discriminate Ht. destruct l; try discriminate Ht.
    assert (Hh : headed (bare_items m a) (t :: us) -> string_first m [a] = true).
    { intros (v & l' & t' & us' & E1 & E2 & E3). injection E2 as <- _. rewrite E in E3. apply slashes_eq in E3; [|reflexivity]. subst v.
      destruct (items_bare2 a) as [Ei|(s0 & a0 & g0 & i0 & p0 & b0 & ->)]; [cbn [string_first]; now rewrite Ei, E1|].
      cbn [bare_items] in E1. unfold fun_items in E1. destruct a0; discriminate E1. }
    assert (Hh' : headed (items m a) (t :: us) -> string_first m [a] = true).
    { intros (v & l' & t' & us' & E1 & E2 & E3). injection E2 as <- _. rewrite E in E3. apply slashes_eq in E3; [|reflexivity]. subst v. cbn [string_first]. now rewrite E1. }
    inversion H; subst; unfold kw in *; try congruence.
    match goal with X : G (CItem _) _ _ _ |- _ => inversion X; subst end.
    + match goal with X : G (CStmt _) _ _ _ |- _ => pose proof (G_shape m _ _ _ _ X Hg Ho) as (_ & S & _) end. now apply Hh'.
    + match goal with X : G (CLex _) _ _ _ |- _ => pose proof (G_shape m _ _ _ _ X Hg Ho) as (_ & S & _) end. now apply Hh.
Qed.
Lemma item_begins nx c ts a : G (CItem nx) c ts (N a) -> Forall good ts -> okn a -> begins a ts.
Proof. intros H. eapply top_begins. apply g_top. exact H. Qed.
Lemma items_begin cc nx c ts a l : (cc = CItems nx \/ cc = CTops nx) -> G cc c ts (NS (a :: l)) -> Forall good ts -> okn a -> begins a ts.
Proof.
  intros [->| ->] H Hg Ho; inversion H; subst; apply Forall_app in Hg; destruct Hg; apply begins_app.
  - eapply item_begins; eauto.
  - eapply top_begins; eauto.
Qed.
Lemma begins_ink a l ts : begins a ts -> ink (stmts m (a :: l)) = true.
Proof.
  intros (Hh & _). unfold stmts. cbn [flat_map]. rewrite !ink_app. now rewrite (headed'_ink _ _ Hh).
Qed.
Lemma stmts_cons_dr d a l : (l <> [] -> ink (stmts m l) = true) ->
  dr d (stmts m (a :: l)) = if nil_ l then dr d (items m a) ++ [Brk] else items m a ++ Brk :: dr d (stmts m l).
Proof.
  intros H. unfold stmts in *. cbn [flat_map]. destruct l as [|x l].
  - cbn [flat_map nil_]. rewrite app_nil_r. now apply dr_gap.
  - cbn [nil_]. rewrite dr_app by (apply H; discriminate). rewrite <- app_assoc. reflexivity.
Qed.
Lemma list_begins d cl a l b ts ts' b' : begins a ts -> list_ok cl d (a :: l) = true ->
  (l <> [] -> ink (stmts m l) = true) -> shown b (dr d (stmts m (a :: l))) ts' b' ->
  exists t us t' us', ts = t :: us /\ ts' = t' :: us' /\ akin (t_value t) (t_value t').
Proof.
  intros (Hh & He & _) Hl Hi Hs. rewrite stmts_cons_dr in Hs by exact Hi.
  assert (X : exists v l', (items m a = T v :: l' \/ items m a = Brk :: T v :: l') /\ exists t us, ts = t :: us /\ slashes v (t_value t)).
  { destruct Hh as [(v & l' & t & us & E & -> & Ev)|(l0 & E & v & l' & t & us & -> & -> & Ev)]; exists v, l'; eauto 10. }
  destruct X as (v & l' & Ei & t & us & -> & Ev). exists t, us.
  assert (Y : exists b1 l1, shown b1 (T v :: l1) ts' b').
  { destruct l as [|x l]; cbn [nil_] in Hs.
    - assert (D : dr d (T v :: l') = T v :: dr d l' \/ dr d (items m a) = items m a).
      { destruct (tvalue_semi v) as [Es|Es]; [|left; now apply dr_T].
        right. assert (empty_stmt a = true) by (eapply He; [reflexivity|now rewrite Es in Ev]).
        destruct a; try discriminate. cbn [list_ok tail_empty tail_stmt nil_] in Hl. destruct d; [|reflexivity].
        rewrite andb_true_r in Hl. destruct (cl || negb (tail_throw (SEmpty sp)))%bool; discriminate Hl. }
      destruct D as [D|D].
      + destruct Ei as [Ei|Ei]; rewrite Ei, ?dr_brk, D in Hs; cbn [app] in Hs; [|apply shown_brk in Hs]; eauto.
      + rewrite D in Hs. destruct Ei as [Ei|Ei]; rewrite Ei in Hs; cbn [app] in Hs; [|apply shown_brk in Hs]; eauto.
    - destruct Ei as [Ei|Ei]; rewrite Ei in Hs; cbn [app] in Hs; [|apply shown_brk in Hs]; eauto. }
  destruct Y as (b1 & l1 & Y). apply shown_first in Y. destruct Y as (t' & us' & -> & Et & _). exists t', us'. repeat split; auto.
  eapply slashes_akin; eauto.
Qed.
(** The token after the statements before. *)
Lemma items_first cc nx nx' c us l cl d b us' b' : (cc = CItems nx \/ cc = CTops nx) -> G cc c us (NS l) -> Forall good us -> Forall okn l ->
  eqv nx nx' -> list_ok cl d l = true -> shown b (dr d (stmts m l)) us' b' ->
  eqv (first us nx) (first us' nx') /\
  (l <> [] -> ink (stmts m l) = true) /\
  (forall x l', l = x :: l' -> empty_stmt x = false -> ~ semi (first us' nx')) /\
  (string_first m l = false -> (forall t, nx' = Some t -> is_str t = false) -> forall t, first us' nx' = Some t -> is_str t = false).
Proof.
  intros Hcc H Hg Ho Hq Hl Hs. destruct l as [|a l].
  - assert (us = []) by (destruct Hcc as [->| ->]; inversion H; reflexivity). subst us.
    unfold stmts in Hs. cbn [flat_map] in Hs. rewrite dr_nil in Hs. apply shown_nil_inv in Hs. destruct Hs as [-> _].
    split; [exact Hq|]. split; [intros X; now elim X|]. split; [discriminate|]. intros _ Hx. exact Hx.
  - apply Forall_cons_iff in Ho. destruct Ho as [Ho1 Ho2]. pose proof (items_begin _ _ _ _ _ _ Hcc H Hg Ho1) as Hb.
    assert (Hi : l <> [] -> ink (stmts m l) = true).
    { intros Hn. destruct l as [|x l]; [now elim Hn|]. destruct Hcc as [->| ->]; inversion H; subst; apply Forall_app in Hg; destruct Hg as [_ Hg];
        (eapply begins_ink; eapply items_begin; [|eassumption|exact Hg|exact (Forall_inv Ho2)]); auto. }
    destruct (list_begins _ _ _ _ _ _ _ _ Hb Hl Hi Hs) as (t & vs & t' & vs' & -> & -> & E).
    split; [exact E|]. split; [intros _; eapply begins_ink; exact Hb|]. split.
    + intros x l' Ex Hx. injection Ex as <- <-. cbn [first semi]. unfold pu. intros Es. destruct Hb as (_ & Hb & _).
      rewrite Es in E. apply akin_eq in E; [|reflexivity]. rewrite (Hb t vs eq_refl) in Hx; congruence.
    + intros Hf _ t0 E0. cbn [first] in E0. injection E0 as <-. destruct Hb as (_ & _ & Hb).
      destruct (is_str t') eqn:Et; auto.
      assert (Y : slashy (t_value t') = false) by (unfold is_str in Et; destruct (t_value t') as [| | |[]| | |]; (discriminate Et || reflexivity)).
      apply akin_eq in E; [|exact Y]. assert (X : is_str t = true) by (unfold is_str in *; now rewrite <- E).
      specialize (Hb t vs eq_refl X). cbn [string_first] in *. congruence.
Qed.

(** ** Directives *)

Lemma body_dr d ds l : (l <> [] -> ink (stmts m l) = true) ->
  dr d (dirs ds ++ stmts m l) = dr (d && nil_ l) (dirs ds) ++ dr d (stmts m l).
Proof.
  intros H. destruct l as [|x l].
  - cbn [nil_]. rewrite andb_true_r. unfold stmts. cbn [flat_map]. now rewrite !app_nil_r, dr_nil, app_nil_r.
  - cbn [nil_]. rewrite andb_false_r. apply dr_app. apply H. discriminate.
Qed.
Lemma list_ok_weak cl d l : list_ok cl d l = true -> list_ok cl false l = true.
Proof.
  induction l as [|a l IH]; auto. cbn [list_ok]. intros H. apply andb_true_iff in H. destruct H as [H1 H2]. rewrite IH by exact H2.
  rewrite andb_true_r. destruct l; auto. apply andb_true_iff in H1. destruct H1 as [H1 _]. now rewrite H1.
Qed.

(** ** Cases *)

Lemma cases_first c us l cl d b us' b' : G CCases c us (NS l) -> pu PBracketClose cl -> shown b (dr d (flat_map (items m) l)) us' b' ->
  eqv (first us None) (first (us' ++ [cl]) None) /\ (l <> [] -> ink (flat_map (items m) l) = true) /\
  (l = [] -> closes (first (us' ++ [cl]) None)) /\ ~ semi (first (us' ++ [cl]) None).
Proof.
  unfold pu. intros H Hc Hs. inversion H; subst; unfold kw, pu in *.
  - cbn [flat_map] in Hs. rewrite dr_nil in Hs. apply shown_nil_inv in Hs. destruct Hs as [-> _]. cbn [app first semi closes eqv].
    unfold akin, pu. repeat split; try (left; congruence); try congruence.
  - cbn [flat_map items] in Hs. rewrite <- !app_comm_cons in Hs. rewrite dr_T in Hs by discriminate. apply shown_T_inv in Hs; [|reflexivity].
    destruct Hs as (t' & vs & -> & Et & _ & Hs). cbn [app first eqv]. unfold akin, semi, pu.
    repeat split; try (left; congruence); try congruence; try discriminate.
  - cbn [flat_map items] in Hs. rewrite <- !app_comm_cons in Hs. rewrite dr_T in Hs by discriminate. apply shown_T_inv in Hs; [|reflexivity].
    destruct Hs as (t' & vs & -> & Et & _ & Hs). cbn [app first eqv]. unfold akin, semi, pu.
    repeat split; try (left; congruence); try congruence; try discriminate.
Qed.

Lemma items_ink cc nx c us l : (cc = CItems nx \/ cc = CTops nx) -> G cc c us (NS l) -> Forall good us -> Forall okn l -> l <> [] -> ink (stmts m l) = true.
Proof.
  intros Hcc H Hg Ho Hn. destruct l as [|x l]; [now elim Hn|]. eapply begins_ink. eapply items_begin; eauto. exact (Forall_inv Ho).
Qed.
Lemma closes_close cl : t_value cl = VPunct PBracketClose -> closes (Some cl).
Proof. auto. Qed.
Lemma eqv_close cl cl' (v : tvalue) : t_value cl = v -> t_value cl' = v -> eqv (Some cl) (Some cl').
Proof. cbn. unfold akin. left. congruence. Qed.
Lemma dirs_close d l b us b' nx : shown b (dr d (stmts m l)) us b' -> closes nx -> nil_ l = true -> closes (first us nx).
Proof.
  intros Hs Hc El. destruct l; [|discriminate]. unfold stmts in Hs. cbn [flat_map] in Hs. rewrite dr_nil in Hs.
  apply shown_nil_inv in Hs. destruct Hs as [-> _]. exact Hc.
Qed.

Lemma block_solid c ts n : G CBlock c ts (N n) -> solid (items m n).
Proof. intros H. inversion H; subst. apply solid_blk. Qed.
Lemma try_solid c b h f bs hs fs : G CBlock c bs (N b) -> G CCatch c hs (OP h) -> G CFinally c fs (OP f) ->
  solid (items m b ++ match h with Some x => Sp :: K KCatch :: Sp :: items m x | None => [] end ++
         match f with Some x => Sp :: K KFinally :: Sp :: items m x | None => [] end).
Proof.
  intros Hb Hh Hf. apply block_solid in Hb.
  assert (Hf' : f = None \/ exists x, f = Some x /\ solid (items m x)).
  { inversion Hf; subst; auto. right. eexists. split; [reflexivity|]. eapply block_solid. eassumption. }
  assert (Hh' : h = None \/ exists x, h = Some x /\ solid (items m x)).
  { inversion Hh; subst; auto; right; eexists; (split; [reflexivity|]); cbn [items]; [|apply solid_app]; eapply block_solid; eassumption. }
  destruct Hf' as [-> |(x & -> & Hx)]; [|now apply solid_app, solid_app, solid_cons, solid_cons, solid_cons].
  rewrite app_nil_r. destruct Hh' as [-> |(y & -> & Hy)]; [now rewrite app_nil_r|now apply solid_app, solid_cons, solid_cons, solid_cons].
Qed.
Lemma shown_opt b (o : option node) ts b' : shown b match o with Some x => Sp :: items m x | None => [] end ts b' ->
  shown b match o with Some x => items m x | None => [] end ts b'.
Proof. destruct o; auto. apply shown_sp. Qed.

Lemma cases_ink c us l : G CCases c us (NS l) -> l <> [] -> ink (flat_map (items m) l) = true.
Proof. intros H Hn. inversion H; subst; [now elim Hn| |]; cbn [flat_map items app]; reflexivity. Qed.
Lemma cases_dr d a l : (l <> [] -> ink (flat_map (items m) l) = true) ->
  dr d (a ++ flat_map (items m) l) = dr (d && nil_ l) a ++ dr d (flat_map (items m) l).
Proof.
  intros H. destruct l as [|x l].
  - cbn [nil_ flat_map]. now rewrite andb_true_r, !app_nil_r, dr_nil, app_nil_r.
  - cbn [nil_]. rewrite andb_false_r. apply dr_app. apply H. discriminate.
Qed.
Lemma nil_true {A} (l : list A) : nil_ l = true -> l = [].
Proof. now destruct l. Qed.

Lemma var_ok nx k c ts n : G (CVar nx k) c ts (N n) -> tail_do n = false /\ tail_throw n = false /\ tail_empty n = false.
Proof. intros H. destruct (G_varn _ _ _ _ _ H) as (? & ->). repeat split. Qed.
Lemma lex_ok nx c ts n : G (CLex nx) c ts (N n) -> tail_do n = false /\ tail_throw n = false /\ tail_empty n = false.
Proof.
  intros H. inversion H; subst; [|eapply var_ok; eassumption].
  match goal with X : G CHoist _ _ _ |- _ => inversion X; subst end; repeat split.
Qed.

(** ** What is proved *)

Definition closer (cc : cat) : punct :=
  match cc with CArgs | CParams => PParenClose | CElems | CPats => PBraceClose | _ => PBracketClose end.
(** What must hold of the list. *)
Definition side (cc : cat) (r : res) : Prop :=
  match cc, r with
  | CElems, NS l => match last l LitNull with ElemElision => False | _ => True end
  | CPats, OR l r => r <> None -> l <> [] -> last l None <> None
  | _, _ => True
  end.
Definition stmt_ok (d : bool) (n : node) (nx : option token) : Prop :=
  (tail_do n = true -> ~ semi nx) /\ (tail_throw n = true -> closes nx) /\
  (d = true -> closes nx /\ tail_empty n = false).
Definition recat (cc : cat) (nx : option token) : cat :=
  match cc with
  | CStmt _ => CStmt nx | CItem _ => CItem nx | CTop _ => CTop nx | CVar _ k => CVar nx k | CLex _ => CLex nx
  | CItems _ => CItems nx | CTops _ => CTops nx | CDirs _ => CDirs nx | _ => cc
  end.

Definition covered (cc : cat) (c : ctx) (r : res) : Prop :=
  match cc, r with
  | CPat, N n => covers n = true -> forall b ts b', shown b (it m cc r) ts b' -> exists e, G (CE 19) (with_in true c) ts (N e)
  | CBind, N n => covers n = true -> forall b ts b', shown b (it m cc r) ts b' -> exists e, G (CE 1) (with_in true c) ts (N e)
  | CBProp, N n => covers n = true -> forall b ts b', shown b (it m cc r) ts b' -> exists e, G CProp (with_in true c) ts (N e)
  | CPats, OR l r' => side cc r -> forallb (fun o => match o with Some x => covers x | None => true end) l = true ->
      match r' with Some x => covers x = true | None => True end ->
      forall b ts b' cl, shown b (it m cc r) ts b' -> t_value cl = VPunct PBraceClose ->
      exists l, G CElems (with_in true c) (ts ++ [cl]) (NS l)
  | CBProps, NR l r' => forallb covers l = true -> match r' with Some x => covers x = true | None => True end ->
      forall b ts b' cl, shown b (it m cc r) ts b' -> t_value cl = VPunct PBracketClose ->
      exists l, G CProps (with_in true c) (ts ++ [cl]) (NS l)
  | CParams, NR l r' => forallb covers l = true ->
      (l <> [] -> forall b ts b', shown b (commas (map (items m) l)) ts b' -> exists l, G CSeq (with_in true c) ts (NS l)) /\
      (match r' with Some x => covers x = true | None => True end ->
       forall b ts b' cl, shown b (it m cc r) ts b' -> t_value cl = VPunct PParenClose ->
       exists l, G CArgs c (ts ++ [cl]) (NS l))
  | _, _ => True
  end.

Definition regen (cc : cat) (c : ctx) (r : res) : Prop :=
  match cc with
  | CArgs | CElems | CProps | CPats | CBProps | CParams | CMembers _ | CImports | CExports =>
    side cc r -> forall b ts b' cl, shown b (it m cc r) ts b' -> t_value cl = VPunct (closer cc) -> G cc c (ts ++ [cl]) r
  | CCases =>
    forall d b ts b' cl, match r with NS l => cases_ok d l = true | _ => True end ->
      shown b (dr d (it m cc r)) ts b' -> t_value cl = VPunct PBracketClose -> G cc c (ts ++ [cl]) r
  | CStmt nx | CItem nx | CTop nx | CVar nx _ | CLex nx =>
    forall nx' d b ts b', eqv nx nx' -> match r with N n => stmt_ok d n nx' | _ => True end ->
      shown b (dr d (it m cc r)) ts b' -> G (recat cc nx') c ts r
  | CItems nx | CTops nx =>
    forall nx' cl d b ts b', eqv nx nx' -> (cl = true -> closes nx') -> (d = true -> closes nx') -> ~ semi nx' ->
      match r with NS l => list_ok cl d l = true | _ => True end ->
      shown b (dr d (it m cc r)) ts b' -> G (recat cc nx') c ts r
  | CDirs nx => forall nx' d b ts b', (d = true -> closes nx') -> shown b (dr d (it m cc r)) ts b' -> G (CDirs nx') c ts r
  | CNoDir _ | CAsg | CAsgTarget | CAsgElem | CAsgs | CAsgProps | CAsgProp | CAsgSeq => True
  | CProgram => forall d b ts b', (d = true -> m = true) -> shown b (dr d (it m cc r)) ts b' -> G cc c ts r
  | _ => forall b ts b', shown b (it m cc r) ts b' -> G cc c ts r
  end.

Definition RG (cc : cat) (c : ctx) (ts : list token) (r : res) : Prop :=
  Forall good ts -> okr r -> regen cc c r /\ covered cc c r.

Lemma stmt_inner n nx : negb (tail_throw n) = true -> ~ semi nx -> stmt_ok false n nx.
Proof. intros H Hs. apply negb_true_iff in H. split; [auto|]. split; [congruence|discriminate]. Qed.
Lemma shown_star b (g : bool) ts b' : shown b (if g then [P PStar] else []) ts b' ->
  star g ts /\ (forall us, first (ts ++ us) None = first us None \/
    exists t, first (ts ++ us) None = Some t /\ (t_fol t = true -> b = true)) /\ b' = if g then false else b.
Proof.
  destruct g; intros H; cbn [star].
  - apply shown_T_inv in H; [|reflexivity]. destruct H as (t & us & -> & E & F & H). apply shown_nil_inv in H. destruct H as [-> ->].
    repeat split; eauto. intros us. right. exists t. auto.
  - apply shown_nil_inv in H. destruct H as [-> ->]. repeat split; auto.
Qed.
Lemma first_star (ts : list token) l ns ts1 b :
  (forall us, first (ts ++ us) None = first us None \/
    exists t, first (ts ++ us) None = Some t /\ (t_fol t = true -> false = true)) ->
  headed l ns -> shown false l ts1 b -> forall t, first (ts ++ ts1) None = Some t -> t_fol t = false.
Proof.
  intros Hf Hh Hs t E. destruct (Hf ts1) as [E1|(t1 & E1 & F)].
  - rewrite E1 in E. eapply first_fol; eauto.
  - rewrite E1 in E. injection E as <-. destruct (t_fol t1); auto. discriminate (F eq_refl).
Qed.
Lemma elems_side l : match last l LitNull with ElemElision => false | _ => true end = true ->
  match last l LitNull with ElemElision => False | _ => True end.
Proof. destruct (last l LitNull); auto. discriminate. Qed.
Lemma pats_side (l : list (option node)) (r : option node) :
  match r with Some _ => match l with [] => true | _ => match last l None with None => false | _ => true end end | None => true end = true ->
  r <> None -> l <> [] -> last l None <> None.
Proof. intros H Hr Hl. destruct r; [|contradiction]. destruct l; [contradiction|]. destruct (last _ None); congruence. Qed.

Lemma hole_side (a : option node) l (r : option node) : (r <> None -> a :: l <> [] -> last (a :: l) None <> None) ->
  option_map (items m) r <> None -> l = [] -> a <> None.
Proof. intros H Hr -> ->. apply H; [destruct r; [discriminate|now elim Hr]|discriminate|reflexivity]. Qed.
Lemma tail_side (a : option node) l (r : option node) : (r <> None -> a :: l <> [] -> last (a :: l) None <> None) ->
  r <> None -> l <> [] -> last l None <> None.
Proof. intros H Hr Hl. rewrite <- (last_cons a) by exact Hl. apply H; auto. discriminate. Qed.

(** ** Tactics *)

Ltac goods :=
  repeat match goal with
  | H : Forall good (_ ++ _) |- _ => apply Forall_app in H; destruct H
  | H : Forall good (_ :: _) |- _ => apply Forall_cons_iff in H; destruct H
  end.
Ltac goodly :=
  repeat first [ assumption | apply Forall_nil | apply Forall_cons | (apply Forall_app; split) ].
Ltac vals :=
  repeat match goal with
  | H : symbol (update_string _) ?t |- _ =>
    lazymatch goal with _ : t_value t = _ |- _ => fail | _ => pose proof (sym_update _ _ H) end
  | H : symbol (unary_string _) ?t |- _ =>
    lazymatch goal with _ : t_value t = _ |- _ => fail | _ => pose proof (sym_unary _ _ H) end
  | H : symbol (bin_string _) ?t |- _ =>
    lazymatch goal with _ : t_value t = _ |- _ => fail | _ => pose proof (sym_bin _ _ H) end
  | H : symbol (log_string _) ?t |- _ =>
    lazymatch goal with _ : t_value t = _ |- _ => fail | _ => pose proof (sym_log _ _ H) end
  | H : symbol (assign_string _) ?t |- _ =>
    lazymatch goal with _ : t_value t = _ |- _ => fail | _ => pose proof (sym_assign _ _ H) end
  | H : symbol (kind_string _) ?t |- _ =>
    lazymatch goal with _ : t_value t = _ |- _ => fail | _ => pose proof (sym_kind _ _ H) end
  end.

Ltac hd t := lazymatch t with ?f _ => hd f | _ => t end.
Ltac oks :=
  repeat match goal with
  | H : okr _ |- _ => cbn [PrintShape.okr] in H
  | H : okn ?n |- _ =>
    lazymatch n with Body _ _ _ => fail | _ => idtac end;
    let h := hd n in is_constructor h; apply okn_inv in H; cbn [children node_ok] in H; destruct H
  | H : Forall okn (_ ++ _) |- _ => apply Forall_app in H; destruct H
  | H : Forall okn (_ :: _) |- _ => apply Forall_cons_iff in H; destruct H
  | H : Forall okn (opt_list _) |- _ => apply oko_list in H
  | H : Forall okn (cat_options _) |- _ => apply oko_cat in H
  | H : Forall okn [] |- _ => clear H
  | H : true = true |- _ => clear H
  | H : oko (Some _) |- _ => cbn [PrintShape.oko] in H
  | H : oko None |- _ => clear H
  | H : Forall oko (_ :: _) |- _ => apply Forall_cons_iff in H; destruct H
  | H : _ /\ _ |- _ => destruct H
  end.
Ltac okly := cbn [PrintShape.okr PrintShape.oko]; repeat first [ assumption | exact Logic.I | apply Forall_nil | apply Forall_cons | split ].
Ltac trues := repeat match goal with H : True |- _ => clear H end.
(* how the parts are printed *)
Ltac shapes :=
  repeat match goal with
  | H : G ?cc ?c ?l ?r |- _ =>
    let S := fresh "S" in
    first [ (pose proof (G_shape m _ _ _ _ H ltac:(goodly) ltac:(okly)) as S; cbn [hcat hcat' scat acat it] in S;
             destruct S as (?Sp & ?Sh & ?Sh & ?Ss & ?Sa)) | idtac ]; revert H
  end; intros; trues.
Ltac ihs :=
  repeat match goal with
  | H : RG _ _ _ _ |- _ =>
    unfold RG in H; specialize (H ltac:(goodly) ltac:(okly));
    let R := fresh "R" in let C := fresh "C" in destruct H as [R C]; cbn [regen covered it closer side] in R, C
  end; trues.
Ltac pre := intros Hg Ho; vals; goods; oks; shapes; ihs; unfold pu, kw, str_tok in *; cbn [regen covered it recat closer side].

Ltac norm H :=
  rewrite ?items_for, ?items_xdecl, ?items_xdefault, ?items_case, ?items_arrow_name in H;
  cbn [items bare_items method_items fun_items as_name init_items it] in H;
  rewrite ?nm_new, ?nm_target, ?nm_import, ?nm_meta in H;
  repeat match goal with
  | N : name ?c ?x ?t, Hg : good ?t |- _ => rewrite (nm_name c x t Hg N) in H
  | N : anyname ?x ?t, Hg : good ?t |- _ => rewrite (nm_anyname x t Hg N) in H
  | N : optname ?c ?x ?ts, Hg : Forall good ?ts |- _ => rewrite (nms_optname c x ts Hg N) in H
  | N : dname ?c ?x ?ts, Hg : Forall good ?ts |- _ => rewrite (nm_dname c x ts Hg N) in H
  end;
  cbn [app equals option_map fun_items] in H; unfold str_item in H.

Ltac spec := first [ reflexivity | assumption | (eapply name_ord; eassumption) | (eapply anyname_ord; eassumption)
  | match goal with |- special (?f ?o) = false => destruct o; reflexivity end
  | match goal with H : t_value ?t = _ |- special (t_value ?t) = false => rewrite H; reflexivity end ].
Ltac ords := first [ (eapply optname_ord; eassumption) | (eapply dname_ord; eassumption) | (eapply star_ord; eassumption) ].
Ltac sh :=
  repeat match goal with
  | H : shown _ [] _ _ |- _ => apply shown_nil_inv in H; destruct H; subst
  | H : shown _ (T _ :: _) _ _ |- _ =>
    let t := fresh "t" in let us := fresh "us" in
    apply shown_T_inv in H; [|spec]; destruct H as (t & us & ? & ? & ? & H); subst
  | H : shown _ (T _ :: _) _ _ |- _ =>
    let o := fresh "o" in let t := fresh "t" in let us := fresh "us" in
    apply shown_two_inv in H; [|reflexivity]; destruct H as (o & t & us & ? & ? & ? & ? & H); subst
  | H : shown _ (Sp :: _) _ _ |- _ => apply shown_sp in H
  | H : shown _ (NL :: _) _ _ |- _ => apply shown_nl in H
  | H : shown _ (Bl :: _) _ _ |- _ => apply shown_bl in H
  | H : shown _ (Brk :: _) _ _ |- _ => apply shown_brk in H
  | H : shown _ (nest _ _ _ _) _ _ |- _ => unfold nest in H; cbn [sps app] in H
  | H : shown _ (commas (map _ []) ++ rest _ _) _ _ |- _ => cbn [map commas nil_ rest app] in H
  | H : shown _ (commas (map ?f [?p]) ++ rest _ None) _ _ |- _ => change (commas (map f [p])) with (f p) in H; cbn [rest] in H
  | H : shown _ (_ ++ []) _ _ |- _ => rewrite app_nil_r in H
  | H : shown (if ?g then false else false) _ _ _ |- _ => replace (if g then false else false) with false in H by (now destruct g)
  | H : shown _ (sps _) _ _ |- _ => apply shown_sps in H; destruct H; subst
  | H : shown _ (map (fun t => T (t_value t)) _) _ _ |- _ => apply shown_toks in H; [|ords]
  | H : shown _ (if ?g then [P PStar] else []) _ _ |- _ => apply shown_star in H; destruct H as (? & ? & ->)
  | H : shown _ (?l1 ++ ?l2) _ _ |- _ =>
    lazymatch l2 with rest _ _ => fail | _ => idtac end;
    let t := fresh "ts" in let us := fresh "ts" in let b := fresh "b" in
    apply shown_app_inv in H; destruct H as (t & us & b & ? & H & ?); subst
  end.
Ltac asc := repeat (progress (rewrite <- ?app_assoc; cbn [app])); rewrite ?app_nil_r.
Ltac sidet := first [ exact Logic.I | (eapply elems_side; eassumption) | (eapply pats_side; eassumption) ].
Ltac fwd :=
  repeat match goal with
  | R : forall b ts b', shown b ?L ts b' -> _, H : shown _ ?L _ _ |- _ => specialize (R _ _ _ H)
  | R : True -> _ |- _ => specialize (R Logic.I)
  | R : ?A -> forall b ts b' cl, shown b _ ts b' -> _ |- _ => specialize (R ltac:(sidet))
  | R : forall b ts b' cl, shown b ?L ts b' -> t_value cl = ?v -> _, H : shown _ ?L ?ts1 _, Hv : t_value ?cl = ?w |- G _ _ ?l _ =>
    lazymatch l with context [ts1 ++ cl :: _] => idtac end; specialize (R _ _ _ cl H Hv)
  end.
Ltac reasc :=
  repeat match goal with
  | X : G _ _ (?u ++ [?x]) _ |- G _ _ ?l _ =>
    match l with context [u ++ x :: ?w] =>
      lazymatch w with [] => fail | _ => idtac end;
      replace (u ++ x :: w) with ((u ++ [x]) ++ w) by (now rewrite <- app_assoc) end
  end.
Ltac sd :=
  first
  [ eassumption | reflexivity | discriminate
  | (eapply name_alike; eassumption) | (eapply anyname_alike; eassumption) | (eapply symbol_alike; [eassumption|congruence])
  | (eapply optname_alike; eassumption) | (eapply dname_alike; eassumption) | (eapply star_alike; eassumption)
  | (eapply not_first_shown; [eassumption|eassumption|eassumption|reflexivity])
  | (eapply first_fol; eassumption)
  | (eapply asyncs_shown; eassumption)
  | (eapply first_star; eassumption)
  | (eapply eqv_not; eassumption)
  | (eapply shown_ends; [|eassumption]; match goal with K : stmt_ok _ _ _ |- _ => let E := fresh in intros E; now destruct K as (_ & _ & K); destruct (K E) end)
  | (apply ends_expr_ends; eapply shown_ends; [|eassumption]; match goal with K : stmt_ok _ _ _ |- _ => let E := fresh in intros E; now destruct K as (_ & _ & K); destruct (K E) end)
  | match goal with
    | |- t_value _ = _ => congruence
    | F : t_fol ?t = true -> false = true |- t_fol ?t = false => destruct (t_fol t); [discriminate (F eq_refl)|reflexivity]
    | F : t_fol ?t = true -> ?b = true, H : shown _ ?l _ ?b, S : solid ?l |- t_fol ?t = false =>
      rewrite (shown_solid _ _ _ _ H S) in F; destruct (t_fol t); [discriminate (F eq_refl)|reflexivity]
    | H : ~ t_value ?t = _ |- ~ kw _ _ => unfold kw; congruence
    | H : ~ t_value ?t = _ |- ~ t_value _ = _ => congruence
    | H : ~ In (t_value ?t) _, E : t_value ?t' = t_value ?t |- ~ In (t_value ?t') _ => rewrite E; exact H
    end ].
Ltac conc := split; [|try exact Logic.I].
(* the same constructor again *)
Ltac step g :=
  pre; conc; intros b0 ts0 b0' Hs; norm Hs; sh; asc; fwd; reasc; eapply g; sd.
Ltac inks :=
  first [ reflexivity | (eapply headed_ink; eassumption) | (eapply headed'_ink; eassumption)
        | (rewrite ink_app; apply orb_true_iff; first [left; solve [inks] | right; solve [inks]])
        | match goal with |- ink (_ :: ?l) = true => change (ink l = true); inks end ].
Ltac drs H := repeat match type of H with
  | context [dr ?d (T (VPunct PSemiColon) :: ?l)] => rewrite (dr_semi d l) in H by inks
  | context [dr ?d (T ?v :: ?l)] =>
    rewrite (dr_T d v l) in H by (first [discriminate | (eapply name_not_semi; eassumption) | (eapply anyname_not_semi; eassumption)
                                         | destruct v; discriminate])
  | context [dr ?d (T (kind_tok ?k) :: ?l)] => rewrite (dr_T d (kind_tok k) l) in H by (destruct k; discriminate)
  | context [dr ?d (Sp :: ?l)] => rewrite (dr_sp d l) in H
  | context [dr ?d (NL :: ?l)] => rewrite (dr_nl d l) in H
  | context [dr ?d (Brk :: ?l)] => rewrite (dr_brk d l) in H
  | context [dr ?d (Bl :: ?l)] => rewrite (dr_bl d l) in H
  | context [dr ?d []] => rewrite (dr_nil d) in H
  | context [dr ?d (nest ?o ?c ?b ?x)] => rewrite (dr_solid d (nest o c b x)) in H by (apply solid_nest; discriminate)
  | context [dr ?d (blk ?a ?x)] => rewrite (dr_solid d (blk a x)) in H by (apply solid_blk)
  | context [dr ?d ?l] => match goal with S : solid l |- _ => rewrite (dr_solid d l S) in H end
  | context [dr ?d (?a ++ ?b)] => first [rewrite (dr_app d a b) in H by inks | rewrite (dr_gap d a b) in H by reflexivity]
  end.
Ltac fwdS :=
  repeat match goal with
  | R : forall nx' d b ts b', eqv ?nx nx' -> _ -> shown b (dr d ?L) ts b' -> _, H : shown _ (dr ?d ?L) _ _, Hq : eqv ?nx ?nx', Hk : stmt_ok _ _ _ |- _ =>
    specialize (R nx' d _ _ _ Hq Hk H)
  end.
Ltac step0 := pre; conc; intros nx' d0 b0 ts0 b0' Hq Hk Hs; norm Hs; drs Hs; sh; asc; fwd; fwdS; reasc.
Ltac stepS g := step0; eapply g; sd.
Ltac again g := first [solve [step g] | solve [stepS g]].

(** ** The theorem *)

Lemma G_regen cc c ts r : G cc c ts r -> RG cc c ts r.
Proof.
  induction 1; try exact (fun _ _ => conj Logic.I Logic.I).
  - again g_up.
  - again g_ident.
  - again g_this.
  - again g_null.
  - again g_true.
  - again g_false.
  - again g_number.
  - again g_string.
  - (* g_template *) pre; conc; intros b0 ts0 b0' Hs; rewrite items_lit_whole in Hs; sh; asc; fwd; eapply g_template; sd.
  - (* g_template_head *) pre; conc; intros b0 ts0 b0' Hs; match goal with X : G CTpl _ _ (NS _) |- _ => rewrite (items_lit_head _ _ _ _ _ X) in Hs end; sh; fwd; eapply g_template_head; sd.
  - (* g_regexp *) pre; conc; intros b0 ts0 b0' Hs; norm Hs; sh; eapply g_regexp; [assumption|sd].
  - again g_paren.
  - again g_array.
  - again g_object.
  - again g_function.
  - again g_async_function.
  - (* g_class *) pre; conc; intros b0 ts0 b0' Hs. cbn [items bare_items it] in Hs.
    match goal with X : G (CMembers _) _ _ _ |- _ => pose proof (members_dropped _ _ _ _ X ltac:(goodly) ltac:(assumption)) as Hd end.
    rewrite class_eq in Hs by exact Hd. norm Hs. specialize (R Logic.I). unfold member_list in *.
    sh; asc; fwd; eapply g_class; sd.
  - again g_primary.
  - again g_dot.
  - again g_index.
  - (* g_tagged *) pre; conc; intros b0 ts0 b0' Hs; rewrite items_tag_whole in Hs; sh; asc; fwd; eapply g_tagged; sd.
  - (* g_tagged_head *) pre; conc; intros b0 ts0 b0' Hs; match goal with X : G CTpl _ _ (NS _) |- _ => rewrite (items_tag_head _ _ _ _ _ _ X) in Hs end; sh; asc; fwd; eapply g_tagged_head; sd.
  - again g_new_args.
  - again g_super_dot.
  - again g_super_index.
  - again g_new_target.
  - again g_import_meta.
  - again g_member.
  - again g_new.
  - again g_call.
  - again g_call_call.
  - again g_call_dot.
  - again g_call_index.
  - (* g_call_tagged *) pre; conc; intros b0 ts0 b0' Hs; rewrite items_tag_whole in Hs; sh; asc; fwd; eapply g_call_tagged; sd.
  - again g_opt_start_call.
  - again g_opt_start_dot.
  - again g_opt_start_index.
  - again g_opt_opt_call.
  - again g_opt_opt_dot.
  - again g_opt_opt_index.
  - again g_opt_call.
  - again g_opt_dot.
  - again g_opt_index.
  - again g_lhs_new.
  - again g_lhs_call.
  - again g_super_call.
  - again g_import_call.
  - again g_lhs.
  - again g_lhs_opt.
  - again g_postfix.
  - again g_prefix.
  - again g_unary.
  - again g_await.
  - again g_binary.
  - again g_logical.
  - again g_conditional.
  - again g_assign.
  - (* g_assign_pattern *) intros Hg Ho. exfalso. apply okn_inv in Ho. destruct Ho as [_ Ho]. exact (asg_not_ok _ _ _ _ _ H eq_refl (Forall_inv Ho)).
  - again g_yield.
  - again g_yield_star.
  - again g_arrow_name.
  - again g_arrow_none.
  - (* g_arrow *) pre; conc; intros b0 ts0 b0' Hs. norm Hs. sh. asc.
    match goal with X : (forallb covers p && _)%bool = true |- _ => apply andb_prop in X; destruct X as [Hcv Hcr] end.
    destruct (C0 Hcv) as [C1 C2]. eapply arrow_regen; try eassumption; [sd|eapply R; eassumption|exact (R0 Logic.I)].
  - (* g_arrow_rest *) pre; conc; intros b0 ts0 b0' Hs. norm Hs. sh. asc.
    match goal with X : (forallb covers p && _)%bool = true |- _ => apply andb_prop in X; destruct X as [Hcv Hcr] end.
    destruct (C0 Hcv) as [C1 C2]. eapply arrow_regen; try eassumption; [sd|eapply R; eassumption|exact (R0 Logic.I)].
  - (* g_arrow_more *) pre; conc; intros b0 ts0 b0' Hs. norm Hs. sh. asc.
    match goal with X : (forallb covers p && _)%bool = true |- _ => apply andb_prop in X; destruct X as [Hcv Hcr] end.
    destruct (C0 Hcv) as [C1 C2]. eapply arrow_regen; try eassumption; [sd|eapply R; eassumption|exact (R0 Logic.I)].
  - (* g_arrow_cover *) pre; conc; intros b0 ts0 b0' Hs. norm Hs. sh. asc.
    match goal with X : (forallb covers p && _)%bool = true |- _ => apply andb_prop in X; destruct X as [Hcv Hcr] end.
    destruct (C0 Hcv) as [C1 C2]. eapply arrow_regen; try eassumption; [sd|eapply R; eassumption|exact (R0 Logic.I)].
  - (* g_arrow_cover_more *) pre; conc; intros b0 ts0 b0' Hs. norm Hs. sh. asc.
    match goal with X : (forallb covers p && _)%bool = true |- _ => apply andb_prop in X; destruct X as [Hcv Hcr] end.
    destruct (C0 Hcv) as [C1 C2]. eapply arrow_regen; try eassumption; [sd|eapply R; eassumption|exact (R0 Logic.I)].
  - again g_async_arrow_name.
  - (* g_async_arrow *) pre; conc; intros b0 ts0 b0' Hs. norm Hs. sh. asc.
    match goal with X : (forallb covers p && _)%bool = true |- _ => apply andb_prop in X; destruct X as [Hcv Hcr] end.
    destruct (C0 Hcv) as [C1 C2]. 
    match goal with X : shown _ (commas _ ++ _) ?u _, Y : t_value ?cl = VPunct PParenClose |- _ =>
      destruct (C2 ltac:(destruct r; auto) _ _ _ _ X Y) as (l' & Hl') end. fwd. reasc. eapply g_async_arrow; sd.
  - (* g_sequence *) pre; conc; intros b0 ts0 b0' Hs. norm Hs. apply commas_inv in Hs. destruct Hs as [[-> Hs]|(Hn & ts1 & b1 & tk & us1 & -> & Hs & Hc & Hr)].
    { match goal with H : G CSeq _ _ (NS []) |- _ => inversion H end. }
    fwd. eapply g_sequence; sd.
  - again g_seq_one.
  - (* g_seq_more *) pre; conc; intros b0 ts0 b0' Hs. norm Hs. apply commas_inv in Hs. destruct Hs as [[-> Hs]|(Hn & ts1 & b1 & tk & us1 & -> & Hs & Hc & Hr)].
    { match goal with H : G CSeq _ _ (NS []) |- _ => inversion H end. }
    fwd. eapply g_seq_more; sd.
  - (* g_args_end *) pre; conc; intros Hsd b0 ts0 b0' cl0 Hs Hcl; cbn [map commas] in Hs; sh; eapply g_args_end; sd.
  - (* g_args_last *) pre; conc; intros Hsd b0 ts0 b0' cl0 Hs Hcl; apply commas_inv in Hs; destruct Hs as [[_ Hs]|[Hn _]]; [|now elim Hn]; fwd; eapply g_args_last; sd.
  - (* g_args_more *) pre; conc; intros Hsd b0 ts0 b0' cl0 Hs Hcl; apply commas_inv in Hs; destruct Hs as [[-> Hs]|(Hn & ts1 & b1 & tk & us1 & -> & Hs & Hc & Hr)]; [fwd; eapply g_args_last; sd|asc; fwd; eapply g_args_more; sd].
  - again g_arg.
  - again g_arg_spread.
  - (* g_tpl_tail *) pre; conc; intros b0 ts0 b0' Hs; rewrite tpl_rest_tail in Hs; sh; asc; fwd; eapply g_tpl_tail; sd.
  - (* g_tpl_middle *) pre; conc; intros b0 ts0 b0' Hs; match goal with X : G CTpl _ _ (NS _) |- _ => rewrite (tpl_rest_more _ _ _ _ _ _ X) in Hs end; sh; asc; fwd; eapply g_tpl_middle; sd.
  - again g_elem.
  - again g_elem_spread.
  - (* g_elems_end *) pre; conc; intros Hsd b0 ts0 b0' cl0 Hs Hcl; cbn [map commas] in Hs; sh; eapply g_elems_end; sd.
  - (* g_elems_hole *) pre; conc; intros Hsd b0 ts0 b0' cl0 Hs Hcl; apply commas_inv in Hs; destruct Hs as [[-> Hs]|(Hn & ts1 & b1 & tk & us1 & -> & Hs & Hc & Hr)]; [cbn [last] in Hsd; contradiction|].
    rewrite last_cons in Hsd by assumption. specialize (R Hsd). cbn [items] in Hs. sh. asc; fwd. eapply g_elems_hole; sd.
  - (* g_elems_last *) pre; conc; intros Hsd b0 ts0 b0' cl0 Hs Hcl; apply commas_inv in Hs; destruct Hs as [[_ Hs]|[Hn _]]; [|now elim Hn]; fwd; eapply g_elems_last; sd.
  - (* g_elems_more *) pre; conc; intros Hsd b0 ts0 b0' cl0 Hs Hcl; apply commas_inv in Hs; destruct Hs as [[-> Hs]|(Hn & ts1 & b1 & tk & us1 & -> & Hs & Hc & Hr)]; [fwd; eapply g_elems_last; sd|].
    rewrite last_cons in Hsd by assumption. specialize (R Hsd). asc; fwd. eapply g_elems_more; sd.
  - (* g_props_end *) pre; conc; intros Hsd b0 ts0 b0' cl0 Hs Hcl; cbn [map commas] in Hs; sh; eapply g_props_end; sd.
  - (* g_props_last *) pre; conc; intros Hsd b0 ts0 b0' cl0 Hs Hcl; apply commas_inv in Hs; destruct Hs as [[_ Hs]|[Hn _]]; [|now elim Hn]; fwd; eapply g_props_last; sd.
  - (* g_props_more *) pre; conc; intros Hsd b0 ts0 b0' cl0 Hs Hcl; apply commas_inv in Hs; destruct Hs as [[-> Hs]|(Hn & ts1 & b1 & tk & us1 & -> & Hs & Hc & Hr)]; [fwd; eapply g_props_last; sd|asc; fwd; eapply g_props_more; sd].
  - again g_prop_short.
  - again g_prop_named.
  - (* g_prop_method *) pre; conc; intros b0 ts0 b0' Hs. cbn [items] in Hs.
    match goal with X : G (CMethod false) _ _ _ |- _ => rewrite <- (method_false _ _ _ X) in Hs end. fwd. eapply g_prop_method; sd.
  - again g_prop_computed_method.
  - again g_prop_spread.
  - again g_name_ident.
  - again g_name_string.
  - again g_name_number.
  - again g_name_computed.
  - (* g_pat_ident *) pre; split; [intros b0 ts0 b0' Hs; norm Hs; sh; eapply g_pat_ident; sd|].
    cbn [covers id_name id]. intros Hcov b0 ts0 b0' Hs. norm Hs. sh. eexists. eapply cover_ident; [sd|exact Hcov].
  - (* g_pat_array *) pre; split; [intros b0 ts0 b0' Hs; norm Hs; sh; asc; fwd; eapply g_pat_array; sd|].
    cbn [covers]. intros Hcov b0 ts0 b0' Hs. apply andb_true_iff in Hcov. destruct Hcov as [Hc1 Hc2].
    norm Hs. sh. asc. destruct (C ltac:(sidet) Hc1 ltac:(destruct r; auto) _ _ _ _ ltac:(eassumption) ltac:(eassumption)) as (l' & Hl).
    eexists. eapply g_array; [sd|exact Hl].
  - (* g_pat_object *) pre; split; [intros b0 ts0 b0' Hs; norm Hs; sh; asc; fwd; eapply g_pat_object; sd|].
    cbn [covers]. intros Hcov b0 ts0 b0' Hs. apply andb_true_iff in Hcov. destruct Hcov as [Hc1 Hc2].
    norm Hs. sh. asc. destruct (C Hc1 ltac:(destruct r; auto) _ _ _ _ ltac:(eassumption) ltac:(eassumption)) as (l' & Hl).
    eexists. eapply g_object; [sd|exact Hl].
  - (* g_bind *) pre; split; [intros b0 ts0 b0' Hs; norm Hs; sh; asc; fwd; eapply g_bind; sd|].
    intros Hcov b0 ts0 b0' Hs. cbn [items] in Hs. sh. destruct i as [e|].
    + cbn [covers] in Hcov. destruct p; try discriminate Hcov.
      match goal with X : G CPat _ _ (N (BindIdent _)) |- _ => inversion X; subst end.
      specialize (R _ _ _ ltac:(eassumption)). inversion R; subst.
      goods. norm Hs. sh.
      eexists. eapply cover_assign; [sd|exact Hcov|sd|sd].
    + cbn [equals option_map] in *. sh. asc. assert (Hcv : covers p = true) by (destruct p; exact Hcov). destruct (C0 Hcv _ _ _ Hs) as (e & He). eexists. apply primary_1. exact He.
  - again g_init_none.
  - again g_init.
  - (* g_pats_end *) pre; split; [intros Hsd b0 ts0 b0' cl0 Hs Hcl; cbn [map pats commas nil_ option_map rest app] in Hs; sh; eapply g_pats_end; sd|].
    intros _ _ _ b0 ts0 b0' cl0 Hs Hcl. cbn [map pats commas nil_ option_map rest app] in Hs; sh. eexists. eapply g_elems_end; sd.
  - (* g_pats_rest *) pre; split; [intros Hsd b0 ts0 b0' cl0 Hs Hcl; cbn [map pats commas nil_ option_map rest app] in Hs; sh; asc; fwd; eapply g_pats_rest; sd|].
    intros _ _ Hcov b0 ts0 b0' cl0 Hs Hcl. cbn [map pats commas nil_ option_map rest app] in Hs; sh. destruct (C Hcov _ _ _ Hs) as (e & He).
    eexists. rewrite <- app_comm_cons, app_comm_cons. eapply g_elems_last; [eapply g_elem_spread; [sd|apply primary_1; exact He]|sd].
  - (* g_pats_hole *) pre; split.
    { intros Hsd b0 ts0 b0' cl0 Hs Hcl. cbn [nil_] in Hs. apply pats_rest_inv in Hs; [|now apply hole_side].
      destruct Hs as [(-> & Er & tk & -> & Ht)|(Hn & ts1 & b1 & tk & us1 & -> & -> & Ht & Hs)].
      + destruct r; [discriminate Er|]. cbn [app]. eapply g_pats_hole; [sd|eapply g_pats_end; sd].
      + cbn [app]. eapply g_pats_hole; [sd|]. eapply R; [now apply (tail_side _ _ _ Hsd)|eassumption|sd]. }
    cbn [forallb]. intros Hsd Hcov Hr b0 ts0 b0' cl0 Hs Hcl. cbn [nil_] in Hs. apply pats_rest_inv in Hs; [|now apply hole_side].
    destruct (andb_prop _ _ Hcov) as [_ Hcov'].
    destruct Hs as [(-> & Er & tk & -> & Ht)|(Hn & ts1 & b1 & tk & us1 & -> & -> & Ht & Hs)].
    + eexists. cbn [app]. eapply g_elems_hole; [sd|eapply g_elems_end; sd].
    + destruct (C (tail_side _ _ _ Hsd) Hcov' Hr _ _ _ _ Hs Hcl) as (l' & Hl). eexists. cbn [app]. eapply g_elems_hole; [sd|exact Hl].
  - (* g_pats_last *) pre; split.
    { intros Hsd b0 ts0 b0' cl0 Hs Hcl. change (pats (map (option_map (items m)) [Some a])) with (items m a) in Hs. cbn [nil_ option_map rest app] in Hs.
      sh. fwd. eapply g_pats_last; sd. }
    cbn [forallb]. rewrite andb_true_r. intros _ Hcov _ b0 ts0 b0' cl0 Hs Hcl. change (pats (map (option_map (items m)) [Some a])) with (items m a) in Hs. cbn [nil_ option_map rest app] in Hs.
    sh. destruct (C Hcov _ _ _ Hs) as (e & He). eexists. eapply g_elems_last; [eapply g_elem; exact He|sd].
  - (* g_pats_more *) pre; split.
    { intros Hsd b0 ts0 b0' cl0 Hs Hcl. cbn [nil_] in Hs. apply pats_rest_inv in Hs; [|now apply hole_side].
      destruct Hs as [(-> & Er & Hs)|(Hn & ts1 & b1 & tk & us1 & -> & Hs & Ht & Hs')].
      + destruct r; [discriminate Er|]. fwd. eapply g_pats_last; sd.
      + asc. fwd. eapply g_pats_more; [sd|sd|]. eapply R; [now apply (tail_side _ _ _ Hsd)|eassumption|sd]. }
    cbn [forallb]. intros Hsd Hcov Hr b0 ts0 b0' cl0 Hs Hcl. cbn [nil_] in Hs. apply pats_rest_inv in Hs; [|now apply hole_side].
    destruct (andb_prop _ _ Hcov) as [Hcov1 Hcov'].
    destruct Hs as [(-> & Er & Hs)|(Hn & ts1 & b1 & tk & us1 & -> & Hs & Ht & Hs')]; destruct (C0 Hcov1 _ _ _ Hs) as (e & He).
    + eexists. eapply g_elems_last; [eapply g_elem; exact He|sd].
    + destruct (C (tail_side _ _ _ Hsd) Hcov' Hr _ _ _ _ Hs' Hcl) as (l' & Hl). eexists. asc. eapply g_elems_more; [eapply g_elem; exact He|sd|exact Hl].
  - (* g_bprops_end *) pre; split; [intros Hsd b0 ts0 b0' cl0 Hs Hcl; cbn [map pats commas nil_ option_map rest app] in Hs; sh; eapply g_bprops_end; sd|].
    intros _ _ b0 ts0 b0' cl0 Hs Hcl. cbn [map pats commas nil_ option_map rest app] in Hs; sh. eexists. eapply g_props_end; sd.
  - (* g_bprops_rest *) pre; split; [intros Hsd b0 ts0 b0' cl0 Hs Hcl; cbn [map pats commas nil_ option_map rest app] in Hs; sh; asc; fwd; eapply g_bprops_rest; sd|].
    intros _ Hcov b0 ts0 b0' cl0 Hs Hcl. cbn [map pats commas nil_ option_map rest app] in Hs; sh. destruct (C Hcov _ _ _ Hs) as (e & He).
    eexists. rewrite <- app_comm_cons, app_comm_cons. eapply g_props_last; [eapply g_prop_spread; [sd|apply primary_1; exact He]|sd].
  - (* g_bprops_last *) pre; split.
    { intros Hsd b0 ts0 b0' cl0 Hs Hcl. cbn [option_map] in Hs. sh. fwd. eapply g_bprops_last; sd. }
    cbn [forallb]. rewrite andb_true_r. intros Hcov _ b0 ts0 b0' cl0 Hs Hcl. cbn [option_map] in Hs.
    sh. destruct (C Hcov _ _ _ Hs) as (e & He). eexists. eapply g_props_last; [exact He|sd].
  - (* g_bprops_more *) pre; split.
    { intros Hsd b0 ts0 b0' cl0 Hs Hcl. cbn [nil_] in Hs. apply commas_rest_inv in Hs.
      destruct Hs as [(-> & Er & Hs)|(Hn & ts1 & b1 & tk & us1 & -> & Hs & Ht & Hs')].
      + destruct r; [discriminate Er|]. fwd. eapply g_bprops_last; sd.
      + asc. fwd. eapply g_bprops_more; sd. }
    cbn [forallb]. intros Hcov Hr b0 ts0 b0' cl0 Hs Hcl. cbn [nil_] in Hs. apply commas_rest_inv in Hs.
    destruct (andb_prop _ _ Hcov) as [Hcov1 Hcov'].
    destruct Hs as [(-> & Er & Hs)|(Hn & ts1 & b1 & tk & us1 & -> & Hs & Ht & Hs')]; destruct (C0 Hcov1 _ _ _ Hs) as (e & He).
    + eexists. eapply g_props_last; [exact He|sd].
    + destruct (C Hcov' Hr _ _ _ _ Hs' Hcl) as (l' & Hl). eexists. asc. eapply g_props_more; [exact He|sd|exact Hl].
  - (* g_bprop_single *) pre; split; [intros b0 ts0 b0' Hs; norm Hs; sh; asc; fwd; eapply g_bprop_single; sd|].
    intros Hcov b0 ts0 b0' Hs. cbn [covers] in Hcov. destruct i; [discriminate Hcov|]. norm Hs. sh.
    eexists. eapply cover_short; [sd|exact Hcov].
  - (* g_bprop_named *) pre; split; [intros b0 ts0 b0' Hs; norm Hs; sh; asc; fwd; eapply g_bprop_named; sd|].
    intros Hcov b0 ts0 b0' Hs. cbn [covers] in Hcov. norm Hs. sh. 
    assert (Hc : covers b = true) by (destruct n; first [discriminate Hcov | exact Hcov]).
    match goal with X : shown _ (items m b) _ _ |- _ => destruct (C Hc _ _ _ X) as (e & He) end. fwd.
    eexists. eapply g_prop_named; [eapply cover_name; [eassumption|destruct n; auto; discriminate Hcov]|sd|exact He].
  - (* g_params_end *) pre; split; [intros Hsd b0 ts0 b0' cl0 Hs Hcl; cbn [map pats commas nil_ option_map rest app] in Hs; sh; eapply g_params_end; sd|].
    intros _. split; [intros X; now elim X|]. intros _ b0 ts0 b0' cl0 Hs Hcl. cbn [map pats commas nil_ option_map rest app] in Hs; sh. eexists. eapply g_args_end; sd.
  - (* g_params_rest *) pre; split; [intros Hsd b0 ts0 b0' cl0 Hs Hcl; cbn [map pats commas nil_ option_map rest app] in Hs; sh; asc; fwd; eapply g_params_rest; sd|].
    intros _. split; [intros X; now elim X|]. intros Hcov b0 ts0 b0' cl0 Hs Hcl. cbn [map pats commas nil_ option_map rest app] in Hs; sh. destruct (C Hcov _ _ _ Hs) as (e & He).
    eexists. rewrite <- app_comm_cons, app_comm_cons. eapply g_args_last; [eapply g_arg_spread; [sd|apply primary_1; exact He]|sd].
  - (* g_params_last *) pre; split.
    { intros Hsd b0 ts0 b0' cl0 Hs Hcl. cbn [option_map] in Hs. sh. fwd. eapply g_params_last; sd. }
    cbn [forallb]. rewrite andb_true_r. intros Hcov. split.
    { intros _ b0 ts0 b0' Hs. change (commas (map (items m) [a])) with (items m a) in Hs. destruct (C Hcov _ _ _ Hs) as (e & He).
      eexists. eapply g_seq_one; exact He. }
    intros _ b0 ts0 b0' cl0 Hs Hcl. cbn [option_map] in Hs.
    sh. destruct (C Hcov _ _ _ Hs) as (e & He). eexists. eapply g_args_last; [eapply g_arg; exact He|sd].
  - (* g_params_more *) pre; split.
    { intros Hsd b0 ts0 b0' cl0 Hs Hcl. cbn [nil_] in Hs. apply commas_rest_inv in Hs.
      destruct Hs as [(-> & Er & Hs)|(Hn & ts1 & b1 & tk & us1 & -> & Hs & Ht & Hs')].
      + destruct r; [discriminate Er|]. fwd. eapply g_params_last; sd.
      + asc. fwd. eapply g_params_more; sd. }
    cbn [forallb]. intros Hcov. destruct (andb_prop _ _ Hcov) as [Hcov1 Hcov']. destruct (C Hcov') as [C1 C2]. split.
    { intros _ b0 ts0 b0' Hs. apply commas_inv in Hs. destruct Hs as [[-> Hs]|(Hn & ts1 & b1 & tk & us1 & -> & Hs & Hc & Hs')];
        destruct (C0 Hcov1 _ _ _ Hs) as (e & He).
      + eexists. eapply g_seq_one; exact He.
      + destruct (C1 Hn _ _ _ Hs') as (l' & Hl). eexists. eapply g_seq_more; [exact He|sd|exact Hl]. }
    intros Hr b0 ts0 b0' cl0 Hs Hcl. cbn [nil_] in Hs. apply commas_rest_inv in Hs.
    destruct Hs as [(-> & Er & Hs)|(Hn & ts1 & b1 & tk & us1 & -> & Hs & Ht & Hs')]; destruct (C0 Hcov1 _ _ _ Hs) as (e & He).
    + eexists. eapply g_args_last; [eapply g_arg; exact He|sd].
    + destruct (C2 Hr _ _ _ _ Hs' Hcl) as (l' & Hl). eexists. asc. eapply g_args_more; [eapply g_arg; exact He|sd|exact Hl].
  - (* g_body *) pre; conc; intros b0 ts0 b0' Hs.
    apply okn_inv in Ho. cbn [children node_ok] in Ho. destruct Ho as [Hn Hc]. apply andb_prop in Hn. destruct Hn as [Hl Hst]. apply negb_true_iff in Hst.
    destruct (IHG3 ltac:(goodly) Hc) as [R _]. cbn [regen it recat] in R.
    pose proof (items_ink _ _ _ _ _ (or_introl eq_refl) H2 ltac:(goodly) ltac:(assumption)) as Hi.
    cbn [items] in Hs. fold (stmts m l) in Hs. unfold blk in Hs.
    change (if m then dropped (dirs dl ++ stmts m l) else dirs dl ++ stmts m l) with (dr m (dirs dl ++ stmts m l)) in Hs.
    rewrite body_dr in Hs by exact Hi. sh. asc.
pose proof (eqv_close _ _ _ H3 H13) as Hq.
    destruct (items_first _ _ _ _ _ _ _ _ _ _ _ (or_introl eq_refl) H2 ltac:(goodly) ltac:(assumption) Hq Hl H12) as (_ & _ & _ & Hstr).
    eapply g_body; [sd| | | |exact H13].
    + eapply R0; [|exact Hs]; intros E; apply andb_prop in E; destruct E as [_ E]; eapply dirs_close; [exact H12|exact H13|exact E].
    + apply g_nodir. apply Hstr; [exact Hst|]. intros u0 E0. injection E0 as <-. unfold is_str. now rewrite H13.
    + eapply (R (Some t0) true m); [exact Hq| | | |exact Hl|exact H12]; try (intros _; exact H13). cbn [semi]. unfold pu. congruence.
  - (* g_dirs_end *) pre; conc; intros nx' d0 b0 ts0 b0' Hd Hs. cbn [dirs flat_map] in Hs; rewrite dr_nil in Hs; sh; apply g_dirs_end.
  - (* g_dirs *) pre; conc; intros nx' d0 b0 ts0 b0' Hd Hs. cbn [dirs flat_map app] in Hs. fold (dirs l) in Hs. unfold str_item in Hs. rewrite dr_T in Hs by discriminate. sh.
    destruct l as [|s' l'].
    + cbn [dirs flat_map] in Hs. change [P PSemiColon; NL] with ([P PSemiColon] ++ [NL]) in Hs. rewrite dr_gap in Hs by reflexivity. sh.
      eapply g_dirs; [sd|eapply shown_ends; [|eassumption]; exact Hd|apply g_dirs_end].
    + rewrite dr_semi in Hs by reflexivity. rewrite dr_nl in Hs. sh. rewrite <- (app_nil_l us1) || idtac.
      match goal with X : t_value ?t2 = VPunct PSemiColon |- G _ _ (?t1 :: ?t2 :: ?u) _ =>
        apply (g_dirs nx' c s t1 [t2] u); [sd|left; eexists; split; [reflexivity|exact X]|] end.
      eapply R; eassumption.
  - again g_concise_body.
  - again g_concise.
  - again g_heritage_none.
  - again g_heritage.
  - (* g_members_end *) pre; conc; intros _ b0 ts0 b0' cl0 Hs Hcl; cbn [flat_map] in Hs; sh; apply g_members_end; exact Hcl.
  - (* g_members_semi *) pre; conc; exact R.
  - (* g_members_more *) pre; conc; intros _ b0 ts0 b0' cl0 Hs Hcl; cbn [flat_map] in Hs.
    destruct ts as [|t ts]; [contradiction|]. specialize (H t eq_refl). specialize (H0 t eq_refl). specialize (R Logic.I).
    rewrite <- (method_false _ _ _ H) in Hs. shapes. ihs. sh. fwd.
    match goal with Y : shown _ (method_items m _) _ _, X : headed _ (t :: ts) |- _ =>
      destruct (headed_shown _ _ _ _ _ X Y) as (t1 & us1 & t2 & us2 & Ea & -> & Eb & _) end. injection Ea as <- <-.
    asc. rewrite app_comm_cons. eapply g_members_more; [|discriminate|].
    + cbn [first]. intros t3 E3. injection E3 as <-. rewrite (says_akin _ _ Eb).
      first [exact R0 | exact R].
    + eapply R; eassumption.
  - (* g_members_static *) pre; conc; intros _ b0 ts0 b0' cl0 Hs Hcl; cbn [flat_map] in Hs. specialize (R Logic.I).
    match goal with X : G (CMethod true) _ _ _ |- _ => rewrite (method_true _ _ _ X) in Hs end. cbn [app] in Hs. sh. fwd. asc.
    eapply g_members_static; [sd|sd|eapply R; eassumption].
  - again g_method.
  - again g_getter.
  - again g_setter.
  - again g_generator_method.
  - again g_async_method.
  - (* g_empty *) step0. destruct d0; [destruct Hk as (_ & _ & K); now destruct (K eq_refl)|]. cbn [dr] in Hs. sh. eapply g_empty; sd.
  - again g_block_stmt.
  - (* g_block *) pre; conc; intros b0 ts0 b0' Hs. cbn [items] in Hs. fold (stmts m l) in Hs. unfold blk in Hs.
    change (if m then dropped (stmts m l) else stmts m l) with (dr m (stmts m l)) in Hs. sh. asc.
    match goal with Z : t_value ?k = VPunct PBracketClose |- G _ _ (_ :: _ ++ [?k]) _ =>
      pose proof (eqv_close _ _ _ H1 Z) as Hq; eapply g_block; [sd| |exact Z];
      eapply (R (Some k) true m); [exact Hq| | | |eassumption|eassumption]; try (intros _; exact Z); cbn [semi]; unfold pu; congruence end.
  - again g_var_stmt.
  - again g_expr_stmt.
  - again g_if.
  - (* g_if_else *) step0; eapply g_if_else; try sd.
    eapply (R0 _ false); [|apply stmt_inner; [eassumption|]|eassumption]; cbn [eqv semi]; unfold akin, pu; first [left; congruence|congruence].
  - again g_while.
  - again g_with.
  - (* g_do *) step0; eapply g_do; try sd.
    + eapply (R0 _ false); [|apply stmt_inner; [eassumption|]|eassumption]; cbn [eqv semi]; unfold akin, pu; first [left; congruence|congruence].
    + right. split; [reflexivity|]. destruct Hk as (K & _). specialize (K eq_refl). intros t3 ->. exact K.
  - (* g_for *) step0; eapply g_for; try sd; [eapply R1|eapply R0]; apply shown_opt; eassumption.
  - again g_for_in.
  - again g_for_of.
  - again g_for_await.
  - again g_continue.
  - again g_continue_label.
  - again g_break.
  - again g_break_label.
  - again g_return.
  - again g_return_value.
  - (* g_throw *) step0. destruct Hk as (_ & K & _). specialize (K eq_refl). rewrite <- (app_nil_r us0).
    eapply g_throw; try sd. now apply closes_ends.
  - again g_debugger.
  - again g_label.
  - (* g_try *) step0. rewrite dr_solid in Hs by (eapply try_solid; eassumption). sh. asc. fwd. eapply g_try; try sd.
    intros u ->. destruct nx as [u'|]; [|contradiction]. cbn [eqv] in Hq. destruct (H4 u' eq_refl) as [HA HB]. unfold kw in *.
    split; intros E; [apply HA|apply HB]; rewrite E in Hq; symmetry; now apply akin_eq.
  - again g_catch_none.
  - again g_catch.
  - again g_catch_param.
  - again g_finally_none.
  - again g_finally.
  - (* g_switch *) step0. unfold blk in *. change (if m then dropped (flat_map (items m) l) else flat_map (items m) l) with (dr m (flat_map (items m) l)) in *. sh. asc.
    eapply g_switch; try sd. eapply R; eassumption.
  - (* g_cases_end *) pre; conc; intros d0 b0 ts0 b0' cl0 _ Hs Hcl; cbn [flat_map] in Hs; rewrite dr_nil in Hs; sh; apply g_cases_end; exact Hcl.
  - (* g_case *) pre; conc; intros d0 b0 ts0 b0' cl0 Hok Hs Hcl. cbn [flat_map] in Hs.
    match goal with X : G CCases _ _ (NS m0) |- _ => rewrite cases_dr in Hs by (eapply cases_ink; exact X) end.
    cbn [cases_ok] in Hok. apply andb_prop in Hok. destruct Hok as [Hok1 Hok2].
    norm Hs. fold (stmts m l) in Hs. drs Hs. sh.
    match goal with X : G CCases _ _ (NS m0), Y : shown _ (dr d0 (flat_map _ m0)) _ _ |- _ =>
      destruct (cases_first _ _ _ cl0 _ _ _ _ X Hcl Y) as (Hq & _ & Hc & Hsm) end.
    asc. fwd. eapply g_case; try sd; [|eapply R; eassumption].
    eapply (R0 _ (nil_ m0) (d0 && nil_ m0)); [exact Hq| | |exact Hsm| |eassumption].
    + intros E. apply Hc. now apply nil_true.
    + intros E. apply Hc. apply andb_prop in E. now apply nil_true.
    + destruct m0; cbn [nil_] in *; rewrite ?andb_true_r, ?andb_false_r; assumption.
  - (* g_default *) pre; conc; intros d0 b0 ts0 b0' cl0 Hok Hs Hcl. cbn [flat_map] in Hs.
    match goal with X : G CCases _ _ (NS m0) |- _ => rewrite cases_dr in Hs by (eapply cases_ink; exact X) end.
    cbn [cases_ok] in Hok. apply andb_prop in Hok. destruct Hok as [Hok1 Hok2].
    norm Hs. fold (stmts m l) in Hs. drs Hs. sh.
    match goal with X : G CCases _ _ (NS m0), Y : shown _ (dr d0 (flat_map _ m0)) _ _ |- _ =>
      destruct (cases_first _ _ _ cl0 _ _ _ _ X Hcl Y) as (Hq & _ & Hc & Hsm) end.
    asc. fwd. eapply g_default; try sd; [|eapply R; eassumption].
    eapply (R0 _ (nil_ m0) (d0 && nil_ m0)); [exact Hq| | |exact Hsm| |eassumption].
    + intros E. apply Hc. now apply nil_true.
    + intros E. apply Hc. apply andb_prop in E. now apply nil_true.
    + destruct m0; cbn [nil_] in *; rewrite ?andb_true_r, ?andb_false_r; assumption.
  - again g_stmt.
  - (* g_item_lex *) pre; conc; intros nx' d0 b0 ts0 b0' Hq Hk Hs. destruct (items_bare m a) as [E|E]; rewrite E in Hs; [|rewrite dr_brk in Hs; apply shown_brk in Hs];
    (eapply g_item_lex; eapply R; eassumption).
  - again g_lex_hoist.
  - (* g_lex *) pre; conc; intros nx' d0 b0 ts0 b0' Hq Hk Hs. match goal with X : G (CVar _ _) _ _ _ |- _ => destruct (G_varn _ _ _ _ _ X) as (l' & ->) end.
    eapply g_lex; [|eassumption]. eapply R; eassumption.
  - again g_var.
  - again g_let.
  - again g_const.
  - again g_decls_one.
  - (* g_decls_more *) pre; conc; intros b0 ts0 b0' Hs. norm Hs. apply (decl_inv (items m)) in Hs. destruct Hs as [[-> Hs]|(Hn & ts1 & b1 & tk & us1 & b2 & -> & Hs & Hc & Hr)].
    { match goal with H : G CDecls _ _ (NS []) |- _ => inversion H end. }
    fwd. eapply g_decls_more; sd.
  - again g_decl.
  - again g_function_decl.
  - again g_async_function_decl.
  - (* g_class_decl *) pre; conc; intros b0 ts0 b0' Hs. cbn [items bare_items it] in Hs.
    match goal with X : G (CMembers _) _ _ _ |- _ => pose proof (members_dropped _ _ _ _ X ltac:(goodly) ltac:(assumption)) as Hd end.
    rewrite class_eq in Hs by exact Hd. norm Hs. specialize (R Logic.I). unfold member_list in *.
    sh; asc; fwd; eapply g_class_decl; try sd.
    intros ->. inversion Hs; subst. specialize (H2 eq_refl). subst hs.
    match goal with X : G CHeritage _ [] _ |- _ => inversion X; subst end. now apply shown_nil_inv in H15.
  - (* g_items_end *) pre; conc; intros nx' cl0 d0 b0 ts0 b0' Hq Hc Hd Hsm Hok Hs; unfold stmts in Hs; cbn [flat_map] in Hs; rewrite dr_nil in Hs; sh; apply g_items_end.
  - (* g_items *) pre; conc; intros nx' cl0 d0 b0 ts0 b0' Hq Hc Hd Hsm Hok Hs.
    match goal with X : G (CItems _) _ _ (NS l) |- _ => pose proof (items_ink _ _ _ _ _ (or_introl eq_refl) X ltac:(goodly) ltac:(assumption)) as Hi; rename X into HG end.
    rewrite stmts_cons_dr in Hs by exact Hi. cbn [list_ok] in Hok. apply andb_prop in Hok. destruct Hok as [Hok1 Hok2].
    destruct l as [|x l]; cbn [nil_] in Hs.
    + inversion HG; subst. sh. cbn [first] in *. rewrite app_nil_r || rewrite <- (app_nil_r ts0) || idtac.
      match goal with X : shown _ (dr d0 (items m a)) ?u _ |- _ => rewrite <- (app_nil_r u); eapply g_items; [|eapply (R nx' cl0 d0 true); try eassumption; unfold stmts; cbn [flat_map]; rewrite dr_nil; constructor];
        cbn [first]; eapply (R0 nx' d0); [exact Hq| |exact X] end.
      apply andb_prop in Hok1. destruct Hok1 as [Ha Hb]. split; [auto|]. split.
      * intros E. rewrite E in Ha. cbn [negb] in Ha. rewrite orb_false_r in Ha. auto.
      * intros E. subst d0. split; [auto|]. cbn [andb] in Hb. now apply negb_true_iff in Hb.
    + sh. match goal with X : shown _ (dr d0 (stmts m (x :: l))) ?u _ |- _ =>
        destruct (items_first _ _ nx' _ _ _ cl0 _ _ _ _ (or_introl eq_refl) HG ltac:(goodly) ltac:(assumption) Hq Hok2 X) as (Hq' & _ & Hem & _) end.
      eapply g_items; [|eapply (R nx' cl0 d0); eassumption]. eapply (R0 _ false); [exact Hq'| |eassumption].
      apply andb_prop in Hok1. destruct Hok1 as [Ha Hb]. apply negb_true_iff in Ha, Hb. split; [|split; [congruence|discriminate]].
      intros E. rewrite E in Hb. cbn [andb] in Hb. eapply Hem; [reflexivity|exact Hb].
  - again g_opte_none.
  - again g_opte.
  - again g_forinit_none.
  - (* g_forinit *) pre; conc; intros b0 ts0 b0' Hs. rewrite init_not_var in Hs by (eapply G_not_var; [eassumption|exact Logic.I]). fwd. eapply g_forinit; sd.
  - again g_forinit_decl.
  - (* g_forleft_decl *) intros Hg Ho. apply okn_inv in Ho. destruct Ho as [Ho _]. discriminate Ho.
  - (* g_forleft *) pre; conc; intros b0 ts0 b0' Hs.
    pose proof (G_shape m _ _ _ _ (H true) Hg Ho) as (_ & Sh & _). cbn [hcat it] in Sh.
    eapply g_forleft; [|sd|sd]. intros bb. destruct (H0 bb Hg Ho) as [R _]. eapply R. exact Hs.
  - (* g_forleft_pattern *) intros Hg Ho. exfalso. exact (asg_not_ok _ _ _ _ _ (H true) eq_refl Ho).
  - again g_top.
  - again g_import_bare.
  - (* g_import *) pre; conc; intros nx' d0 b0 ts0 b0' Hq Hk Hs. rewrite items_import in Hs by exact (clause_some m _ _ _ _ _ H1).
    destruct (IHG ltac:(goodly) ltac:(destruct nm; [exact H11|exact Logic.I])) as [R _]. cbn [regen it] in R. unfold str_item in Hs.
    rewrite dr_T in Hs by discriminate. rewrite dr_app in Hs by reflexivity. drs Hs. sh. asc. fwd. eapply g_import; sd.
  - (* g_clause_default *) pre; conc; intros b0 ts0 b0' Hs; unfold clause_items in Hs; norm Hs; sh; asc; fwd; eapply g_clause_default; sd.
  - (* g_clause_namespace *) pre; conc; intros b0 ts0 b0' Hs; unfold clause_items in Hs; norm Hs; sh; asc; fwd; eapply g_clause_namespace; sd.
  - (* g_clause_named *) pre; conc; intros b0 ts0 b0' Hs; unfold clause_items in Hs; norm Hs; sh; asc; fwd; eapply g_clause_named; sd.
  - (* g_clause_default_namespace *) pre; conc; intros b0 ts0 b0' Hs; unfold clause_items in Hs; norm Hs; sh; asc; fwd; eapply g_clause_default_namespace; sd.
  - (* g_clause_default_named *) pre; conc; intros b0 ts0 b0' Hs; unfold clause_items in Hs; norm Hs; sh; asc; fwd; eapply g_clause_default_named; sd.
  - (* g_imports_end *) pre; conc; intros Hsd b0 ts0 b0' cl0 Hs Hcl; cbn [map commas] in Hs; sh; eapply g_imports_end; sd.
  - (* g_imports_last *) pre; conc; intros Hsd b0 ts0 b0' cl0 Hs Hcl; apply commas_inv in Hs; destruct Hs as [[_ Hs]|[Hn _]]; [|now elim Hn]; fwd; eapply g_imports_last; sd.
  - (* g_imports_more *) pre; conc; intros Hsd b0 ts0 b0' cl0 Hs Hcl; apply commas_inv in Hs; destruct Hs as [[-> Hs]|(Hn & ts1 & b1 & tk & us1 & -> & Hs & Hc & Hr)]; [fwd; eapply g_imports_last; sd|asc; fwd; eapply g_imports_more; sd].
  - again g_import_name.
  - again g_import_as.
  - again g_export_named.
  - again g_export_from.
  - (* g_exports_end *) pre; conc; intros Hsd b0 ts0 b0' cl0 Hs Hcl; cbn [map commas] in Hs; sh; eapply g_exports_end; sd.
  - (* g_exports_last *) pre; conc; intros Hsd b0 ts0 b0' cl0 Hs Hcl; apply commas_inv in Hs; destruct Hs as [[_ Hs]|[Hn _]]; [|now elim Hn]; fwd; eapply g_exports_last; sd.
  - (* g_exports_more *) pre; conc; intros Hsd b0 ts0 b0' cl0 Hs Hcl; apply commas_inv in Hs; destruct Hs as [[-> Hs]|(Hn & ts1 & b1 & tk & us1 & -> & Hs & Hc & Hr)]; [fwd; eapply g_exports_last; sd|asc; fwd; eapply g_exports_more; sd].
  - again g_export_name.
  - again g_export_as.
  - again g_export_all.
  - again g_export_all_as.
  - (* g_export_var *) pre; conc; intros nx' d0 b0 ts0 b0' Hq Hk Hs. rewrite items_xdecl in Hs. rewrite dr_T in Hs by discriminate. rewrite dr_sp, dr_gap in Hs by reflexivity. sh. asc. eapply g_export_var; [sd|sd|].
    match goal with X : G (CVar _ _) _ _ _ |- _ => destruct (var_ok _ _ _ _ _ X) as (L1 & L2 & L3); destruct (G_varn _ _ _ _ _ X) as (l' & ->) end. eapply R; [exact Hq| |eassumption]. destruct Hk as (_ & _ & K). split; [congruence|]. split; [congruence|]. intros E; destruct (K E); auto.
  - (* g_export_decl *) pre; conc; intros nx' d0 b0 ts0 b0' Hq Hk Hs. rewrite items_xdecl in Hs. rewrite dr_T in Hs by discriminate. rewrite dr_sp, dr_gap in Hs by reflexivity. sh. asc. eapply g_export_decl; [sd|sd|].
    match goal with X : G (CLex _) _ _ _ |- _ => destruct (lex_ok _ _ _ _ X) as (L1 & L2 & L3) end. eapply R; [exact Hq| |eassumption]. destruct Hk as (_ & _ & K). split; [congruence|]. split; [congruence|]. intros E; destruct (K E); auto.
  - again g_export_default_decl.
  - again g_export_default.
  - (* g_tops_end *) pre; conc; intros nx' cl0 d0 b0 ts0 b0' Hq Hc Hd Hsm Hok Hs; unfold stmts in Hs; cbn [flat_map] in Hs; rewrite dr_nil in Hs; sh; apply g_tops_end.
  - (* g_tops *) pre; conc; intros nx' cl0 d0 b0 ts0 b0' Hq Hc Hd Hsm Hok Hs.
    match goal with X : G (CTops _) _ _ (NS l) |- _ => pose proof (items_ink _ _ _ _ _ (or_intror eq_refl) X ltac:(goodly) ltac:(assumption)) as Hi; rename X into HG end.
    rewrite stmts_cons_dr in Hs by exact Hi. cbn [list_ok] in Hok. apply andb_prop in Hok. destruct Hok as [Hok1 Hok2].
    destruct l as [|x l]; cbn [nil_] in Hs.
    + inversion HG; subst. sh. cbn [first] in *. rewrite app_nil_r || rewrite <- (app_nil_r ts0) || idtac.
      match goal with X : shown _ (dr d0 (items m a)) ?u _ |- _ => rewrite <- (app_nil_r u); eapply g_tops; [|eapply (R nx' cl0 d0 true); try eassumption; unfold stmts; cbn [flat_map]; rewrite dr_nil; constructor];
        cbn [first]; eapply (R0 nx' d0); [exact Hq| |exact X] end.
      apply andb_prop in Hok1. destruct Hok1 as [Ha Hb]. split; [auto|]. split.
      * intros E. rewrite E in Ha. cbn [negb] in Ha. rewrite orb_false_r in Ha. auto.
      * intros E. subst d0. split; [auto|]. cbn [andb] in Hb. now apply negb_true_iff in Hb.
    + sh. match goal with X : shown _ (dr d0 (stmts m (x :: l))) ?u _ |- _ =>
        destruct (items_first _ _ nx' _ _ _ cl0 _ _ _ _ (or_intror eq_refl) HG ltac:(goodly) ltac:(assumption) Hq Hok2 X) as (Hq' & _ & Hem & _) end.
      eapply g_tops; [|eapply (R nx' cl0 d0); eassumption]. eapply (R0 _ false); [exact Hq'| |eassumption].
      apply andb_prop in Hok1. destruct Hok1 as [Ha Hb]. apply negb_true_iff in Ha, Hb. split; [|split; [congruence|discriminate]].
      intros E. rewrite E in Hb. cbn [andb] in Hb. eapply Hem; [reflexivity|exact Hb].
  - (* g_program *) pre; conc; intros d0 b0 ts0 b0' Hd Hs.
    assert (Ho' : (list_ok true m l && negb (string_first m l))%bool = true /\ Forall okn l).
    { destruct (c_module c); apply okn_inv in Ho; exact Ho. }
    destruct Ho' as [Hn Hc]. apply andb_prop in Hn. destruct Hn as [Hl Hst]. apply negb_true_iff in Hst.
    destruct (IHG3 ltac:(goodly) Hc) as [R _]. cbn [regen it recat] in R.
    pose proof (items_ink _ _ _ _ _ (or_intror eq_refl) H1 ltac:(goodly) ltac:(assumption)) as Hi.
    assert (Hl' : list_ok true d0 l = true) by (destruct d0; [rewrite (Hd eq_refl) in Hl; exact Hl|eapply (list_ok_weak true m); exact Hl]).
    assert (Hs' : shown b0 (dr d0 (dirs dl ++ stmts m l)) ts0 b0') by (destruct (c_module c); exact Hs).
    rewrite body_dr in Hs' by exact Hi. clear Hs. sh.
    match goal with X : shown _ (dr d0 (stmts m l)) ?u _ |- _ => rename X into Hx;
      destruct (items_first _ None None _ _ _ _ _ _ _ _ (or_intror eq_refl) H1 ltac:(goodly) ltac:(assumption) Logic.I Hl' Hx) as (_ & _ & _ & Hstr) end.
    apply g_program.
    + eapply R0; [|exact Hs']. intros E. apply andb_prop in E. destruct E as [_ E]. eapply dirs_close; [exact Hx|exact Logic.I|exact E].
    + apply g_nodir. apply Hstr; [exact Hst|discriminate].
    + eapply (R None true d0); [exact Logic.I| | | |exact Hl'|exact Hx]; try (intros _; exact Logic.I). intros [].
Qed.

End Regen.
