(** * GenBare: the printer does not look at positions. *)

From Verif Require Import Base Tokens Ast AstSpec Codegen Bare.
Local Open Scope string_scope.
Local Open Scope list_scope.

Lemma flat_map_bare {A} (f : node -> list A) l : flat_map f (map bare l) = flat_map (fun x => f (bare x)) l.
Proof. induction l; cbn; congruence. Qed.
Lemma is_nil_map {A B} (f : A -> B) l : is_nil (map f l) = is_nil l.
Proof. now destruct l. Qed.
Lemma has_initializer_bare n : has_initializer (bare n) = has_initializer n.
Proof. destruct n; try reflexivity. match goal with o : option node |- _ => now destruct o end. Qed.
Lemma is_function_bare n : is_function_expr (bare n) = is_function_expr n.
Proof. now destruct n. Qed.
Lemma flat_map_ext_in {A B} (f g : A -> list B) l : (forall x, In x l -> f x = g x) -> flat_map f l = flat_map g l.
Proof.
  induction l as [|a l IH]; intros H; auto. cbn [flat_map]. rewrite (H a) by now left. rewrite IH; auto. intros. apply H. now right.
Qed.

Ltac kids := cbn [children opt_list cat_options app]; rewrite ?in_app_iff; cbn [In opt_list]; auto 9.

Lemma in_cat_options (x : node) l : In (Some x) l -> In x (cat_options l).
Proof.
  induction l as [|[y|] l IH]; cbn; auto.
  - intros [E|H]; [left; congruence|right; auto].
  - intros [E|H]; [discriminate|auto].
Qed.

Theorem gen_bare n : gen (bare n) = gen n.
Proof.
  induction n as [n IH] using node_children_ind2.
  assert (H1 : forall c, In c (children n) -> gen (bare c) = gen c) by auto.
  assert (H2 : forall d c, In d (children n) -> In c (children d) -> gen (bare c) = gen c) by eauto.
  clear IH.
  assert (HL : forall l, (forall x, In x l -> In x (children n)) -> map (fun x => gen (bare x)) l = map gen l).
  { intros l Hl. apply map_ext_in. auto. }
  assert (HF : forall l, (forall x, In x l -> In x (children n)) -> flat_map (fun x => gen (bare x)) l = flat_map gen l).
  { intros l Hl. apply flat_map_ext_in. auto. }
  assert (HS : forall l, (forall x, In x l -> In x (children n)) ->
    flat_map (fun x => gen (bare x) ++ [StmtEnd]) l = flat_map (fun x => gen x ++ [StmtEnd]) l).
  { intros l Hl. apply flat_map_ext_in. intros. f_equal. auto. }
  assert (HO : forall o, (forall x, o = Some x -> In x (children n)) -> option_map (fun x => gen (bare x)) o = option_map gen o).
  { intros [x|] Ho; auto. cbn [option_map]. f_equal. apply H1. auto. }
  Ltac go H1 HL HF HS HO :=
    repeat match goal with
    | |- context [gen (bare ?x)] => is_var x; rewrite (H1 x) by kids
    | |- context [map gen (map bare ?l)] => rewrite (map_map bare gen l)
    | |- context [map (fun x => gen (bare x)) ?l] => rewrite (HL l) by (intros; kids)
    | |- context [is_nil (map ?f ?l)] => rewrite (is_nil_map f l)
    | |- context [flat_map (fun x => gen x ++ [StmtEnd]) (map bare ?l)] => rewrite (flat_map_bare (fun x => gen x ++ [StmtEnd]) l)
    | |- context [flat_map gen (map bare ?l)] => rewrite (flat_map_bare gen l)
    | |- context [flat_map (fun x => gen (bare x) ++ [StmtEnd]) ?l] => rewrite (HS l) by (intros; kids)
    | |- context [flat_map (fun x => gen (bare x)) ?l] => rewrite (HF l) by (intros; kids)
    end.
  destruct n; cbn [bare gen]; unfold name_, names_, maybe_as_alias in *; cbn [id_name bare_ident];
    repeat match goal with o : option ident |- _ => destruct o; cbn [option_map bare_ident id_name] end;
    repeat match goal with o : option node |- _ => destruct o; cbn [option_map] end;
    repeat match goal with o : option (list node) |- _ => destruct o; cbn [option_map] end;
    repeat match goal with o : option span |- _ => destruct o; cbn [option_map] end;
    try reflexivity; go H1 HL HF HS HO; try reflexivity.
  - apply f_equal. f_equal. destruct binding_parameter; [|reflexivity]. destruct n1; try reflexivity. cbn [bare].
    rewrite flat_map_bare. apply flat_map_ext_in. intros x Hx. apply (H2 (FormalParameters sp0 bindings rest)); [now left|]. cbn [children]. kids.
  - destruct n2; reflexivity.
  - rewrite map_map. f_equal. f_equal. f_equal. apply map_ext_in. intros [x|] Hx; auto. cbn [option_map]. f_equal.
    apply H1. cbn [children]. rewrite in_app_iff. left. now apply in_cat_options.
  - rewrite map_map. f_equal. f_equal. f_equal. apply map_ext_in. intros [x|] Hx; auto. cbn [option_map]. f_equal.
    apply H1. cbn [children]. rewrite in_app_iff. left. now apply in_cat_options.
  - destruct n2; reflexivity.
  - destruct n1; reflexivity.
  - destruct n1; reflexivity.
  - destruct n0; reflexivity.
  - rewrite map_map. do 3 f_equal. f_equal. f_equal. apply map_ext_in. intros d Hd. rewrite has_initializer_bare. f_equal. apply H1. kids.
  - destruct n; try reflexivity. cbn [bare]. unfold name_. cbn [bare_ident id_name].
    rewrite !(H2 (SFunctionDecl _ _ _ _ _ _)) by (cbn [children]; kids). reflexivity.
  - destruct n; try reflexivity. cbn [bare]. unfold name_. cbn [bare_ident id_name].
    rewrite !(H2 (SFunctionDecl _ _ _ _ _ _)) by (cbn [children]; kids). reflexivity.
  - now rewrite is_function_bare.
Qed.
