(** * StaticSem: what the early-error checks on parameters decide. *)

From Coq Require Import Permutation Sorting.Sorted.
From Verif Require Import Base Tokens CharReader Lexer Ast Prog TokChain ParseState Parser Grammar AstSpec.
Local Open Scope string_scope.
Local Open Scope list_scope.

Lemma str_leb_refl a : str_leb a a = true.
Proof. induction a as [|x a IH]; cbn; [reflexivity|]. rewrite N.ltb_irrefl. exact IH. Qed.

Lemma str_leb_total a b : str_leb a b = false -> str_leb b a = true.
Proof.
  revert b. induction a as [|x a IH]; intros [|y b]; cbn; try congruence.
  destruct (N.ltb_spec x y); [discriminate|]. destruct (N.ltb_spec y x); [reflexivity|]. apply IH.
Qed.

Lemma str_leb_trans a b c : str_leb a b = true -> str_leb b c = true -> str_leb a c = true.
Proof.
  revert b c. induction a as [|x a IH]; intros [|y b] [|z c]; cbn; try congruence.
  repeat match goal with |- context [N.ltb ?a ?b] => destruct (N.ltb_spec a b) end; try congruence; try lia.
  apply IH.
Qed.

Lemma str_leb_antisym a b : str_leb a b = true -> str_leb b a = true -> a = b.
Proof.
  revert b. induction a as [|x a IH]; intros [|y b]; cbn; try congruence.
  repeat match goal with |- context [N.ltb ?a ?b] => destruct (N.ltb_spec a b) end; try congruence; try lia.
  intros H1 H2. rewrite (IH b H1 H2). f_equal. lia.
Qed.

Lemma insert_perm x l : Permutation (x :: l) (insert_str x l).
Proof.
  induction l as [|y l IH]; cbn; [reflexivity|]. destruct (str_leb x y); [reflexivity|].
  rewrite perm_swap. now constructor.
Qed.

Lemma sort_perm l : Permutation l (sort_unstable l).
Proof.
  induction l as [|x l IH]; cbn; [reflexivity|]. rewrite <- insert_perm. now constructor.
Qed.

Definition le_str a b : Prop := str_leb a b = true.

Lemma insert_sorted x l : StronglySorted le_str l -> StronglySorted le_str (insert_str x l).
Proof.
  induction 1 as [|y l Hs IH Hf]; cbn; [repeat constructor|]. destruct (str_leb x y) eqn:E.
  - constructor; [now constructor|]. constructor; [exact E|]. eapply Forall_impl; [|exact Hf].
    intros z Hz. eapply str_leb_trans; eauto.
  - constructor; [exact IH|]. apply (Permutation_Forall (insert_perm x l)). constructor; [|exact Hf].
    now apply str_leb_total.
Qed.

Lemma sort_sorted l : StronglySorted le_str (sort_unstable l).
Proof. induction l; cbn; [constructor|]. now apply insert_sorted. Qed.

Lemma first_duplicate_none l : StronglySorted le_str l -> (get_first_duplicate l = None <-> NoDup l).
Proof.
  induction 1 as [|a l Hs IH Hf]; [split; [constructor|reflexivity]|].
  destruct l as [|b l]; [split; [repeat constructor; intros []|reflexivity]|].
  change (get_first_duplicate (a :: b :: l)) with (if str_eqb a b then Some a else get_first_duplicate (b :: l)).
  unfold str_eqb. destruct (list_eq_dec N.eq_dec a b) as [->|Hne].
  - split; [discriminate|]. intros H. inversion H; subst. exfalso. apply H2. now left.
  - rewrite IH. split; [|now inversion 1]. intros Hn. constructor; [|exact Hn]. intros [->|Hin]; [congruence|].
    apply Hne. inversion Hf; subst. inversion Hs; subst. apply str_leb_antisym; [assumption|].
    rewrite Forall_forall in H4. apply (H4 _ Hin).
Qed.

Lemma no_duplicate_iff l : get_first_duplicate (sort_unstable l) = None <-> NoDup l.
Proof.
  rewrite (first_duplicate_none _ (sort_sorted l)). split; apply Permutation_NoDup; [symmetry|]; apply sort_perm.
Qed.

(** What [get_first_duplicate] reports does occur twice. *)
Lemma first_duplicate_some l d : get_first_duplicate l = Some d -> exists l1 l2, l = l1 ++ d :: d :: l2.
Proof.
  revert d. induction l as [|a [|b l] IH]; intros d; try discriminate.
  change (get_first_duplicate (a :: b :: l)) with (if str_eqb a b then Some a else get_first_duplicate (b :: l)).
  unfold str_eqb. destruct (list_eq_dec N.eq_dec a b) as [->|Hne].
  - intros [= <-]. now exists [], l.
  - intros H. destruct (IH _ H) as (l1 & l2 & E). rewrite E. now exists (a :: l1), l2.
Qed.

(** ** Parameter lists as the parser builds them *)

Definition pat_shape (p : node) : Prop :=
  match p with BindIdent _ | BindObject _ _ _ | BindArray _ _ _ => True | _ => False end.
Definition elem_shape (b : node) : Prop :=
  match b with BindElement _ p _ => pat_shape p | _ => False end.
Definition params_shape (p : node) : Prop :=
  match p with FormalParameters _ l r => Forall elem_shape l /\ optP pat_shape r | _ => False end.

Lemma bound_names_spec p : params_shape p -> bound_names p = params_names p.
Proof.
  destruct p; try contradiction. intros [Hl Hr]. unfold bound_names, params_names. cbn [params_bindings params_rest].
  f_equal. clear Hr. induction Hl as [|b l Hb Hl IH]; [reflexivity|]. cbn [flat_map]. rewrite IH. f_equal.
    destruct b; try contradiction. match goal with H : elem_shape (BindElement _ ?q _) |- _ => destruct q; try contradiction; reflexivity end.
Qed.

Lemma is_simple_spec p : params_shape p -> (is_simple p = true <-> simple_params p).
Proof.
  destruct p; try contradiction. intros [Hl Hr]. unfold is_simple. cbn [params_rest params_bindings simple_params].
  destruct rest as [x|]; [cbn; split; [discriminate|tauto]|]. cbn [is_none is_some negb andb].
  rewrite forallb_forall, Forall_forall. rewrite Forall_forall in Hl.
  split; intros H b Hin; specialize (H _ Hin); specialize (Hl _ Hin); destruct b; try contradiction;
    cbn [elem_shape element_initializer element_pattern] in *; match goal with H : pat_shape ?q |- _ => destruct q; try contradiction end; match goal with o : option node |- _ => destruct o end; try reflexivity;
    try contradiction; try discriminate; exact Logic.I.
Qed.

Lemma early_method_spec p ds : params_shape p ->
  (early_errors_method p ds = Ok tt <->
   NoDup (params_names p) /\ (use_strict ds = true -> simple_params p)).
Proof.
  intros Hp. unfold early_errors_method, early_errors_forbidden_use_strict.
  change (contains_strict ds) with (use_strict ds). rewrite <- (is_simple_spec p Hp), <- (bound_names_spec p Hp), <- no_duplicate_iff.
  destruct (is_simple p), (use_strict ds); cbn; destruct (get_first_duplicate _); intuition congruence.
Qed.

Lemma early_setter_spec p ds : params_shape p ->
  (early_errors_setter p ds = Ok tt <->
   (exists sp x, p = FormalParameters sp [x] None) /\ (use_strict ds = true -> simple_params p)).
Proof.
  intros Hp. unfold early_errors_setter, early_errors_forbidden_use_strict.
  change (contains_strict ds) with (use_strict ds). rewrite <- (is_simple_spec p Hp).
  destruct p; try contradiction.
  assert (H : (exists sp0 x, FormalParameters sp bindings rest = FormalParameters sp0 [x] None) <->
              is_some rest = false /\ Nat.eqb (length bindings) 1 = true).
  { split.
    - intros (sp0 & x & E). injection E as <- -> ->. split; reflexivity.
    - intros [H1 H2]. destruct rest; [discriminate|]. destruct bindings as [|b [|]]; try discriminate. eauto. }
  rewrite H. cbn [params_rest params_bindings]. clear.
  destruct (is_simple _), (use_strict ds), (is_some rest), (Nat.eqb (length bindings) 1); cbn; intuition congruence.
Qed.

Lemma early_getter_spec p : params_shape p ->
  (early_errors_getter p = Ok tt <-> exists sp, p = FormalParameters sp [] None).
Proof.
  destruct p; try contradiction. intros _. unfold early_errors_getter. cbn [params_bindings params_rest].
  destruct bindings, rest; cbn; split; try discriminate; eauto; intros (? & E); discriminate E.
Qed.
