(** * Operators: precedence and associativity determine the tree.

    A specification of its own: an operator expression is a tree of operands
    and binary operators, [inorder] is how it is written, and [grouped] says
    that operators of higher precedence, and of equal ones the left one, are
    applied first.  There is at most one grouped tree for each writing. *)

From Verif Require Import Base Tokens Ast AstSpec.
Local Open Scope list_scope.

Definition operator : Set := binary_op + logical_op.
Definition op_prec (o : operator) : nat := match o with inl b => bin_prec b | inr l => log_prec l end.

Inductive ops : Set :=
| Operand (n : node)
| Operation (o : operator) (l r : ops).

Fixpoint ops_of (n : node) : ops :=
  match n with
  | EBinary _ o l r => Operation (inl o) (ops_of l) (ops_of r)
  | ELogical _ o l r => Operation (inr o) (ops_of l) (ops_of r)
  | _ => Operand n
  end.

Fixpoint inorder (t : ops) : list (node + operator) :=
  match t with
  | Operand n => [inl n]
  | Operation o l r => inorder l ++ inr o :: inorder r
  end.

(** The operator applied last has precedence [k] or more. *)
Definition at_least (k : nat) (t : ops) : Prop :=
  match t with Operand _ => True | Operation o _ _ => k <= op_prec o end.

Fixpoint grouped (t : ops) : Prop :=
  match t with
  | Operand _ => True
  | Operation o l r =>
    at_least (op_prec o) l /\ at_least (S (op_prec o)) r /\ grouped l /\ grouped r
  end.

(** ** At most one tree *)

Definition all_least (k : nat) (l : list (node + operator)) : Prop :=
  forall o, In (inr o) l -> k <= op_prec o.

Lemma grouped_least t k : grouped t -> at_least k t -> all_least k (inorder t).
Proof.
  revert k. induction t as [n|o l IHl r IHr]; intros k Hg Ha o' Hin; cbn in *.
  - destruct Hin as [H|[]]. discriminate.
  - destruct Hg as (H1 & H2 & H3 & H4). apply in_app_or in Hin. destruct Hin as [Hin|[H|Hin]].
    + specialize (IHl _ H3 H1 _ Hin). lia.
    + injection H as ->. exact Ha.
    + specialize (IHr _ H4 H2 _ Hin). lia.
Qed.

(** The operator applied last is the last one of the least precedence. *)
Lemma split_unique o1 o2 a1 b1 a2 b2 :
  a1 ++ inr o1 :: b1 = a2 ++ inr o2 :: b2 ->
  all_least (op_prec o1) a1 -> all_least (S (op_prec o1)) b1 ->
  all_least (op_prec o2) a2 -> all_least (S (op_prec o2)) b2 ->
  a1 = a2 /\ o1 = o2 /\ b1 = b2.
Proof.
  intros E A1 B1 A2 B2. revert a2 E A2. induction a1 as [|x a1 IH]; intros [|y a2] E A2; cbn in E.
  - injection E as -> ->. auto.
  - injection E as <- ->. exfalso.
    assert (H : op_prec o2 <= op_prec o1) by (apply A2; now left).
    assert (H' : S (op_prec o1) <= op_prec o2) by (apply B1, in_or_app; right; now left). lia.
  - injection E as -> <-. exfalso.
    assert (H : op_prec o1 <= op_prec o2) by (apply A1; now left).
    assert (H' : S (op_prec o2) <= op_prec o1) by (apply B2, in_or_app; right; now left). lia.
  - injection E as -> E.
    destruct (IH (fun o H => A1 o (or_intror H)) a2 E (fun o H => A2 o (or_intror H))) as (-> & -> & ->). auto.
Qed.

Theorem grouped_unique t u : grouped t -> grouped u -> inorder t = inorder u -> t = u.
Proof.
  revert u. induction t as [n|o l IHl r IHr]; intros [n'|o' l' r'] Ht Hu E; cbn in E.
  - now injection E as ->.
  - destruct (inorder l') as [|x [|y z]]; discriminate E.
  - destruct (inorder l) as [|x [|y z]]; discriminate E.
  - destruct Ht as (H1 & H2 & H3 & H4), Hu as (K1 & K2 & K3 & K4).
    apply split_unique in E; try (apply grouped_least; assumption).
    destruct E as (E1 & -> & E2). f_equal; auto.
Qed.

Lemma prec_at_least k n : k <= prec n -> at_least k (ops_of n).
Proof. destruct n; cbn; auto. Qed.

Lemma prec_ok_grouped n : (forall x, descendant n x -> prec_ok x) -> grouped (ops_of n).
Proof.
  induction n; intros H; cbn [ops_of grouped]; auto.
  - destruct (H _ (desc_here _)) as [H1 H2]. cbn [op_prec].
    split; [now apply prec_at_least|]. split; [now apply prec_at_least|].
    split; [apply IHn1|apply IHn2]; intros x Hx; apply H; (eapply desc_child; [|exact Hx]); cbn; auto.
  - destruct (H _ (desc_here _)) as [H1 H2]. cbn [op_prec].
    split; [now apply prec_at_least|]. split; [now apply prec_at_least|].
    split; [apply IHn1|apply IHn2]; intros x Hx; apply H; (eapply desc_child; [|exact Hx]); cbn; auto.
Qed.
