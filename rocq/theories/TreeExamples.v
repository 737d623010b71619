(** Concrete trees used by the examples beside the theorems, and tactics for their hypotheses. *)
From Verif Require Import TreeInject ParseExamples TreeProofs.

(** <s> with three children: a node with an empty right hand side, a node with one child, and a
    leaf. *)
Definition draw_example : ptree :=
  Node (N_ "s") [Sub (Node (N_ "a") []); Sub (Node (N_ "b") [Sub (Node (N_ "c") [Leaf (lit "x")])]); Leaf (lit "y")].

(** Two trees for the same input which differ only in their nesting. *)
Definition nested_left : ptree :=
  Node (N_ "s") [Sub (Node (N_ "s") [Sub (Node (N_ "s") [Leaf (lit "a")]); Sub (Node (N_ "s") [Leaf (lit "a")])]); Sub (Node (N_ "s") [Leaf (lit "a")])].
Definition nested_right : ptree :=
  Node (N_ "s") [Sub (Node (N_ "s") [Leaf (lit "a")]); Sub (Node (N_ "s") [Sub (Node (N_ "s") [Leaf (lit "a")]); Sub (Node (N_ "s") [Leaf (lit "a")])])].
Ltac one_line_tac :=
  repeat match goal with
  | |- one_line _ => constructor
  | |- forall _, _ => intro
  | |- ~ _ => intro
  | H : In _ (_ :: _) |- _ => destruct H as [H|H]
  | H : In _ [] |- _ => destruct H
  | H : Leaf _ = Leaf _ |- _ => injection H as <-
  | H : Sub _ = Sub _ |- _ => injection H as <-
  | H : Leaf _ = Sub _ |- _ => discriminate H
  | H : Sub _ = Leaf _ |- _ => discriminate H
  | H : _ = 10%N |- _ => discriminate H
  | H : In 10%N _ |- _ => vm_compute in H; decompose [or] H; clear H; try discriminate; try contradiction
  end.

Ltac nonterminal_tac :=
  repeat match goal with
  | |- all_nonterminal _ => constructor
  | |- forall _, _ => intro
  | H : In _ (_ :: _) |- _ => destruct H as [H|H]
  | H : In _ [] |- _ => destruct H
  | H : Sub _ = Sub _ |- _ => injection H as <-
  | H : Leaf _ = Sub _ |- _ => discriminate H
  end.
