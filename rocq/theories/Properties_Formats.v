(** C59-C61: what the written formats determine.  [one_line] and [shape_of] are in TreeInject.v. *)
From Verif Require Import TreeInject ParseExamples TextMain TreeProofs TreeExamples.
From Coq Require Import Lia.
From Coq Require String.
Import String.StringSyntax.

(** C59 *)
Theorem C59_tree_display_injective : forall t t', one_line t -> one_line t' ->
  display_tree t = display_tree t' -> t = t'.
Proof. exact display_tree_inj. Qed.
Print Assumptions C59_tree_display_injective.

Theorem C59_line_breaks_refuted : exists t t', t <> t' /\ display_tree t = display_tree t'.
Proof. exact display_tree_clash. Qed.
Print Assumptions C59_line_breaks_refuted.

(** Two trees for the same input which differ only in their nesting. *)
Example C59_example : one_line nested_left /\ one_line nested_right /\
  display_tree nested_left <> display_tree nested_right.
Proof. split; [one_line_tac|split; [one_line_tac|]]. vm_compute. discriminate. Qed.

(** C60 *)
Theorem C60_mermaid_determines : forall t t', all_nonterminal t -> all_nonterminal t' -> 1 < tree_size t ->
  display_mermaid t = display_mermaid t' -> shape_of t = shape_of t'.
Proof. exact mermaid_determines. Qed.
Print Assumptions C60_mermaid_determines.

(** The label of a tree without children is not written at all; and a terminal cannot be told from
    a nonterminal without children. *)
Theorem C60_mermaid_refuted :
  (exists t t', all_nonterminal t /\ all_nonterminal t' /\ shape_of t <> shape_of t' /\ display_mermaid t = display_mermaid t') /\
  (exists t t', all_nonterminal t /\ all_nonterminal t' /\ t <> t' /\ 1 < tree_size t /\ display_mermaid t = display_mermaid t').
Proof. exact mermaid_clash. Qed.
Print Assumptions C60_mermaid_refuted.

Example C60_example : all_nonterminal nested_left /\ all_nonterminal nested_right /\ 1 < tree_size nested_left /\
  display_mermaid nested_left <> display_mermaid nested_right.
Proof.
  split; [nonterminal_tac|split; [nonterminal_tac|split; [cbn; lia|]]]. vm_compute. discriminate.
Qed.

(** C61 *)
Theorem C61_terms : forall a b, display_term a = display_term b -> a = b.
Proof. exact display_term_inj. Qed.
Print Assumptions C61_terms.

Theorem C61_writable :
  (forall e e', writable_expression e -> writable_expression e' -> display_expression e = display_expression e' -> e = e') /\
  (forall p p', writable_production p -> writable_production p' -> display_production p = display_production p' -> p = p') /\
  (forall g g', writable_grammar g -> writable_grammar g' -> display_grammar g = display_grammar g' -> g = g').
Proof. exact display_writable_inj. Qed.
Print Assumptions C61_writable.

Theorem C61_not_injective_refuted : exists e e', e <> e' /\
  display_expression e = display_expression e' /\
  display_production (mkProd (N_ "s") [e]) = display_production (mkProd (N_ "s") [e']) /\
  display_grammar [mkProd (N_ "s") [e]] = display_grammar [mkProd (N_ "s") [e']].
Proof. exact display_clash. Qed.
Print Assumptions C61_not_injective_refuted.

(** One terminal holding a blank and two terminals: written differently, although the text between
    the outer quotes differs only by quotes. *)
Example C61_example : let e := [T_ "a b"; N_ "c"] in let e' := [T_ "a"; T_ "b"; N_ "c"] in
  writable_expression e /\ writable_expression e' /\ display_expression e <> display_expression e'.
Proof.
  cbn zeta. split; [|split; [|vm_compute; discriminate]]; (split; [discriminate|]); intros t Ht; cbn in Ht;
    decompose [or] Ht; subst; try contradiction; cbn; intro H; decompose [and or] H; try discriminate; contradiction.
Qed.
