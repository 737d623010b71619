(** C92: the cost of building a parse tree.  [next_tree_counted] is [iter_next] with the lookups of
    traversals counted; [lookups], [nodes] and [doubling] are in TreeCost.v. *)
From Verif Require Import Facts_TreeCost.
From Coq Require String.
Import String.StringSyntax.

(** Counting changes nothing. *)
Theorem C92_same : forall fuel it o it1 n, next_tree_counted fuel it = Ok (o, it1, n) -> iter_next fuel it = Ok (o, it1).
Proof. exact next_tree_counted_same. Qed.
Print Assumptions C92_same.

(** The number of lookups depends on the tree only, in which every node is rebuilt from scratch:
    a node with k children takes 2 + k + (1 + 2 + ... + k). *)
Theorem C92_cost : forall g start input it ts it1 fuel t it2,
  opens g start input it -> produces it ts it1 -> iter_next fuel it1 = Ok (Some t, it2) ->
  next_tree_counted fuel it1 = Ok (Some t, it2, lookups t).
Proof. exact (fun g start input it ts it1 fuel t it2 => cost_proof g start input it ts it1 fuel (Some t) it2). Qed.
Print Assumptions C92_cost.

(** Linear in the number of nodes, quadratic in the length of the alternatives. *)
Theorem C92_bound : forall g b t, (forall p e, In p g -> In e (p_rhs p) -> List.length e <= b) -> derives g t ->
  2 * lookups t <= (b * b + 3 * b + 4) * nodes t.
Proof. exact bound_proof. Qed.
Print Assumptions C92_bound.

(** But not polynomial in the size of the grammar and of the input: this grammar of n + 1 rules has
    exactly one parse of the empty input, is recognized with 3n + 2 traversals, and building the
    tree takes 11 * 2^n - 7 lookups. *)
Theorem C92_polynomial_refuted : forall n, exists it t it1,
  opens (doubling n) (Nonterminal (doubling_name n)) [] it /\
  (forall t', parses (doubling n) (Nonterminal (doubling_name n)) [] t' <-> t' = t) /\
  iter_next (3 * n + 3) it = Ok (Some t, it1) /\ List.length (tt_arena (s_tree (it_state it1))) <= 3 * n + 2 /\
  next_tree_counted (3 * n + 3) it = Ok (Some t, it1, 11 * 2 ^ n - 7).
Proof. exact doubling_proof. Qed.
Print Assumptions C92_polynomial_refuted.

(** a + a takes 11 lookups for the root and 4 for each of the two operands; the tree of the sixth
    doubling grammar takes 345. *)
Example C92_example : exists it it1, opens sum_grammar (N_ "e") (lit "a+a") it /\
  next_tree_counted 30 it = Ok (Some (plus atom atom), it1, 19) /\ lookups (plus atom atom) = 19 /\
  nodes (plus atom atom) = 3 /\ lookups (doubled 5) = 345.
Proof. exact C92_example_proof. Qed.
