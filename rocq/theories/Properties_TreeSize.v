(** C112.  [levels d t]: the nodes of [t] in pre-order with their depths, the root's being [d] (TreeSizeSpec.v).  [node_line],
    [label], [edges], [tree_size]: TreeSpec.v; [height]: TreeDepth.v.  Lengths are counted in characters. *)
From Verif Require Import TreeSizeSpec TreeFormat TreeDepth EarleySpec TreeExamples ParseExamples TreeSizeProofs.
From Coq Require Import List.
From Coq Require String.
Import ListNotations String.StringSyntax.
Open Scope list_scope.

(** ** C112 The size of formatted parse trees *)

Theorem C112_display : forall t,
  List.length (display_tree t) = list_sum (map (fun x => 4 * fst x + List.length (node_line (snd x)) + 1) (levels 0 t)).
Proof. exact display_size. Qed.
Print Assumptions C112_display.

Theorem C112_nodes : forall t, List.length (levels 0 t) = tree_size t /\ forall x, In x (levels 0 t) -> fst x <= height t.
Proof. exact levels_facts. Qed.
Print Assumptions C112_nodes.

(** At most the number of nodes times four times the height, besides the lines themselves. *)
Theorem C112_display_bound : forall t w, (forall x, In x (levels 0 t) -> List.length (node_line (snd x)) <= w) ->
  List.length (display_tree t) <= tree_size t * (4 * height t + w + 1).
Proof. exact display_bound. Qed.
Print Assumptions C112_display_bound.

Theorem C112_mermaid : forall t s, all_nonterminal t -> display_mermaid t = Ok s ->
  exists es, edges 0 t es /\ List.length s = 13 + list_sum (map (fun e =>
    List.length (dec (fst (fst e))) + List.length (escape_mermaid_label (snd (fst e))) +
    List.length (dec (fst (snd e))) + List.length (escape_mermaid_label (snd (snd e))) + 14) es).
Proof. exact mermaid_size. Qed.
Print Assumptions C112_mermaid.

(** The height does not count: with up to 10^k nodes and labels of at most [m] characters. *)
Theorem C112_mermaid_bound : forall t s k m, all_nonterminal t -> display_mermaid t = Ok s ->
  (forall x, In x (levels 0 t) -> List.length (label (snd x)) <= m) -> tree_size t <= 10 ^ k -> 1 <= k ->
  List.length s <= 13 + (tree_size t - 1) * (2 * k + 8 * m + 14).
Proof. exact mermaid_bound. Qed.
Print Assumptions C112_mermaid_bound.

(** The parse of n + 1 letters with <s> ::= 'a' <s> | 'a': [Display] grows with the square of the input, Mermaid does not. *)
Theorem C112_lists : forall n it, opens right_grammar (Nonterminal (lit "s")) (repeat 97%N (S n)) it ->
  (exists fuel t it', iter_next fuel it = Ok (Some t, it')) /\
  forall fuel t it', iter_next fuel it = Ok (Some t, it') ->
    List.length (display_tree t) + 4 = 4 * (S n) * (S n) + 20 * S n /\
    exists s, display_mermaid t = Ok s /\ forall k, 2 * S n <= 10 ^ k -> List.length s <= 13 + (2 * n + 1) * (2 * k + 22).
Proof. exact list_sizes. Qed.
Print Assumptions C112_lists.

(** The tree of C40_example. *)
Example C112_example :
  map (fun x => (fst x, List.length (node_line (snd x)))) (levels 0 draw_example) = [(0, 19); (1, 7); (1, 11); (2, 11); (3, 3); (1, 3)] /\
  List.length (display_tree draw_example) = 92 /\ height draw_example = 3 /\
  exists s, display_mermaid draw_example = Ok s /\ List.length s = 103.
Proof. exact sizes_example. Qed.
Example C112_hypotheses : all_nonterminal draw_example /\ tree_size draw_example = 6 /\
  (forall x, In x (levels 0 draw_example) -> List.length (node_line (snd x)) <= 19 /\ List.length (label (snd x)) <= 1) /\
  exists it, opens right_grammar (N_ "s") (repeat 97%N 3) it.
Proof. exact sizes_hypotheses. Qed.
