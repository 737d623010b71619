(** Parsing in rounds: a specification that knows neither queues nor identifiers. *)
From Verif Require Export PreferSpec.

(** [round k w l ks r]: after the text [w], the children [ks] of a node [l] have been found, and [r] is
    what has to follow, when in each of [k] rounds every step that what is known allows is taken. *)
Inductive round (g : grammar) (start : term) (input : str) : nat -> str -> term -> list pnode -> list term -> Prop :=
| round_start p e : In p g -> p_lhs p = start -> In e (p_rhs p) -> round g start input 0 [] start [] e
| round_predict k w l ks n r p e : round g start input k w l ks (Nonterminal n :: r) ->
    In p g -> p_lhs p = Nonterminal n -> In e (p_rhs p) ->
    round g start input (S k) (w ++ flat_map yield_node ks) (Nonterminal n) [] e
| round_scan k w l ks s r v : round g start input k w l ks (Terminal s :: r) -> input = w ++ flat_map yield_node ks ++ s ++ v ->
    round g start input (S k) w l (ks ++ [Leaf s]) r
| round_complete k w l ks n r ks' : round g start input k w l ks (Nonterminal n :: r) ->
    round g start input k (w ++ flat_map yield_node ks) (Nonterminal n) ks' [] ->
    round g start input (S k) w l (ks ++ [Sub (Node (Nonterminal n) ks')]) r
| round_keep k w l ks r : round g start input k w l ks r -> round g start input (S k) w l ks r.

(** The tree is found after the text [w] within [k] rounds. *)
Definition found (g : grammar) (start : term) (input : str) (k : nat) (w : str) (t : ptree) : Prop :=
  match t with Node l ks => round g start input k w l ks [] end.

(** The children of the tree, a subtree counting for two, and those of its subtrees. *)
Fixpoint steps {L} (t : tree L) : nat := match t with Node _ ks => list_sum (map node_steps ks) end
with node_steps {L} (k : node L) : nat := match k with Leaf _ => 1 | Sub t => 2 + steps t end.
