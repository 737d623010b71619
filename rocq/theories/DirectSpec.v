(** Grammars in which nonterminals refer only to themselves and to simpler ones. *)
From Verif Require Export ExpectSpec.

(** How often the nonterminal [n] occurs in an alternative. *)
Definition occurrences (n : str) (e : expression) : nat :=
  length (filter (fun t => match t with Nonterminal m => str_eqb m n | Terminal _ => false end) e).

(** How often it occurs in all of the alternatives that are drawn from. *)
Definition self_references (n : str) (es : list expression) : nat := list_sum (map (occurrences n) es).

(** All recursion is direct: the nonterminals can be ranked so that the rule for [n] mentions, besides
    [n], only nonterminals of lower rank. *)
Definition directly_recursive (g : grammar) : Prop :=
  exists rank : str -> nat, forall n p e m, first_for g n p -> In e (p_rhs p) -> In (Nonterminal m) e -> m = n \/ rank m < rank n.
