(** Unambiguous grammars. *)
From Verif Require Export EarleySpec RenameSpec.

(** Every input has at most one parse tree. *)
Definition unambiguous (g : grammar) (start : term) : Prop :=
  forall input t t', parses g start input t -> parses g start input t' -> t = t'.

(** Every nonterminal that can be reached from [start] generates some string. *)
Definition fruitful (g : grammar) (start : term) : Prop :=
  forall n, reachable g start (Nonterminal n) -> exists v, generates g n v.

(** Number of positions in the alternatives, counting the one before the first term, times the
    number of pairs of positions of the input. *)
Definition quadratic_bound (g : grammar) (input : str) : nat :=
  list_sum (map (fun pe => S (length (snd pe))) (flat_prods g)) * (S (length input) * S (length input)).
