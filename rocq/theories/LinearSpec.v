(** Grammars that can be parsed by looking at one character. *)
From Verif Require Export EarleySpec.
From Coq Require String.
Import String.StringSyntax.

(** [begins first e c]: a string of the alternative [e] can begin with [c], given the characters
    with which strings of the nonterminals begin. *)
Definition begins (first : term -> char -> Prop) (e : expression) (c : char) : Prop :=
  match e with
  | Terminal (c' :: _) :: _ => c = c'
  | Nonterminal m :: _ => first (Nonterminal m) c
  | _ => False
  end.

(** The alternatives of each left-hand side begin with different characters; none is empty or
    begins with the empty terminal. *)
Definition predictive (g : grammar) : Prop :=
  exists first : term -> char -> Prop, forall l e, In (l, e) (flat_prods g) ->
    e <> [] /\ hd_error e <> Some (Terminal []) /\
    (forall c, begins first e c -> first l c) /\
    (forall e' c, In (l, e') (flat_prods g) -> begins first e c -> begins first e' c -> e = e').

(** Number of positions in the alternatives, counting the one before the first term, times the
    number of positions in the input. *)
Definition linear_bound (g : grammar) (input : str) : nat :=
  list_sum (map (fun pe => S (length (snd pe))) (flat_prods g)) * S (length input).

(** The grammar of the README, <dna> ::= <base> | <base> <dna>, and its only trees. *)
Definition dna_letter (c : char) : Prop := In c (lit "ACGT").
Definition dna_base (c : char) : pnode := Sub (Node (Nonterminal (lit "base")) [Leaf [c]]).
Fixpoint dna_kids (c : char) (w : str) : list pnode :=
  match w with
  | [] => [dna_base c]
  | c' :: w => [dna_base c; Sub (Node (Nonterminal (lit "dna")) (dna_kids c' w))]
  end.
Definition dna_tree (c : char) (w : str) : ptree := Node (Nonterminal (lit "dna")) (dna_kids c w).
