(** Specification of generation, independent of the generator model. *)
From Verif Require Export EarleySpec GrammarSpec.

(** [p] is the first production of [g] for the nonterminal [n]. *)
Definition first_for (g : grammar) (n : str) (p : production) : Prop :=
  exists before after, g = before ++ p :: after /\ p_lhs p = Nonterminal n /\
    (forall q, In q before -> p_lhs q <> Nonterminal n).

(** [expansion g ok t w]: [w] is the text of a finite expansion of the term [t] in which every
    nonterminal is replaced by an alternative of its first production (an undefined nonterminal
    by its own name), and [ok] holds of every expanded nonterminal and its text. *)
Inductive expansion (g : grammar) (ok : str -> str -> Prop) : term -> str -> Prop :=
| ex_terminal s : expansion g ok (Terminal s) s
| ex_undefined n : ~ has_lhs g n -> expansion g ok (Nonterminal n) n
| ex_rule n p e w : first_for g n p -> In e (p_rhs p) -> expansions g ok e w -> ok n w ->
    expansion g ok (Nonterminal n) w
with expansions (g : grammar) (ok : str -> str -> Prop) : expression -> str -> Prop :=
| exs_nil : expansions g ok [] []
| exs_cons t e w1 w2 : expansion g ok t w1 -> expansions g ok e w2 -> expansions g ok (t :: e) (w1 ++ w2).

Scheme expansion_mind := Induction for expansion Sort Prop
  with expansions_mind := Induction for expansions Sort Prop.
Combined Scheme expansion_mutind from expansion_mind, expansions_mind.

(** A strategy that only returns alternatives of the production it is given. *)
Definition lawful {S} (choose : S -> nat -> production -> nat -> res (option expression * S)) : Prop :=
  forall st addr p depth e st', choose st addr p depth = Ok (Some e, st') -> In e (p_rhs p).

(** No two productions have the same left-hand side. *)
Definition distinct_lhs (g : grammar) : Prop := NoDup (map p_lhs g).

(** No production has a single, empty alternative. *)
Definition no_lone_epsilon (g : grammar) : Prop := forall p, In p g -> p_rhs p <> [[]].
