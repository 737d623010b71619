(** Specification vocabulary for validation: which names a grammar uses and defines. *)
From Verif Require Export Syntax.

(** A nonterminal occurs on some right-hand side. *)
Definition refers (g : grammar) (x : str) : Prop :=
  exists p e, In p g /\ In e (p_rhs p) /\ In (Nonterminal x) e.
(** Some production has it as left-hand side. *)
Definition has_lhs (g : grammar) (x : str) : Prop := exists p, In p g /\ p_lhs p = Nonterminal x.
(** Some alternative belongs to it. *)
Definition has_alt (g : grammar) (x : str) : Prop :=
  exists p e, In p g /\ p_lhs p = Nonterminal x /\ In e (p_rhs p).
