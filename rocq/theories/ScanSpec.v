(** Where a grammar text has characters outside of its string literals, and which grammars use
    groups or optionals. *)
From Verif Require Export TextSpec NormalizeSpec.
From Coq Require String.
Import String.StringSyntax.

Definition quote (c : char) : Prop := In c (lit "'""").
Definition opening (c : char) : Prop := In c (lit "([").

(** Characters other than quotes, and complete string literals. *)
Inductive closed_strings : str -> Prop :=
| cs_nil : closed_strings []
| cs_char c s : ~ quote c -> closed_strings s -> closed_strings (c :: s)
| cs_string q body s : quote q -> ~ In q body -> closed_strings s -> closed_strings (q :: body ++ q :: s).

(** An opening bracket outside of the string literals. *)
Definition bracket_outside_strings (s : str) : Prop :=
  exists pre c post, s = pre ++ c :: post /\ opening c /\ closed_strings pre.

Definition uses_groups (pg : parsed_grammar) : Prop :=
  exists es, occurs_in (Group es) pg \/ occurs_in (Optional es) pg.

Definition plain_names (pg : parsed_grammar) : Prop :=
  forall n, In n (map pp_lhs pg) \/ occurs_in (Simple (Nonterminal n)) pg ->
    forall c, In c n -> ~ quote c /\ ~ opening c.
