(** The [Display] implementations of terms, expressions, productions and grammars. *)
From Verif Require Export Syntax.
From Coq Require String.
Import String.StringSyntax.

(** [str::contains(char)]. *)
Definition str_contains (c : char) (s : str) : bool := existsb (N.eqb c) s.

(** [[String]::join(sep)]. *)
Fixpoint join (sep : str) (l : list str) : str :=
  match l with
  | nil => []
  | [x] => x
  | x :: r => x ++ sep ++ join sep r
  end.

Definition squote : char := 39%N.
Definition dquote : char := 34%N.

(** src/term.rs:87-100 *)
Definition display_term (t : term) : str :=
  match t with
  | Terminal s => if str_contains squote s then dquote :: s ++ [dquote] else squote :: s ++ [squote]
  | Nonterminal s => lit "<" ++ s ++ lit ">"
  end.

(** src/expression.rs:129-140 *)
Definition display_expression (e : expression) : str := join (lit " ") (map display_term e).

(** src/production.rs:102-115 *)
Definition display_production (p : production) : str :=
  display_term (p_lhs p) ++ lit " ::= " ++ join (lit " | ") (map display_expression (p_rhs p)).

(** src/grammar.rs:775-787; [writeln!] appends a newline. *)
Definition display_grammar (g : grammar) : str :=
  join [10%N] (map display_production g) ++ [10%N].
