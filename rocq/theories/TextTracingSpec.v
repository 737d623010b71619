(** What the log of reading a text should be. *)
From Verif Require Import TextTracing TextSpec NormalizeSpec.
From Coq Require Import String.
Open Scope list_scope.

(** Layout is skipped. *)
Definition skipped : log := blank "whitespace_plus_comments".

(** Attempts at a string, at a name, at a left-hand side. *)
Definition string_found : log := span "terminal" skipped.
Definition no_string : log := blank "terminal".
Definition name_found : log := span "nonterminal" skipped.
Definition no_name : log := blank "nonterminal".
Definition lhs_found : log := span "prod_lhs" (name_found ++ skipped).
Definition no_lhs : log := span "prod_lhs" no_name.

(** A term; the attempt after the last term of an alternative, which finds the name of the next rule if one follows. *)
Definition term_found (t : term) : log :=
  span "term" (match t with Terminal _ => string_found | Nonterminal _ => no_string ++ name_found end).
Definition no_term (rule_follows : bool) : log :=
  span "term" (no_string ++ if rule_follows then name_found else no_name).
Definition alternative_found (rule_follows : bool) (e : expression) : log :=
  span "expression" (flat_map term_found e ++ no_term rule_follows).
Fixpoint alternatives_found (rule_follows : bool) (es : list expression) : log :=
  match es with
  | [] => []
  | e :: [] => alternative_found rule_follows e ++ blank "expression_next"
  | e :: es => alternative_found false e ++ span "expression_next" skipped ++ alternatives_found rule_follows es
  end.
(** Looking for the next rule: for its first character or for all of its left-hand side. *)
Definition rule_ahead (N : notation) : log := match N with Bnf => skipped | Abnf => lhs_found end.
Definition rule_found (N : notation) (rule_follows : bool) (p : production) : log :=
  span "production" (lhs_found ++ span "prod_rhs" (alternatives_found rule_follows (p_rhs p)) ++ if rule_follows then rule_ahead N else []).
(** The rules one after the other, and the attempt after the last one. *)
Fixpoint rules_found (N : notation) (g : grammar) : log :=
  match g with
  | [] => skipped ++ span "production" no_lhs
  | p :: r => skipped ++ rule_found N (match r with [] => false | _ => true end) p ++ rules_found N r
  end.
Definition plain_log (N : notation) (g : grammar) : log := span "plain_grammar" (rules_found N g).

(** The second parser only reports layout: after every name, string, bracket, separator and definition sign; the name of
    the next rule is read once as a term and once as a left-hand side before it is read as a rule. *)
Fixpoint term_layouts (t : parsed_term) : nat :=
  match t with
  | Simple _ => 1
  | Group es | Optional es => list_sum (map (fun e => list_sum (map term_layouts e)) es) + (List.length es - 1) + 1
  end.
Definition alternatives_layouts (es : list parsed_expression) : nat :=
  list_sum (map (fun e => list_sum (map term_layouts e)) es) + (List.length es - 1).
Definition rules_layouts (pg : parsed_grammar) : nat :=
  list_sum (map (fun p => 3 + alternatives_layouts (pp_rhs p)) pg) + 3 * (List.length pg - 1) + 2.
Definition layouts (n : nat) : log := List.concat (repeat skipped n).
