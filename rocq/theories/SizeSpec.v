(** Specification of the size of grammars and of extended grammars. *)
From Verif Require Export TextSpec NormalizeSpec.

(** The sum of [w] over the terms of all alternatives. *)
Definition weight_expr (w : term -> nat) (e : expression) : nat := list_sum (map w e).
Definition weight_alts (w : term -> nat) (es : list expression) : nat := list_sum (map (weight_expr w) es).
Definition weight (w : term -> nat) (g : grammar) : nat := list_sum (map (fun p => weight_alts w (p_rhs p)) g).

(** The number of terms; the number of characters in terminals. *)
Definition terms_in : grammar -> nat := weight (fun _ => 1).
Definition terminal_chars (t : term) : nat := match t with Terminal s => length s | Nonterminal _ => 0 end.
Definition chars_in : grammar -> nat := weight terminal_chars.
Definition alternatives_in (g : grammar) : nat := list_sum (map (fun p => length (p_rhs p)) g).

(** The same of an extended term: a group is one term and adds those inside, an optional adds one
    more for the empty string, and so does a group without alternatives. *)
Fixpoint item_terms (t : parsed_term) : nat :=
  let inside es := list_sum (map (fun e => list_sum (map item_terms e)) es) in
  match t with
  | Simple _ => 1
  | Group [] => 2
  | Group es => 1 + inside es
  | Optional es => 2 + inside es
  end.
Fixpoint item_alts (t : parsed_term) : nat :=
  let inside es := list_sum (map (fun e => list_sum (map item_alts e)) es) in
  match t with
  | Simple _ => 0
  | Group [] => 1
  | Group es => length es + inside es
  | Optional es => length es + 1 + inside es
  end.
Fixpoint item_chars (t : parsed_term) : nat :=
  let inside es := list_sum (map (fun e => list_sum (map item_chars e)) es) in
  match t with
  | Simple t => terminal_chars t
  | Group es | Optional es => inside es
  end.

(** The sum over the right hand sides of an extended grammar. *)
Definition over (f : parsed_term -> nat) (pg : parsed_grammar) : nat :=
  list_sum (map (fun p => list_sum (map (fun e => list_sum (map f e)) (pp_rhs p))) pg).

(** The characters of a term and of the left hand sides, as they are displayed but without quotes and
    angle brackets. *)
Definition term_chars (t : term) : nat := match t with Terminal s | Nonterminal s => length s end.
Definition lhs_chars (g : grammar) : nat := list_sum (map (fun p => term_chars (p_lhs p)) g).
