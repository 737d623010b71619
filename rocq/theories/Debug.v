(** [Debug] output: the derived implementations for the data types and for [Error], plain ({:?}) and
    indented ({:#?}), the one of [str] on which they rest (core library), and the one that the crate
    writes by hand for [InputRange]. *)
From Verif Require Export Earley.
From Coq Require Import Hexadecimal HexadecimalN.
From Coq Require String.
Import String.StringSyntax.

(** ** [str] *)

(** The digits of a number in the standard library's hexadecimal representation, lower case. *)
Fixpoint hex_str (d : Hexadecimal.uint) : str :=
  match d with
  | Hexadecimal.Nil => []
  | D0 d => 48%N :: hex_str d | D1 d => 49%N :: hex_str d | D2 d => 50%N :: hex_str d | D3 d => 51%N :: hex_str d
  | D4 d => 52%N :: hex_str d | D5 d => 53%N :: hex_str d | D6 d => 54%N :: hex_str d | D7 d => 55%N :: hex_str d
  | D8 d => 56%N :: hex_str d | D9 d => 57%N :: hex_str d | Da d => 97%N :: hex_str d | Db d => 98%N :: hex_str d
  | Dc d => 99%N :: hex_str d | Dd d => 100%N :: hex_str d | De d => 101%N :: hex_str d | Df d => 102%N :: hex_str d
  end.

Section Str.
(** Printable and not extending a grapheme; the core library's tables. *)
Variable plain : char -> bool.

(** [char::escape_debug_ext] as [str] calls it: the single quote is not escaped. *)
Definition debug_char (c : char) : str :=
  if N.eqb c 0 then lit "\0"
  else if N.eqb c 9 then lit "\t"
  else if N.eqb c 13 then lit "\r"
  else if N.eqb c 10 then lit "\n"
  else if N.eqb c 34 then lit "\" ++ [34%N]
  else if N.eqb c 92 then lit "\\"
  else if plain c then [c]
  else lit "\u{" ++ hex_str (N.to_hex_uint c) ++ lit "}".
Definition debug_str (s : str) : str := [34%N] ++ flat_map debug_char s ++ [34%N].

(** ** The derived implementations *)

(** Separated by [sep]. *)
Fixpoint debug_sep (sep : str) (l : list str) : str :=
  match l with
  | [] => []
  | [s] => s
  | s :: l => s ++ sep ++ debug_sep sep l
  end.
Definition debug_list (l : list str) : str := lit "[" ++ debug_sep (lit ", ") l ++ lit "]".

(** src/term.rs:21, src/expression.rs:14, src/production.rs:17, src/grammar.rs:312, src/error.rs:7 *)
Definition debug_term (t : term) : str :=
  match t with
  | Terminal s => lit "Terminal(" ++ debug_str s ++ lit ")"
  | Nonterminal s => lit "Nonterminal(" ++ debug_str s ++ lit ")"
  end.
Definition debug_expression (e : expression) : str := lit "Expression { terms: " ++ debug_list (map debug_term e) ++ lit " }".
Definition debug_production (p : production) : str :=
  lit "Production { lhs: " ++ debug_term (p_lhs p) ++ lit ", rhs: " ++ debug_list (map debug_expression (p_rhs p)) ++ lit " }".
Definition debug_grammar (g : grammar) : str := lit "Grammar { productions: " ++ debug_list (map debug_production g) ++ lit " }".
Definition debug_error (e : error) : str :=
  match e with
  | ParseError m => lit "ParseError(" ++ debug_str m ++ lit ")"
  | GenerateError m => lit "GenerateError(" ++ debug_str m ++ lit ")"
  | ValidationError m => lit "ValidationError(" ++ debug_str m ++ lit ")"
  end.

(** The indented form: every field and element on a line of its own, followed by a comma; four
    spaces per level; an empty list stays on its line. *)
Fixpoint nl (n : nat) : str := match n with 0 => [10%N] | S n => nl n ++ lit "    " end.
Definition pretty_list (n : nat) (l : list str) : str :=
  lit "[" ++ match l with [] => [] | _ => flat_map (fun s => nl (S n) ++ s ++ lit ",") l ++ nl n end ++ lit "]".
Definition pretty_term (n : nat) (t : term) : str :=
  match t with
  | Terminal s => lit "Terminal(" ++ nl (S n) ++ debug_str s ++ lit "," ++ nl n ++ lit ")"
  | Nonterminal s => lit "Nonterminal(" ++ nl (S n) ++ debug_str s ++ lit "," ++ nl n ++ lit ")"
  end.
Definition pretty_expression (n : nat) (e : expression) : str :=
  lit "Expression {" ++ nl (S n) ++ lit "terms: " ++ pretty_list (S n) (map (pretty_term (S (S n))) e) ++ lit "," ++ nl n ++ lit "}".
Definition pretty_production (n : nat) (p : production) : str :=
  lit "Production {" ++ nl (S n) ++ lit "lhs: " ++ pretty_term (S n) (p_lhs p) ++ lit "," ++
  nl (S n) ++ lit "rhs: " ++ pretty_list (S n) (map (pretty_expression (S (S n))) (p_rhs p)) ++ lit "," ++ nl n ++ lit "}".
Definition pretty_grammar (n : nat) (g : grammar) : str :=
  lit "Grammar {" ++ nl (S n) ++ lit "productions: " ++ pretty_list (S n) (map (pretty_production (S (S n))) g) ++ lit "," ++ nl n ++ lit "}".
End Str.

(** ** src/earley/input_range.rs:57-71 *)

(** [str::get(..idx)]. *)
Fixpoint str_get_to (idx : nat) (s : str) : option str :=
  match idx with
  | 0 => Some []
  | _ => match s with
         | [] => None
         | c :: r => if Nat.leb (utf8_len c) idx then option_map (cons c) (str_get_to (idx - utf8_len c) r) else None
         end
  end.
Definition or_empty (o : option str) : str := match o with Some s => s | None => [] end.
Definition debug_range (r : irange) : str :=
  let before := or_empty (str_get_to (r_start r) (r_input r)) in
  let scanned := or_empty (match str_get_from (r_start r) (r_input r) with Some s => str_get_to (r_len r) s | None => None end) in
  let after := or_empty (str_get_from (r_start r + r_len r) (r_input r)) in
  lit "InputRange(" ++ [34%N] ++ before ++ lit "|" ++ scanned ++ lit "|" ++ after ++ [34%N] ++ lit ")".
