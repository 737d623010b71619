(** Property theorems: the size of grammars read from text. *)
From Verif Require Import SizeProofs SizeDisplay SizeSpec Display TextExamples.
From Coq Require String.
Import String.StringSyntax.

(** ** C103 A grammar read from text is no larger than the text *)

(** What normalization adds, exactly: one production for each bracket, one alternative and one
    term for each optional; it does not add characters to terminals. *)
Theorem C103_normalized : forall pg g, normalize_parsed_grammar pg = Ok g ->
  length g = length pg + count_all pg /\
  alternatives_in g = list_sum (map (fun p => length (pp_rhs p)) pg) + over item_alts pg /\
  terms_in g = over item_terms pg /\ chars_in g = over item_chars pg.
Proof. exact normalized_size. Qed.
Print Assumptions C103_normalized.

(** From [n] characters: terms and characters of terminals together at most [n - 3], at most as
    many alternatives as terms, and at most [(n - 2) / 2] productions. *)
Theorem C103_read : forall alphabetic s g, alphabetic_ok alphabetic -> grammar_from_str alphabetic s = Ok (ROk g) ->
  terms_in g + chars_in g + 3 <= length s /\ alternatives_in g <= terms_in g /\ 2 * length g + 2 <= length s.
Proof. exact read_size. Qed.
Print Assumptions C103_read.

(** Nested optionals attain the three bounds, at every size: no smaller bound holds. *)
Theorem C103_attained : forall alphabetic k, alphabetic_ok alphabetic -> alphabetic 97%N = true -> alphabetic 98%N = true ->
  exists g, grammar_from_str alphabetic (nest_text k) = Ok (ROk g) /\ length (nest_text k) = 2 * k + 4 /\
    terms_in g + chars_in g + 3 = length (nest_text k) /\ alternatives_in g = terms_in g /\
    2 * length g + 2 = length (nest_text k).
Proof. exact bounds_attained. Qed.
Print Assumptions C103_attained.

(** The length of what is displayed, exactly: the characters of all terms, three more for each term
    on a right hand side, two for each alternative, five for each production. *)
Theorem C103_display : forall g, well_formed g ->
  length (display_grammar g) = lhs_chars g + weight term_chars g + 3 * terms_in g + 2 * alternatives_in g + 5 * length g.
Proof. exact display_size. Qed.
Print Assumptions C103_display.

(** Hence a grammar read from [n] characters is displayed in at most [(d + 14) * n] characters, where
    [n] has at most [d] digits (or is [10 ^ d]). *)
Theorem C103_display_read : forall alphabetic s g d, alphabetic_ok alphabetic -> grammar_from_str alphabetic s = Ok (ROk g) ->
  length s <= 10 ^ d -> length (display_grammar g) <= (d + 14) * length s.
Proof. exact read_display. Qed.
Print Assumptions C103_display_read.

(** The numbers in the made-up names do make the displayed grammar longer than every multiple of the text. *)
Theorem C103_display_long : forall alphabetic d, alphabetic_ok alphabetic -> alphabetic 97%N = true -> alphabetic 98%N = true ->
  exists g, grammar_from_str alphabetic (nest_text (2 * 10 ^ d)) = Ok (ROk g) /\
    length (nest_text (2 * 10 ^ d)) = 4 * 10 ^ d + 4 /\
    d * length (nest_text (2 * 10 ^ d)) <= 8 * length (display_grammar g).
Proof. exact nest_display. Qed.
Print Assumptions C103_display_long.

Example C103_example :
  nest_text 2 = lit "a =[[b]]" /\
  (exists g, grammar_from_str ascii_alpha (nest_text 2) = Ok (ROk g) /\ terms_in g = 5 /\ length g = 3 /\ alternatives_in g = 5) /\
  exists g, grammar_from_str ascii_alpha (lit "<a> ::= ('x' <b>) | 'yz' ['w' | 'v']") = Ok (ROk g) /\
    length g = 3 /\ terms_in g = 8 /\ chars_in g = 5 /\ alternatives_in g = 6 /\
    lhs_chars g = 15 /\ weight term_chars g = 20 /\ length (display_grammar g) = 86.
Proof. vm_compute. split; [reflexivity|]. split; eexists; repeat split; reflexivity. Qed.
