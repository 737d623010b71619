(** C69: the cost of reading grammar text.  The counting parsers ([grammar_from_str_c], ...) are in
    TextCost.v: they return what the parsers of Text.v return before normalization ([finish]), and the number of
    characters looked at, with every repetition: failed attempts, lookahead and the second
    reading after the fast path failed. *)
From Verif Require Import TextCost TextSpec NormalizeSpec NormalizeClosed TextExamples Facts_Cost TextCostLower.
From Coq Require String.
Import String.StringSyntax.

(** ** C69 Reading takes linear time *)
Theorem C69_grammar : forall alphabetic s, alphabetic_ok alphabetic ->
  grammar_from_str alphabetic s = to_result (finish (fst (grammar_from_str_c alphabetic s))) /\
  snd (grammar_from_str_c alphabetic s) <= 134 * List.length s + 106.
Proof. exact C69_grammar_proof. Qed.
Print Assumptions C69_grammar.

Theorem C69_notation : forall alphabetic N s, alphabetic_ok alphabetic ->
  grammar_parse_from alphabetic (format_of N) s = to_result (finish (fst (grammar_complete_c alphabetic (format_of N) s))) /\
  snd (grammar_complete_c alphabetic (format_of N) s) <= 131 * List.length s + 102.
Proof. exact C69_notation_proof. Qed.
Print Assumptions C69_notation.

Theorem C69_items : forall alphabetic s, alphabetic_ok alphabetic ->
  (term_from_str alphabetic s = to_result (fst (term_from_str_c alphabetic s)) /\
   snd (term_from_str_c alphabetic s) <= 16 * List.length s + 9) /\
  (expression_from_str alphabetic s = to_result (fst (expression_from_str_c alphabetic s)) /\
   snd (expression_from_str_c alphabetic s) <= 16 * List.length s + 9) /\
  (production_from_str alphabetic s = to_result (fst (production_from_str_c alphabetic s)) /\
   snd (production_from_str_c alphabetic s) <= 32 * List.length s + 25).
Proof. exact C69_items_proof. Qed.
Print Assumptions C69_items.

(** No less is possible than linear: every character of a text that is read is looked at, of a grammar four times. *)
Theorem C69_lower : forall alphabetic s,
  (forall t, fst (term_from_str_c alphabetic s) = Ok (Some t) -> List.length s < snd (term_from_str_c alphabetic s)) /\
  (forall e, fst (expression_from_str_c alphabetic s) = Ok (Some e) -> List.length s < snd (expression_from_str_c alphabetic s)) /\
  (forall p, fst (production_from_str_c alphabetic s) = Ok (Some p) -> List.length s < snd (production_from_str_c alphabetic s)) /\
  (forall F g, fst (grammar_complete_c alphabetic F s) = Ok (Some g) -> 4 * List.length s <= snd (grammar_complete_c alphabetic F s)) /\
  (forall g, fst (grammar_from_str_c alphabetic s) = Ok (Some g) -> 4 * List.length s < snd (grammar_from_str_c alphabetic s)).
Proof. exact lower_bounds. Qed.
Print Assumptions C69_lower.

(** A quote or angle bracket that is not closed: the whole rest is searched, once. *)
Theorem C69_unclosed : forall alphabetic x,
  (forall q, q = squote \/ q = dquote -> ~ In q x -> term_from_str_c alphabetic (q :: x) = (Ok None, List.length x + 4)) /\
  (~ In c_gt x -> term_from_str_c alphabetic (c_lt :: x) = (Ok None, List.length x + 6)).
Proof. exact unclosed. Qed.
Print Assumptions C69_unclosed.

(** Normalization numbers the k-th group with [num k] (C54): the search for free names tries
    at most one candidate for each group and one for each production. *)
Theorem C69_names : forall lhss num k, enumerates_free lhss num -> num k <= k + List.length lhss.
Proof. exact C69_names_proof. Qed.
Print Assumptions C69_names.

(** A text of 3 rules, texts without groups (only the first and the third are read in one pass), and unclosed groups, in which every level of the nesting fails. *)
Example C69_example :
  let text := lit "a = 'x' b / (b ['y'])  b = a  / b    c = 'z'" in
  let deep n := lit "<a> ::= " ++ List.concat (List.repeat (lit "('x' ") n) in
  (exists g, grammar_from_str ascii_alpha text = Ok (ROk g)) /\
  (List.length text, snd (grammar_from_str_c ascii_alpha text)) = (44, 374) /\
  map (fun s => (List.length s, snd (grammar_from_str_c ascii_alpha s))) [lit "a = 'x' b  b = a"; lit "<a> ::= 'x' | <a>"; lit "<a> ::= 'x' <b> <b> ::= 'y' | <b>"; lit "<a> ::"] =
    [(16, 149); (17, 184); (33, 227); (6, 55)] /\
  map (fun n => (List.length (deep n), snd (grammar_from_str_c ascii_alpha (deep n)))) [10; 20; 40] =
    [(58, 396); (108, 736); (208, 1416)] /\
  map (fun s => (List.length s, snd (term_from_str_c ascii_alpha s), snd (expression_from_str_c ascii_alpha s), snd (production_from_str_c ascii_alpha s)))
    [lit "'x'"; lit "<a> ; c"; lit "<a>::=<b>"; lit "'x"; lit "<a"] =
    [(3, 9, 15, 2); (7, 16, 22, 17); (9, 10, 13, 32); (2, 5, 5, 2); (2, 7, 7, 5)] /\
  enumerates_free [lit "__anon0"; lit "a"] S.
Proof.
  split; [eexists; vm_compute; reflexivity|]. do 4 (split; [vm_compute; reflexivity|]).
  split; [intro; lia|]. intro i. split.
  - intro H. destruct i as [|i]; [exfalso; apply H; left; reflexivity|]. exists i. reflexivity.
  - intros [k <-] [H|[H|[]]]; [|discriminate]. change (anon_name 0 = anon_name (S k)) in H. apply anon_name_inj in H. discriminate.
Qed.
