(** C106.  The functions with [_l] (TextTracing.v) return also what is reported to [tracing] while a text is read.
    What a log should be is in TextTracingSpec.v: [plain_log], [layouts], [rule_found], [alternative_found], [term_found];
    [nested] is in TracingSpec.v, [grammar_text] (the texts of a grammar, C32) in TextSpec.v,
    [bracket_outside_strings] in ScanSpec.v. *)
From Verif Require Import TextSpec NormalizeSpec TextExamples Facts_TextTracing.
From Coq Require Import String List.
Import ListNotations.

(** ** C106 The log of reading a text *)

(** Reporting changes nothing. *)
Theorem C106_transparent : forall alphabetic,
  (forall s, fst (grammar_from_str_l alphabetic s) = grammar_from_str alphabetic s) /\
  (forall s, fst (grammar_from_str_no_abnf_l alphabetic s) = grammar_from_str_no_abnf alphabetic s) /\
  (forall F s, fst (grammar_parse_from_l alphabetic F s) = grammar_parse_from alphabetic F s) /\
  (forall s, fst (term_from_str_l alphabetic s) = term_from_str alphabetic s) /\
  (forall s, fst (expression_from_str_l alphabetic s) = expression_from_str alphabetic s) /\
  (forall s, fst (production_from_str_l alphabetic s) = production_from_str alphabetic s) /\
  (forall ho g, fst (build_parser_l ho g) = build_parser ho g).
Proof. exact transparent. Qed.
Print Assumptions C106_transparent.

(** Every span that is entered is left, the inner ones first, also when the text is refused. *)
Theorem C106_nested : forall alphabetic,
  (forall s, nested (snd (grammar_from_str_l alphabetic s))) /\
  (forall s, nested (snd (grammar_from_str_no_abnf_l alphabetic s))) /\
  (forall F s, nested (snd (grammar_parse_from_l alphabetic F s))) /\
  (forall s, nested (snd (term_from_str_l alphabetic s))) /\
  (forall s, nested (snd (expression_from_str_l alphabetic s))) /\
  (forall s, nested (snd (production_from_str_l alphabetic s))) /\
  (forall ho g, nested (snd (build_parser_l ho g))).
Proof. exact text_nested. Qed.
Print Assumptions C106_nested.

(** The log is at most proportional to the text. *)
Theorem C106_linear : forall alphabetic s, alphabetic_ok alphabetic ->
  List.length (snd (grammar_from_str_l alphabetic s)) <= 786 * List.length s + 614 /\
  (forall N, List.length (snd (grammar_parse_from_l alphabetic (format_of N) s)) <= 786 * List.length s + 612) /\
  List.length (snd (term_from_str_l alphabetic s)) <= 96 * List.length s + 54 /\
  List.length (snd (expression_from_str_l alphabetic s)) <= 96 * List.length s + 54 /\
  List.length (snd (production_from_str_l alphabetic s)) <= 192 * List.length s + 150.
Proof. exact text_linear. Qed.
Print Assumptions C106_linear.

(** What is reported for the text of a grammar: with a bracket outside of strings only the layout after each part;
    without one the rules in the first parser's spans, and for a single rule, or if groups are left, both. *)
Theorem C106_story : forall alphabetic N pg s, alphabetic_ok alphabetic -> grammar_text alphabetic N pg s ->
  let l := snd (grammar_parse_from_l alphabetic (format_of N) s) in
  (bracket_outside_strings s -> l = span "grammar_complete" (layouts (rules_layouts pg))) /\
  (~ bracket_outside_strings s ->
    (forall g, Forall2 (fun p p' => plain p = Some p') g pg -> 2 <= List.length g -> l = span "grammar_complete" (plain_log N g)) /\
    (forall p q, pg = [q] -> plain p = Some q -> l = span "grammar_complete" (plain_log N [p] ++ layouts (rules_layouts pg))) /\
    ((forall g, Forall2 (fun p p' => plain p = Some p') g pg -> List.length g < 2) ->
      exists l', l = span "grammar_complete" (span "plain_grammar" l' ++ layouts (rules_layouts pg)))).
Proof. exact story. Qed.
Print Assumptions C106_story.
Theorem C106_entries : forall alphabetic s,
  snd (grammar_from_str_l alphabetic s) =
    skipped ++ snd (grammar_parse_from_l alphabetic (format_of (if is_format_standard_bnf s then Bnf else Abnf)) s) /\
  snd (grammar_from_str_no_abnf_l alphabetic s) = snd (grammar_parse_from_l alphabetic BNF s).
Proof. exact entry_logs. Qed.
Print Assumptions C106_entries.

(** A term, an expression and a production that are read on their own. *)
Theorem C106_items : forall alphabetic s, alphabetic_ok alphabetic ->
  (forall t, term_from_str alphabetic s = Ok (ROk t) -> snd (term_from_str_l alphabetic s) = term_found t) /\
  (forall e, expression_from_str alphabetic s = Ok (ROk e) -> snd (expression_from_str_l alphabetic s) = alternative_found false e) /\
  (forall p, production_from_str alphabetic s = Ok (ROk p) -> snd (production_from_str_l alphabetic s) = rule_found Bnf false p).
Proof. exact item_logs. Qed.
Print Assumptions C106_items.

(** A parser is made. *)
Theorem C106_build : forall ho g, snd (build_parser_l ho g) = span "GrammarParser::new" (match g with [] => [] | _ => blank "ParseGrammar_new" end).
Proof. exact build_log. Qed.
Print Assumptions C106_build.

Example C106_example :
  (exists g pg, grammar_text ascii_alpha Bnf pg two_rules /\ Forall2 (fun p p' => plain p = Some p') g pg /\ 2 <= List.length g) /\
  ~ bracket_outside_strings two_rules /\
  written (snd (grammar_from_str_l ascii_alpha two_rules)) = lit ("whitespace_plus_comments()grammar_complete(plain_grammar(" ++
    "whitespace_plus_comments()production(prod_lhs(nonterminal(whitespace_plus_comments())whitespace_plus_comments())" ++
    "prod_rhs(expression(term(terminal(whitespace_plus_comments()))term(terminal()nonterminal(whitespace_plus_comments())))expression_next())" ++
    "whitespace_plus_comments())" ++
    "whitespace_plus_comments()production(prod_lhs(nonterminal(whitespace_plus_comments())whitespace_plus_comments())" ++
    "prod_rhs(expression(term(terminal()nonterminal(whitespace_plus_comments()))term(terminal()nonterminal()))expression_next()))" ++
    "whitespace_plus_comments()production(prod_lhs(nonterminal()))))") /\
  (exists pg, grammar_text ascii_alpha Abnf pg grouped_rules /\ bracket_outside_strings grouped_rules /\ rules_layouts pg = 17) /\
  snd (grammar_from_str_l ascii_alpha grouped_rules) = skipped ++ span "grammar_complete" (layouts 17) /\
  (exists p q, grammar_text ascii_alpha Bnf [q] one_rule /\ plain p = Some q /\ rules_layouts [q] = 6) /\
  ~ bracket_outside_strings one_rule /\
  written (snd (grammar_from_str_l ascii_alpha one_rule)) = lit ("whitespace_plus_comments()grammar_complete(plain_grammar(" ++
    "whitespace_plus_comments()production(prod_lhs(nonterminal(whitespace_plus_comments())whitespace_plus_comments())" ++
    "prod_rhs(expression(term(terminal(whitespace_plus_comments()))term(terminal()nonterminal()))expression_next()))" ++
    "whitespace_plus_comments()production(prod_lhs(nonterminal())))") ++ written (layouts 6) ++ lit ")" /\
  written (snd (grammar_from_str_l ascii_alpha (lit "a ="))) = lit ("whitespace_plus_comments()grammar_complete(plain_grammar(" ++
    "whitespace_plus_comments()production(prod_lhs(nonterminal(whitespace_plus_comments())whitespace_plus_comments())" ++
    "prod_rhs(expression(term(terminal()nonterminal())))))") ++ written (layouts 4) ++ lit ")" /\
  snd (grammar_from_str_l ascii_alpha (lit "<a> ::= 'y' ('x' | <b>")) = skipped ++ span "grammar_complete" (layouts 8) /\
  (exists t, term_from_str ascii_alpha (lit "'x'") = Ok (ROk t)) /\
  written (snd (term_from_str_l ascii_alpha (lit "'x'"))) = lit "term(terminal(whitespace_plus_comments()))".
Proof. exact C106_example_proof. Qed.
