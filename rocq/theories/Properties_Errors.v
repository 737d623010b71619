(** C65: the errors of the text parsers.  TextErrors.v models them with the content of the nom
    errors; [message], [means], [reports] and [same_outcome] are defined in Facts_Errors.v, [rule_head] in
    TextLocate.v. *)
From Verif Require Import Facts_Errors.
From Coq Require String.
Import String.StringSyntax.

(** ** C65 What a failed reading of grammar text reports *)

(** The parsers with error content succeed and fail like those of Text.v, which the other
    properties are about. *)
Theorem C65_same_outcome : forall alphabetic debug_str s,
  same_outcome (grammar_from_str_msg alphabetic debug_str s) (grammar_from_str alphabetic s) /\
  (forall F, same_outcome (grammar_parse_from_msg alphabetic debug_str F s) (grammar_parse_from alphabetic F s)) /\
  same_outcome (term_from_str_msg alphabetic debug_str s) (term_from_str alphabetic s) /\
  same_outcome (expression_from_str_msg alphabetic debug_str s) (expression_from_str alphabetic s) /\
  same_outcome (production_from_str_msg alphabetic debug_str s) (production_from_str alphabetic s).
Proof. exact C65_same_outcome_proof. Qed.
Print Assumptions C65_same_outcome.

(** The message consists of a rest of the text and a kind that says what is wrong there.
    [Satisfy] occurs only in ABNF, and [Eof] only when something is left. *)
Theorem C65_reports_grammar : forall alphabetic debug_str N s, alphabetic_ok alphabetic ->
  reports alphabetic debug_str N s (grammar_parse_from_msg alphabetic debug_str (format_of N) s).
Proof. exact C65_reports_grammar_proof. Qed.
Print Assumptions C65_reports_grammar.

Theorem C65_reports_items : forall alphabetic debug_str s, alphabetic_ok alphabetic ->
  reports alphabetic debug_str Bnf s (term_from_str_msg alphabetic debug_str s) /\
  reports alphabetic debug_str Bnf s (expression_from_str_msg alphabetic debug_str s) /\
  reports alphabetic debug_str Bnf s (production_from_str_msg alphabetic debug_str s).
Proof. exact C65_reports_items_proof. Qed.
Print Assumptions C65_reports_items.

(** The message shows exactly the error of [grammar_complete]. *)
Theorem C65_shown : forall alphabetic debug_str N s,
  (forall g, grammar_parse_from_msg alphabetic debug_str (format_of N) s = Ok (ROk g) <->
     e_grammar_complete alphabetic (format_of N) s = Ok (Yields g)) /\
  (forall err, grammar_parse_from_msg alphabetic debug_str (format_of N) s = Ok (RErr err) <->
     exists r k, e_grammar_complete alphabetic (format_of N) s = Ok (Fails (mkErr r k)) /\
       err = ParseError (message debug_str r k)) /\
  grammar_from_str_msg alphabetic debug_str s =
    grammar_parse_from_msg alphabetic debug_str (if is_format_standard_bnf s then BNF else ABNF) s.
Proof. exact C65_shown_proof. Qed.
Print Assumptions C65_shown.

(** An error is displayed as its message.  The three conversions of nom's errors. *)
Theorem C65_display : forall debug_str e r k m,
  (e = ParseError m \/ e = GenerateError m \/ e = ValidationError m -> display_error e = m) /\
  display_error (from_nom debug_str (mkErr r k)) =
    lit "Parsing error: Error(Error { input: " ++ debug_str r ++ lit ", code: " ++ spelled k ++ lit " })" /\
  display_error (from_bare_nom debug_str (mkErr r k)) =
    lit "Parsing error: Error { input: " ++ debug_str r ++ lit ", code: " ++ spelled k ++ lit " }" /\
  display_error (from_pair debug_str r k) = lit "Parsing error: " ++ spelled k ++ [10%N] ++ lit " " ++ debug_str r.
Proof. exact C65_display_proof. Qed.
Print Assumptions C65_display.

(** [Eof]: the text before the reported place is a complete grammar, and a rule begins there. *)
Theorem C65_eof : forall alphabetic N s r, alphabetic_ok alphabetic ->
  e_grammar_complete alphabetic (format_of N) s = Ok (Fails (mkErr r KEof)) ->
  exists s0 g, s = s0 ++ r /\ grammar_text alphabetic N g s0 /\ rule_head alphabetic N r.
Proof. exact C65_eof_proof. Qed.
Print Assumptions C65_eof.

(** The reported place does not lie before a rule that follows complete lines of a grammar. *)
Theorem C65_reaches : forall alphabetic N s0 r g r' k, alphabetic_ok alphabetic ->
  grammar_text alphabetic N g s0 -> newline (last s0 0%N) -> rule_head alphabetic N r ->
  e_grammar_complete alphabetic (format_of N) (s0 ++ r) = Ok (Fails (mkErr r' k)) ->
  k = KEof /\ exists r0, r = r0 ++ r'.
Proof. exact C65_reaches_proof. Qed.
Print Assumptions C65_reaches.

Example C65_example :
  grammar_from_str_msg ascii_alpha plain_debug (lit "<a> ::= 'x' <b> ::= 'y") =
    Ok (RErr (ParseError (lit "Parsing error: Error(Error { input: ""<b> ::= 'y"", code: Eof })"))) /\
  e_grammar_complete ascii_alpha BNF failing_text = Ok (Fails (mkErr (lines [lit "<b> ::= 'y"]) KEof)) /\
  grammar_text ascii_alpha Bnf [mkParsed (lit "a") [[Simple (Terminal (lit "x"))]; [Simple (Nonterminal (lit "b"))]]] (lines [lit "<a> ::= 'x' | <b>"]) /\
  rule_head ascii_alpha Bnf (lines [lit "<b> ::= 'y"]).
Proof.
  split; [vm_compute; reflexivity|]. split; [vm_compute; reflexivity|].
  split; [apply (grammar_exact ascii_alpha ascii_alpha_ok Bnf); vm_compute; reflexivity|].
  apply (starts_rule_head ascii_alpha ascii_alpha_ok Bnf). eexists _, _. vm_compute. reflexivity.
Qed.

(** One message of each kind.  A mistake inside a group is reported at its opening parenthesis,
    one inside an optional where it is. *)
Example C65_kinds :
  e_grammar_complete ascii_alpha BNF (lit "<a> ::= 'b' | 'c") = Ok (Fails (mkErr (lit "'c") KChar)) /\
  e_grammar_complete ascii_alpha BNF (lit "<a> 'b'") = Ok (Fails (mkErr (lit "'b'") KTag)) /\
  e_grammar_complete ascii_alpha BNF (lit "<a> ::= <b> ::= 'c'") = Ok (Fails (mkErr (lit "::= 'c'") KNot)) /\
  e_grammar_complete ascii_alpha ABNF (lit "1 = 'b'") = Ok (Fails (mkErr (lit "1 = 'b'") KSatisfy)) /\
  e_grammar_complete ascii_alpha BNF (lit "<a> ::= ('b' | 'c)") = Ok (Fails (mkErr (lit "('b' | 'c)") KChar)) /\
  e_grammar_complete ascii_alpha BNF (lit "<a> ::= ['b' | 'c]") = Ok (Fails (mkErr (lit "'c]") KChar)).
Proof. repeat split; vm_compute; reflexivity. Qed.
