(** C82: the choice between the two parsers of grammar text.  [bracket_outside_strings],
    [uses_groups] and [plain_names] are in ScanSpec.v, [grammar_text] in TextSpec.v, [plain] in
    NormalizeSpec.v. *)
From Verif Require Import Facts_Scan.
From Coq Require String.
Import String.StringSyntax.

(** The scan finds exactly the opening brackets outside of string literals. *)
Theorem C82_scan : forall s, grammar_has_extended_syntax s = true <-> bracket_outside_strings s.
Proof. exact extended_syntax_spec. Qed.
Print Assumptions C82_scan.

(** In a text without semicolons whose names have neither quotes nor opening brackets these are
    the groups and optionals. *)
Theorem C82_groups : forall alphabetic N s pg, alphabetic_ok alphabetic ->
  parsed_grammar_complete alphabetic (format_of N) s = Ok (Some pg) -> ~ In 59%N s -> plain_names pg ->
  (grammar_has_extended_syntax s = true <-> uses_groups pg).
Proof. exact C82_groups_proof. Qed.
Print Assumptions C82_groups.

(** But not in general: brackets in comments and names count, and an apostrophe in a comment hides
    the groups that follow. *)
Theorem C82_comment_refuted : forall alphabetic, exists s pg,
  parsed_grammar_complete alphabetic BNF s = Ok (Some pg) /\ plain_names pg /\ ~ uses_groups pg /\ grammar_has_extended_syntax s = true.
Proof. exact C82_comment_refuted_proof. Qed.
Print Assumptions C82_comment_refuted.

Theorem C82_name_refuted : forall alphabetic, exists s pg,
  parsed_grammar_complete alphabetic BNF s = Ok (Some pg) /\ ~ In 59%N s /\ ~ uses_groups pg /\ grammar_has_extended_syntax s = true.
Proof. exact C82_name_refuted_proof. Qed.
Print Assumptions C82_name_refuted.

Theorem C82_missed_refuted : forall alphabetic, exists s pg,
  parsed_grammar_complete alphabetic BNF s = Ok (Some pg) /\ plain_names pg /\ uses_groups pg /\ grammar_has_extended_syntax s = false.
Proof. exact C82_missed_refuted_proof. Qed.
Print Assumptions C82_missed_refuted.

(** The fast parser accepts exactly the texts of at least two productions without groups. *)
Theorem C82_fast_path : forall alphabetic N s g, alphabetic_ok alphabetic ->
  (all_consuming (plain_grammar alphabetic (format_of N) (fuel_for s) s) = Ok (Some g) <->
   2 <= List.length g /\ exists pg, Forall2 (fun p p' => plain p = Some p') g pg /\ grammar_text alphabetic N pg s).
Proof. exact C82_fast_path_proof. Qed.
Print Assumptions C82_fast_path.

(** A text with brackets in a literal only; one with an optional; and a single production, which
    the fast parser rejects. *)
Example C82_example :
  grammar_has_extended_syntax (lit "<a> ::= '(' ""["" <b>") = false /\
  grammar_has_extended_syntax (lit "<a> ::= '(' [<b>]") = true /\
  bracket_outside_strings (lit "<a> ::= '(' [<b>]") /\
  all_consuming (plain_grammar ascii_alpha BNF 100 (lit "<a> ::= 'x'")) = Ok None /\
  all_consuming (plain_grammar ascii_alpha BNF 100 (lit "<a> ::= 'x' <b> ::= 'y'")) =
    Ok (Some [mkProd (Nonterminal (lit "a")) [[Terminal (lit "x")]]; mkProd (Nonterminal (lit "b")) [[Terminal (lit "y")]]]) /\
  parsed_grammar_complete ascii_alpha BNF (lit "<a> ::= '(' [<b>]") =
    Ok (Some [mkParsed (lit "a") [[Simple (Terminal (lit "(")); Optional [[Simple (Nonterminal (lit "b"))]]]]]).
Proof. repeat split; try (vm_compute; reflexivity). apply extended_syntax_spec. reflexivity. Qed.
