(** C99: grammars in a format of the user's.  [format_text], [separable] and [with_start] are in FormatSpec.v. *)
From Verif Require Import TextExamples ParseExamples FormatMain.
From Coq Require String.
Import String.StringSyntax.

(** [parse_from] accepts exactly the texts of the format and returns the normalized grammar. *)
Theorem C99_parse_from : forall alphabetic F s g, alphabetic_ok alphabetic -> separable alphabetic F ->
  (grammar_parse_from alphabetic F s = Ok (ROk g) <->
   exists pg, format_text alphabetic F pg s /\ normalize_parsed_grammar pg = Ok g).
Proof. exact user_exact. Qed.
Print Assumptions C99_parse_from.

(** A text denotes at most one grammar. *)
Theorem C99_unambiguous : forall alphabetic F pg1 pg2 s, alphabetic_ok alphabetic -> separable alphabetic F ->
  format_text alphabetic F pg1 s -> format_text alphabetic F pg2 s -> pg1 = pg2.
Proof. exact user_unambiguous. Qed.
Print Assumptions C99_unambiguous.

(** The same grammar written in two formats reads as the same grammar. *)
Theorem C99_format_irrelevant : forall alphabetic F1 F2 pg s1 s2, alphabetic_ok alphabetic ->
  separable alphabetic F1 -> separable alphabetic F2 ->
  format_text alphabetic F1 pg s1 -> format_text alphabetic F2 pg s2 ->
  grammar_parse_from alphabetic F1 s1 = grammar_parse_from alphabetic F2 s2.
Proof. exact user_irrelevant. Qed.
Print Assumptions C99_format_irrelevant.

(** Which of the two paths read the text is not observable. *)
Theorem C99_path_not_observable : forall alphabetic F s, alphabetic_ok alphabetic -> separable alphabetic F ->
  grammar_complete alphabetic F s =
  match parsed_grammar_complete alphabetic F s with
  | Ok (Some pg) => let* g := normalize_parsed_grammar pg in Ok (Some g)
  | Ok None => Ok None
  | Panic => Panic
  | OutOfFuel => OutOfFuel
  end.
Proof. exact user_path. Qed.
Print Assumptions C99_path_not_observable.

(** The result does not depend on [production_start_char]. *)
Theorem C99_start_char : forall alphabetic F o s, alphabetic_ok alphabetic -> separable alphabetic F ->
  grammar_parse_from alphabetic (with_start F o) s = grammar_parse_from alphabetic F s.
Proof. exact user_start. Qed.
Print Assumptions C99_start_char.

Theorem C99_well_formed : forall alphabetic F s g, alphabetic_ok alphabetic -> separable alphabetic F ->
  grammar_parse_from alphabetic F s = Ok (ROk g) ->
  well_formed g /\ forall x, has_term g (Terminal x) -> writable_term (Terminal x).
Proof. exact user_well_formed. Qed.
Print Assumptions C99_well_formed.

(** The built-in formats are instances. *)
Theorem C99_builtin : forall alphabetic N, alphabetic_ok alphabetic -> separable alphabetic (format_of N) /\
  forall pg s, format_text alphabetic (format_of N) pg s <-> grammar_text alphabetic N pg s.
Proof. exact user_builtin. Qed.
Print Assumptions C99_builtin.

(** With an empty production separator every text is rejected. *)
Theorem C99_empty_separator : forall alphabetic F s, f_separator F = [] ->
  grammar_parse_from alphabetic F s = Ok (RErr parse_error).
Proof. exact empty_separator. Qed.
Print Assumptions C99_empty_separator.

(** For formats that cannot be told apart this fails: with equal separators no text with two alternatives is
    read; names in double quotes are ambiguous; with brackets as separators [production_start_char] decides. *)
Theorem C99_equal_separators_refuted : forall alphabetic, exists F pg s g, f_separator F = [f_alternative F] /\
  format_text alphabetic F pg s /\ normalize_parsed_grammar pg = Ok g /\ grammar_parse_from alphabetic F s = Ok (RErr parse_error).
Proof. exact equal_separators_fail. Qed.
Print Assumptions C99_equal_separators_refuted.

Theorem C99_quoted_names_refuted : forall alphabetic, exists F a pg1 pg2 s, f_delimiter F = Some (dquote, a) /\
  format_text alphabetic F pg1 s /\ format_text alphabetic F pg2 s /\ pg1 <> pg2.
Proof. exact quoted_names_ambiguous. Qed.
Print Assumptions C99_quoted_names_refuted.

Theorem C99_start_char_refuted : forall alphabetic, exists F o s g,
  grammar_parse_from alphabetic F s = Ok (ROk g) /\ grammar_parse_from alphabetic (with_start F o) s = Ok (RErr parse_error).
Proof. exact start_observable. Qed.
Print Assumptions C99_start_char_refuted.

(** Names in braces (with quotes in them), [:=] and slashes; and names without delimiters, arrows and bars. *)
Example C99_example : separable ascii_alpha brace_format /\ format_text ascii_alpha brace_format brace_parsed brace_text /\
  separable ascii_alpha arrow_format /\ exists g, grammar_parse_from ascii_alpha arrow_format arrow_text = Ok (ROk g) /\
    map p_lhs g = [Nonterminal (lit "a"); Nonterminal (lit "c->d")].
Proof. exact brace_example. Qed.
