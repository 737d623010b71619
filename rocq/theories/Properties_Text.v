(** C27-C36: reading and writing grammar text.  The vocabulary ([spells], [grammar_text],
    [writable_grammar], ...) is in TextSpec.v; the meaning of normalization is the subject of
    Properties_Normalize.v. *)
From Verif Require Import Facts_Text TextExamples.
From Coq Require String.
Import String.StringSyntax.

(** ** C27 Term text round trip *)

Theorem C27_term_round_trip : forall alphabetic t, alphabetic_ok alphabetic ->
  (term_from_str alphabetic (display_term t) = Ok (ROk t) <-> writable_term t).
Proof. exact C27_term_round_trip_proof. Qed.
Print Assumptions C27_term_round_trip.

Example C27_example : writable_term (Terminal (lit "it's")) /\ writable_term (Nonterminal (lit "a ""b' <")) /\
  display_term (Terminal (lit "it's")) = lit """it's""" /\
  ~ writable_term (Terminal (lit "'""")) /\ ~ writable_term (Nonterminal (lit "a>b")).
Proof.
  repeat split; cbn.
  - intros [_ H]. decompose [or] H; try discriminate; contradiction.
  - intro H. decompose [or] H; try discriminate; contradiction.
  - intro H. apply H. auto.
  - intro H. apply H. auto.
Qed.

(** ** C28 Expression text round trip *)

Theorem C28_expression_round_trip : forall alphabetic e, alphabetic_ok alphabetic ->
  (expression_from_str alphabetic (display_expression e) = Ok (ROk e) <-> writable_expression e).
Proof. exact C28_expression_round_trip_proof. Qed.
Print Assumptions C28_expression_round_trip.

Example C28_example : let e := [Terminal (lit "a|b"); Nonterminal (lit "x ::= y"); Terminal []] in
  writable_expression e /\ display_expression e = lit "'a|b' <x ::= y> ''".
Proof.
  split; [|reflexivity]. split; [discriminate|]. intros t [<-|[<-|[<-|[]]]]; cbn.
  - intros [H _]. decompose [or] H; try discriminate; contradiction.
  - intro H. decompose [or] H; try discriminate; contradiction.
  - intros [[] _].
Qed.

(** ** C29 Production text round trip *)

Theorem C29_production_round_trip : forall alphabetic p, alphabetic_ok alphabetic ->
  (production_from_str alphabetic (display_production p) = Ok (ROk p) <-> writable_production p).
Proof. exact C29_production_round_trip_proof. Qed.
Print Assumptions C29_production_round_trip.

Example C29_example : Forall writable_production bnf_grammar.
Proof.
  apply Forall_forall. intros p Hp. pose proof bnf_text_reads as H. apply to_result_ok in H.
  exact (proj2 (parsed_bnf_writable ascii_alpha ascii_alpha_ok bnf_text bnf_grammar H) p Hp).
Qed.

(** ** C30 Grammar text round trip *)

Theorem C30_grammar_round_trip : forall alphabetic g, alphabetic_ok alphabetic ->
  (grammar_from_str alphabetic (display_grammar g) = Ok (ROk g) <-> writable_grammar g).
Proof. exact C30_grammar_round_trip_proof. Qed.
Print Assumptions C30_grammar_round_trip.

(** The same for [Grammar::parse_from::<BNF>] and for [str::parse] without the ABNF feature. *)
Theorem C30_grammar_round_trip_bnf : forall alphabetic g, alphabetic_ok alphabetic ->
  (grammar_parse_from alphabetic BNF (display_grammar g) = Ok (ROk g) <-> writable_grammar g) /\
  (grammar_from_str_no_abnf alphabetic (display_grammar g) = Ok (ROk g) <-> writable_grammar g).
Proof. exact C30_grammar_round_trip_bnf_proof. Qed.
Print Assumptions C30_grammar_round_trip_bnf.

Example C30_example : writable_grammar bnf_grammar /\
  display_grammar bnf_grammar = lines
    [ lit "<s> ::= <a> 'x' | ""it's""";
      lit "<a> ::= <__anon0> 'd'";
      lit "<__anon1> ::= 'c' | ''";
      lit "<__anon0> ::= 'b' | <s> <__anon1>" ].
Proof.
  split; [|vm_compute; reflexivity]. pose proof bnf_text_reads as H. apply to_result_ok in H.
  exact (parsed_bnf_writable ascii_alpha ascii_alpha_ok bnf_text bnf_grammar H).
Qed.

(** ** C31 Every grammar read from BNF text survives formatting *)

Theorem C31_bnf_survives : forall alphabetic s g, alphabetic_ok alphabetic ->
  grammar_parse_from alphabetic BNF s = Ok (ROk g) ->
  grammar_from_str alphabetic (display_grammar g) = Ok (ROk g).
Proof. exact C31_bnf_survives_proof. Qed.
Print Assumptions C31_bnf_survives.

(** From ABNF it survives exactly when no name contains [>]. *)
Theorem C31_abnf_survives : forall alphabetic s g, alphabetic_ok alphabetic ->
  grammar_parse_from alphabetic ABNF s = Ok (ROk g) ->
  (grammar_from_str alphabetic (display_grammar g) = Ok (ROk g) <->
   forall n, has_term g (Nonterminal n) -> ~ In 62%N n).
Proof. exact C31_abnf_survives_proof. Qed.
Print Assumptions C31_abnf_survives.

Theorem C31_abnf_refuted : forall alphabetic, alphabetic_ok alphabetic -> alphabetic 97%N = true ->
  exists s g, grammar_from_str alphabetic s = Ok (ROk g) /\
    grammar_from_str alphabetic (display_grammar g) <> Ok (ROk g).
Proof. exact C31_abnf_refuted_proof. Qed.
Print Assumptions C31_abnf_refuted.

Example C31_example : grammar_parse_from ascii_alpha BNF bnf_text = Ok (ROk bnf_grammar) /\
  grammar_parse_from ascii_alpha ABNF abnf_text = Ok (ROk bnf_grammar).
Proof. split; vm_compute; reflexivity. Qed.

(** ** C32 Grammar text means what the notation says *)

(** [str::parse] accepts exactly the texts of the notation and returns the normalized grammar. *)
Theorem C32_grammar_text : forall alphabetic s g, alphabetic_ok alphabetic ->
  (grammar_from_str alphabetic s = Ok (ROk g) <->
   exists N pg, grammar_text alphabetic N pg s /\ normalize_parsed_grammar pg = Ok g).
Proof. exact C32_grammar_text_proof. Qed.
Print Assumptions C32_grammar_text.

Theorem C32_parse_from : forall alphabetic N s g, alphabetic_ok alphabetic ->
  (grammar_parse_from alphabetic (format_of N) s = Ok (ROk g) <->
   exists pg, grammar_text alphabetic N pg s /\ normalize_parsed_grammar pg = Ok g).
Proof. exact C32_parse_from_proof. Qed.
Print Assumptions C32_parse_from.

(** The white space of layouts is that of Unicode. *)
Theorem C32_white_space : forall c, is_whitespace c = true <-> In c white_space.
Proof. exact C32_white_space_proof. Qed.
Print Assumptions C32_white_space.

(** A text denotes at most one grammar, in at most one of the notations. *)
Theorem C32_unambiguous : forall alphabetic N1 N2 pg1 pg2 s, alphabetic_ok alphabetic ->
  grammar_text alphabetic N1 pg1 s -> grammar_text alphabetic N2 pg2 s -> N1 = N2 /\ pg1 = pg2.
Proof. exact C32_unambiguous_proof. Qed.
Print Assumptions C32_unambiguous.

(** Layout, comments, quote style, notation and [::=|] do not influence the result. *)
Theorem C32_layout_irrelevant : forall alphabetic N1 N2 pg s1 s2, alphabetic_ok alphabetic ->
  grammar_text alphabetic N1 pg s1 -> grammar_text alphabetic N2 pg s2 ->
  grammar_from_str alphabetic s1 = grammar_from_str alphabetic s2.
Proof. exact C32_layout_irrelevant_proof. Qed.
Print Assumptions C32_layout_irrelevant.

(** The same for the parsers of terms, expressions and productions. *)
Theorem C32_term_text : forall alphabetic s t, alphabetic_ok alphabetic ->
  (term_from_str alphabetic s = Ok (ROk t) <-> term_text alphabetic Bnf t s).
Proof. exact C32_term_text_proof. Qed.
Print Assumptions C32_term_text.
Theorem C32_expression_text : forall alphabetic s e, alphabetic_ok alphabetic ->
  (expression_from_str alphabetic s = Ok (ROk e) <-> expression_text alphabetic Bnf e s).
Proof. exact C32_expression_text_proof. Qed.
Print Assumptions C32_expression_text.
Theorem C32_production_text : forall alphabetic s p, alphabetic_ok alphabetic ->
  (production_from_str alphabetic s = Ok (ROk p) <-> production_text alphabetic Bnf p s).
Proof. exact C32_production_text_proof. Qed.
Print Assumptions C32_production_text.

(** The exception: layout directly after an opening bracket is rejected. *)
Theorem C32_layout_after_bracket_refuted : forall alphabetic, exists s1 s2,
  s1 = lit "<a> ::= (" ++ lit "'x')" /\ s2 = lit "<a> ::= (" ++ lit " " ++ lit "'x')" /\ layout (lit " ") /\
  (exists g, grammar_from_str alphabetic s1 = Ok (ROk g)) /\ grammar_from_str alphabetic s2 = Ok (RErr parse_error).
Proof. exact C32_layout_after_bracket_refuted_proof. Qed.
Print Assumptions C32_layout_after_bracket_refuted.

Example C32_example : grammar_text ascii_alpha Bnf bnf_parsed bnf_text /\ grammar_text ascii_alpha Abnf bnf_parsed abnf_text /\
  normalize_parsed_grammar bnf_parsed = Ok bnf_grammar.
Proof. exact (conj bnf_text_parsed (conj abnf_text_parsed bnf_normalized)). Qed.

(** ** C33 Grammar parsing is total *)

(** [answers x] (Facts_Text.v): [x] is a value or a [ParseError]. *)
Theorem C33_total : forall alphabetic s,
  answers (term_from_str alphabetic s) /\ answers (expression_from_str alphabetic s) /\
  answers (production_from_str alphabetic s) /\ answers (grammar_from_str alphabetic s) /\
  answers (grammar_from_str_no_abnf alphabetic s) /\
  forall F, answers (grammar_parse_from alphabetic F s).
Proof. exact C33_total_proof. Qed.
Print Assumptions C33_total.

(** On success the whole text has been consumed: all of it is made of the tokens of the result
    (and layout). *)
Theorem C33_whole_text : forall alphabetic s, alphabetic_ok alphabetic ->
  (forall g, grammar_from_str alphabetic s = Ok (ROk g) -> exists N pg, grammar_text alphabetic N pg s) /\
  (forall p, production_from_str alphabetic s = Ok (ROk p) -> production_text alphabetic Bnf p s) /\
  (forall e, expression_from_str alphabetic s = Ok (ROk e) -> expression_text alphabetic Bnf e s) /\
  (forall t, term_from_str alphabetic s = Ok (ROk t) -> term_text alphabetic Bnf t s).
Proof. exact C33_whole_text_proof. Qed.
Print Assumptions C33_whole_text.

Example C33_example : grammar_from_str ascii_alpha (lit "<a> ::= 'x' )") = Ok (RErr parse_error) /\
  grammar_from_str ascii_alpha [] = Ok (RErr parse_error) /\ grammar_from_str ascii_alpha bnf_text = Ok (ROk bnf_grammar).
Proof. repeat split; vm_compute; reflexivity. Qed.

(** ** C34 Fast path and extended path agree *)

Theorem C34_paths_agree : forall alphabetic N s g, alphabetic_ok alphabetic ->
  all_consuming (plain_grammar alphabetic (format_of N) (fuel_for s) s) = Ok (Some g) ->
  exists pg, parsed_grammar_complete alphabetic (format_of N) s = Ok (Some pg) /\ normalize_parsed_grammar pg = Ok g.
Proof. exact C34_paths_agree_proof. Qed.
Print Assumptions C34_paths_agree.

Theorem C34_path_not_observable : forall alphabetic N s, alphabetic_ok alphabetic ->
  grammar_complete alphabetic (format_of N) s =
  match parsed_grammar_complete alphabetic (format_of N) s with
  | Ok (Some pg) => let* g := normalize_parsed_grammar pg in Ok (Some g)
  | Ok None => Ok None
  | Panic => Panic
  | OutOfFuel => OutOfFuel
  end.
Proof. exact C34_path_not_observable_proof. Qed.
Print Assumptions C34_path_not_observable.

Example C34_example : let s := lines [lit "<a> ::= 'x(' | <b>"; lit "<b> ::= '['"] in
  grammar_has_extended_syntax s = false /\
  exists g, all_consuming (plain_grammar ascii_alpha BNF (fuel_for s) s) = Ok (Some g).
Proof. split; [vm_compute; reflexivity|]. eexists. vm_compute. reflexivity. Qed.

(** ** C35 Format auto-detection *)

Theorem C35_detection : forall alphabetic s,
  (starts_bnf s -> grammar_from_str alphabetic s = grammar_parse_from alphabetic BNF s) /\
  (~ starts_bnf s -> grammar_from_str alphabetic s = grammar_parse_from alphabetic ABNF s) /\
  (starts_bnf s \/ ~ starts_bnf s).
Proof. exact C35_detection_proof. Qed.
Print Assumptions C35_detection.

(** The choice is right: no text is rejected because of the format chosen. *)
Theorem C35_detection_right : forall alphabetic N s g, alphabetic_ok alphabetic ->
  grammar_parse_from alphabetic (format_of N) s = Ok (ROk g) -> grammar_from_str alphabetic s = Ok (ROk g).
Proof. exact C35_detection_right_proof. Qed.
Print Assumptions C35_detection_right.

(** A [Display] form is read as BNF (if its first rule has a nonterminal on the left). *)
Theorem C35_display_is_bnf : forall p g n, p_lhs p = Nonterminal n -> starts_bnf (display_grammar (p :: g)).
Proof. exact C35_display_is_bnf_proof. Qed.
Print Assumptions C35_display_is_bnf.

Example C35_example : starts_bnf bnf_text /\ ~ starts_bnf abnf_text.
Proof.
  split.
  - apply (grammar_text_bnf ascii_alpha ascii_alpha_ok bnf_parsed). apply bnf_text_parsed.
  - apply (grammar_text_abnf ascii_alpha ascii_alpha_ok bnf_parsed). apply abnf_text_parsed.
Qed.

(** ** C36 Parsed grammars are well formed *)

Theorem C36_bnf_writable : forall alphabetic s g, alphabetic_ok alphabetic ->
  grammar_parse_from alphabetic BNF s = Ok (ROk g) -> writable_grammar g.
Proof. exact C36_bnf_writable_proof. Qed.
Print Assumptions C36_bnf_writable.

(** In either notation. *)
Theorem C36_well_formed : forall alphabetic s g, alphabetic_ok alphabetic ->
  grammar_from_str alphabetic s = Ok (ROk g) ->
  well_formed g /\ forall x, has_term g (Terminal x) -> writable_term (Terminal x).
Proof. exact C36_well_formed_proof. Qed.
Print Assumptions C36_well_formed.

Example C36_example : grammar_parse_from ascii_alpha BNF bnf_text = Ok (ROk bnf_grammar).
Proof. vm_compute. reflexivity. Qed.
