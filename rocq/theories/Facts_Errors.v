(** Proofs of the theorems of Properties_Errors.v. *)
From Verif Require Export TextLocate TextExamples.
From Coq Require String.
Import String.StringSyntax.

(** ** Specification *)

(** Both succeed with the same value, or both fail. *)
Definition same_outcome {A} (x y : res (result A)) : Prop :=
  (exists a, x = Ok (ROk a) /\ y = Ok (ROk a)) \/ (exists e e', x = Ok (RErr e) /\ y = Ok (RErr e')).

(** The names of nom's kinds. *)
Definition spelled (k : kind) : str :=
  match k with
  | KChar => lit "Char" | KTag => lit "Tag" | KNot => lit "Not" | KSatisfy => lit "Satisfy" | KEof => lit "Eof"
  | KTakeUntil => lit "TakeUntil" | KMany1 => lit "Many1"
  end.
(** The message about the text [r] with kind [k]. *)
Definition message (debug_str : str -> str) (r : str) (k : kind) : str :=
  lit "Parsing error: Error(Error { input: " ++ debug_str r ++ lit ", code: " ++ spelled k ++ lit " })".

(** What the kind says about the reported rest [r].  [Char]: a bracket is missing there, one of an
    optional or, in BNF, of a name.  [Tag]: the sign between the sides of a rule is missing there.
    [Not]: that sign stands there.  [Satisfy]: no ABNF name begins there.  [Eof]: something is left.
    Other kinds are not reported. *)
Definition means (alphabetic : char -> bool) (Nt : notation) (k : kind) (r : str) : Prop :=
  match k with
  | KChar => exists c, In c (match Nt with Bnf => [c_lt; c_gt] | Abnf => [] end ++ [c_lbrack; c_rbrack]) /\ forall r', r <> c :: r'
  | KTag => forall r', r <> match Nt with Bnf => lit "::=" | Abnf => lit "=" end ++ r'
  | KNot => exists r', r = match Nt with Bnf => lit "::=" | Abnf => lit "=" end ++ r'
  | KSatisfy => Nt = Abnf /\ forall c r', r = c :: r' -> alphabetic c = false
  | KEof => r <> []
  | _ => False
  end.

(** The error names a rest of the text and a kind that describes it. *)
Definition reports {A} (alphabetic : char -> bool) (debug_str : str -> str) (Nt : notation) (s : str) (x : res (result A)) : Prop :=
  forall err, x = Ok (RErr err) -> exists s0 r k, s = s0 ++ r /\ means alphabetic Nt k r /\
    err = ParseError (message debug_str r k).

(** ** Proofs *)

Lemma outcome_forget {A} debug (x : res (parsed A)) y : forget_res x = y -> (exists o, y = Ok o) ->
  same_outcome (to_result_with debug x) (to_result y).
Proof.
  intros <- [o Ho]. destruct x as [[e|a]| |]; cbn in *; try discriminate; [right|left]; eauto.
Qed.

Lemma C65_same_outcome_proof : forall alphabetic debug_str s,
  same_outcome (grammar_from_str_msg alphabetic debug_str s) (grammar_from_str alphabetic s) /\
  (forall F, same_outcome (grammar_parse_from_msg alphabetic debug_str F s) (grammar_parse_from alphabetic F s)) /\
  same_outcome (term_from_str_msg alphabetic debug_str s) (term_from_str alphabetic s) /\
  same_outcome (expression_from_str_msg alphabetic debug_str s) (expression_from_str alphabetic s) /\
  same_outcome (production_from_str_msg alphabetic debug_str s) (production_from_str alphabetic s).
Proof.
  intros al dbg s.
  assert (Hg : forall F, same_outcome (to_result_with dbg (e_grammar_complete al F s)) (to_result (grammar_complete al F s))).
  { intro F. apply outcome_forget; [apply forget_grammar_complete|apply grammar_complete_total]. }
  split; [unfold grammar_from_str_msg, grammar_from_str, grammar_parse_from_msg; destruct (is_format_standard_bnf s); apply Hg|].
  split; [intro F; apply Hg|]. split; [|split]; (apply outcome_forget; [rewrite forget_all_consuming|]).
  - cbn [forget_res]. rewrite forget_term. reflexivity.
  - apply term_from_str_total.
  - rewrite forget_expression. reflexivity.
  - apply expression_from_str_total.
  - rewrite forget_production. reflexivity.
  - apply production_from_str_total.
Qed.

Lemma placed_reports {A} alphabetic dbg Nt s (x : res (parsed A)) : placed_eof alphabetic Nt s x ->
  reports alphabetic dbg Nt s (to_result_with dbg x).
Proof.
  intros H err E. destruct x as [[e|a]| |]; cbn in *; try discriminate. injection E as <-. destruct H as [[s0 Es] Hk].
  exists s0, (e_input e), (e_code e). split; [assumption|]. split; [|reflexivity].
  destruct Hk as [Hk|[-> Hk]]; [|assumption]. destruct (e_code e), Nt; exact Hk || destruct Hk.
Qed.

Lemma consumes_rest {A} (p : str -> eres A) s a r : consumes p -> p s = Ok (Yields (a, r)) -> suffix r s.
Proof. intros H E. eapply H. exact E. Qed.

Lemma C65_reports_grammar_proof : forall alphabetic debug_str N s, alphabetic_ok alphabetic ->
  reports alphabetic debug_str N s (grammar_parse_from_msg alphabetic debug_str (format_of N) s).
Proof. intros al dbg Nt s H. apply placed_reports, grammar_complete_placed. assumption. Qed.

Lemma C65_reports_items_proof : forall alphabetic debug_str s, alphabetic_ok alphabetic ->
  reports alphabetic debug_str Bnf s (term_from_str_msg alphabetic debug_str s) /\
  reports alphabetic debug_str Bnf s (expression_from_str_msg alphabetic debug_str s) /\
  reports alphabetic debug_str Bnf s (production_from_str_msg alphabetic debug_str s).
Proof.
  intros al dbg s H. split; [|split]; apply (placed_reports al dbg Bnf).
  - apply all_consuming_placed.
    + apply (term_placed al Bnf).
    + intros a r E. eapply (consumes_rest _ s a r (term_consumes al H Bnf)). exact E.
    + cbn [forget_res]. rewrite forget_term. apply term_from_str_total.
  - apply all_consuming_placed.
    + apply (expression_placed al H Bnf).
    + intros a r E. eapply (consumes_rest _ s a r (expression_consumes al H Bnf _)). exact E.
    + rewrite forget_expression. apply expression_from_str_total.
  - apply all_consuming_placed.
    + apply (production_placed al H Bnf).
    + intros a r E. apply (forget_yields _ _ _ (forget_production _ _ _ _)) in E.
      pose proof (parse_production_good al BNF (fuel_for s) s (fuel_enough s)) as Hg. unfold BNF in *. rewrite E in Hg. apply Hg.
    + rewrite forget_production. apply production_from_str_total.
Qed.

Lemma message_parts dbg e : from_nom dbg e = ParseError (message dbg (e_input e) (e_code e)).
Proof. destruct e as [r k]. destruct k; reflexivity. Qed.

Lemma C65_eof_proof : forall alphabetic N s r, alphabetic_ok alphabetic ->
  e_grammar_complete alphabetic (format_of N) s = Ok (Fails (mkErr r KEof)) ->
  exists s0 g, s = s0 ++ r /\ grammar_text alphabetic N g s0 /\ rule_head alphabetic N r.
Proof. intros al Nt s r H E. exact (grammar_eof al H Nt s _ E eq_refl). Qed.

Lemma C65_reaches_proof : forall alphabetic N s0 r g r' k, alphabetic_ok alphabetic ->
  grammar_text alphabetic N g s0 -> newline (last s0 0%N) -> rule_head alphabetic N r ->
  e_grammar_complete alphabetic (format_of N) (s0 ++ r) = Ok (Fails (mkErr r' k)) ->
  k = KEof /\ exists r0, r = r0 ++ r'.
Proof. intros al Nt s0 r g r' k H H1 H2 H3 E. exact (grammar_reaches al H Nt s0 r g _ H1 H2 H3 E). Qed.

Lemma C65_shown_proof : forall alphabetic debug_str N s,
  (forall g, grammar_parse_from_msg alphabetic debug_str (format_of N) s = Ok (ROk g) <->
     e_grammar_complete alphabetic (format_of N) s = Ok (Yields g)) /\
  (forall err, grammar_parse_from_msg alphabetic debug_str (format_of N) s = Ok (RErr err) <->
     exists r k, e_grammar_complete alphabetic (format_of N) s = Ok (Fails (mkErr r k)) /\
       err = ParseError (message debug_str r k)) /\
  grammar_from_str_msg alphabetic debug_str s =
    grammar_parse_from_msg alphabetic debug_str (if is_format_standard_bnf s then BNF else ABNF) s.
Proof.
  intros al dbg Nt s. unfold grammar_parse_from_msg. split; [|split].
  - intro g. destruct (e_grammar_complete al (format_of Nt) s) as [[e|a]| |]; cbn; split; congruence.
  - intro err. destruct (e_grammar_complete al (format_of Nt) s) as [[[r k]|a]| |]; cbn; split; try discriminate;
      try (intros (r' & k' & E & _); discriminate).
    + intro E. injection E as <-. exists r, k. split; reflexivity.
    + intros (r' & k' & E & ->). injection E as <- <-. reflexivity.
  - unfold grammar_from_str_msg. destruct (is_format_standard_bnf s); reflexivity.
Qed.

Lemma C65_display_proof : forall debug_str e r k m,
  (e = ParseError m \/ e = GenerateError m \/ e = ValidationError m -> display_error e = m) /\
  display_error (from_nom debug_str (mkErr r k)) =
    lit "Parsing error: Error(Error { input: " ++ debug_str r ++ lit ", code: " ++ spelled k ++ lit " })" /\
  display_error (from_bare_nom debug_str (mkErr r k)) =
    lit "Parsing error: Error { input: " ++ debug_str r ++ lit ", code: " ++ spelled k ++ lit " }" /\
  display_error (from_pair debug_str r k) = lit "Parsing error: " ++ spelled k ++ [10%N] ++ lit " " ++ debug_str r.
Proof.
  intros dbg e r k m. split; [intros [->|[->| ->]]; reflexivity|]. destruct k; auto.
Qed.

(** ** Examples *)

(** Quotes without escapes, as an instance of the parameter [debug_str]. *)
Definition plain_debug (s : str) : str := lit """" ++ s ++ lit """".
Definition failing_text : str := lines [ lit "<a> ::= 'x' | <b>"; lit "<b> ::= 'y" ].
