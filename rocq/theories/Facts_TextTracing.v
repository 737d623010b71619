(** Facts for the claims on the log of reading a text. *)
From Verif Require Export TextTracing TextTracingSpec TracingSpec ScanSpec.
From Verif Require Import TextTracingProofs TracingProofs TextStory ScanProofs TextProofs FormatProofs TextComplete TextMain TextTotal TextCost TextCostProofs Facts_Cost TextExamples.
From Coq Require Import String.
Open Scope list_scope.

Lemma transparent : forall alphabetic,
  (forall s, fst (grammar_from_str_l alphabetic s) = grammar_from_str alphabetic s) /\
  (forall s, fst (grammar_from_str_no_abnf_l alphabetic s) = grammar_from_str_no_abnf alphabetic s) /\
  (forall F s, fst (grammar_parse_from_l alphabetic F s) = grammar_parse_from alphabetic F s) /\
  (forall s, fst (term_from_str_l alphabetic s) = term_from_str alphabetic s) /\
  (forall s, fst (expression_from_str_l alphabetic s) = expression_from_str alphabetic s) /\
  (forall s, fst (production_from_str_l alphabetic s) = production_from_str alphabetic s) /\
  (forall ho g, fst (build_parser_l ho g) = build_parser ho g).
Proof.
  intro alphabetic. exact (conj (from_str_same alphabetic) (conj (no_abnf_same alphabetic) (conj (parse_from_same alphabetic)
    (conj (term_same alphabetic) (conj (expression_same alphabetic) (conj (production_same alphabetic) build_same)))))).
Qed.

Lemma text_nested : forall alphabetic,
  (forall s, nested (snd (grammar_from_str_l alphabetic s))) /\
  (forall s, nested (snd (grammar_from_str_no_abnf_l alphabetic s))) /\
  (forall F s, nested (snd (grammar_parse_from_l alphabetic F s))) /\
  (forall s, nested (snd (term_from_str_l alphabetic s))) /\
  (forall s, nested (snd (expression_from_str_l alphabetic s))) /\
  (forall s, nested (snd (production_from_str_l alphabetic s))) /\
  (forall ho g, nested (snd (build_parser_l ho g))).
Proof.
  intro alphabetic. pose proof (fun F s => proj1 (proj2 (grammar_complete_tracks alphabetic F s))) as H. repeat split; intros.
  - unfold grammar_from_str_l. cbn [after noting snd]. apply nested_app; [|apply H]. cbn. apply nested_in. constructor.
  - apply H.
  - apply H.
  - apply (proj1 (proj2 (term_tracks alphabetic BNF s))).
  - apply (proj1 (proj2 (expression_tracks alphabetic BNF (fuel_for s) s))).
  - apply (proj1 (proj2 (production_tracks alphabetic BNF (fuel_for s) s (fuel_positive s)))).
  - unfold build_parser_l. cbn [within snd]. apply nested_in. destruct (starting_term g); [|constructor]. cbn. apply nested_in. constructor.
Qed.

Lemma text_linear : forall alphabetic s, alphabetic_ok alphabetic ->
  List.length (snd (grammar_from_str_l alphabetic s)) <= 786 * List.length s + 614 /\
  (forall N, List.length (snd (grammar_parse_from_l alphabetic (format_of N) s)) <= 786 * List.length s + 612) /\
  List.length (snd (term_from_str_l alphabetic s)) <= 96 * List.length s + 54 /\
  List.length (snd (expression_from_str_l alphabetic s)) <= 96 * List.length s + 54 /\
  List.length (snd (production_from_str_l alphabetic s)) <= 192 * List.length s + 150.
Proof.
  intros alphabetic s Ha.
  assert (Hn : forall N, List.length (snd (grammar_parse_from_l alphabetic (format_of N) s)) <= 786 * List.length s + 612).
  { intro N. destruct (grammar_complete_tracks alphabetic (format_of N) s) as (_ & _ & H). destruct (C69_notation_proof alphabetic N s Ha) as [_ Hc].
    unfold grammar_parse_from_l. cbn [noting snd]. lia. }
  split; [|split; [exact Hn|]].
  - unfold grammar_from_str_l. rewrite format_l. cbn [fst snd after noting]. rewrite app_length.
    change (List.length (blank "whitespace_plus_comments")) with 2.
    destruct (is_format_standard_bnf s); [specialize (Hn Bnf)|specialize (Hn Abnf)]; unfold grammar_parse_from_l in Hn; cbn [noting snd format_of] in Hn; lia.
  - destruct (C69_items_proof alphabetic s Ha) as ([_ H1] & [_ H2] & [_ H3]).
    destruct (term_tracks alphabetic BNF s) as (_ & _ & T1). destruct (expression_tracks alphabetic BNF (fuel_for s) s) as (_ & _ & T2).
    destruct (production_tracks alphabetic BNF (fuel_for s) s (fuel_positive s)) as (_ & _ & T3).
    unfold term_from_str_c, ok_c, expression_from_str_c, production_from_str_c, term_from_str_l, expression_from_str_l, production_from_str_l in *.
    cbn [noting fst snd] in *. lia.
Qed.

Section Story.
Variable alphabetic : char -> bool.
Hypothesis Halpha : alphabetic_ok alphabetic.
Variable N : notation.
Notation F := (format_of N).

Lemma plain_l_same s : fst (plain_grammar_l alphabetic F (fuel_for s) s) = plain_grammar alphabetic F (fuel_for s) s.
Proof. rewrite (proj1 (plain_grammar_tracks alphabetic F _ s (fuel_positive s))). apply erase_plain_grammar. Qed.
Lemma second_l_same s : fst (read_grammar_l alphabetic F (fuel_for s) s) = read_grammar alphabetic F (fuel_for s) s.
Proof. rewrite (proj1 (read_grammar_tracks alphabetic F _ s)). apply erase_read_grammar. Qed.

Lemma second_story s pg : grammar_text alphabetic N pg s -> snd (read_grammar_l alphabetic F (fuel_for s) s) = layouts (rules_layouts pg).
Proof.
  intro H. apply grammar_exact in H; [|exact Halpha]. apply all_consuming_some in H. rewrite <- second_l_same in H.
  eapply second_log; eassumption.
Qed.

Lemma extended_story s pg : grammar_text alphabetic N pg s -> bracket_outside_strings s ->
  snd (grammar_parse_from_l alphabetic F s) = span "grammar_complete" (layouts (rules_layouts pg)).
Proof.
  intros H Hb. apply extended_syntax_spec in Hb. unfold grammar_parse_from_l, grammar_complete_l. cbn [noting within snd]. rewrite Hb.
  cbn [noting snd]. rewrite (second_story _ _ H). reflexivity.
Qed.
Lemma no_brackets s : ~ bracket_outside_strings s -> grammar_has_extended_syntax s = false.
Proof. intro H. destruct (grammar_has_extended_syntax s) eqn:E; [|reflexivity]. contradiction H. apply extended_syntax_spec. exact E. Qed.
Lemma plain_story s g pg : grammar_text alphabetic N pg s -> Forall2 (fun p p' => plain p = Some p') g pg -> 2 <= List.length g ->
  ~ bracket_outside_strings s -> snd (grammar_parse_from_l alphabetic F s) = span "grammar_complete" (plain_log N g).
Proof.
  intros H Hg Hl Hb. pose proof (plain_grammar_complete alphabetic Halpha N s g pg Hg Hl H) as E.
  unfold grammar_parse_from_l, grammar_complete_l. cbn [noting within snd]. rewrite (no_brackets _ Hb). cbn zeta. rewrite plain_l_same, E. cbn [snd].
  apply all_consuming_some in E. rewrite <- plain_l_same in E. rewrite (proj2 (plain_log_two alphabetic Halpha N _ _ _ E)). reflexivity.
Qed.
Lemma second_attempt_story s pg : grammar_text alphabetic N pg s -> ~ bracket_outside_strings s ->
  (forall g, Forall2 (fun p p' => plain p = Some p') g pg -> List.length g < 2) ->
  snd (grammar_parse_from_l alphabetic F s) = span "grammar_complete" (snd (plain_grammar_l alphabetic F (fuel_for s) s) ++ layouts (rules_layouts pg)).
Proof.
  intros H Hb Hno. unfold grammar_parse_from_l, grammar_complete_l. cbn [noting within snd]. rewrite (no_brackets _ Hb). cbn zeta. rewrite plain_l_same.
  destruct (plain_grammar_total alphabetic F s) as [[g|] E]; rewrite E; cbn [snd].
  - exfalso. apply (plain_grammar_exact alphabetic Halpha N) in E. destruct E as (Hl & pg' & Hg & H').
    apply grammar_exact in H, H'; [|exact Halpha..]. rewrite H in H'. injection H' as <-. specialize (Hno _ Hg). lia.
  - cbn [after noting snd]. rewrite (second_story _ _ H). reflexivity.
Qed.
Lemma mixed_story s pg : grammar_text alphabetic N pg s -> ~ bracket_outside_strings s ->
  (forall g, Forall2 (fun p p' => plain p = Some p') g pg -> List.length g < 2) ->
  exists l, snd (grammar_parse_from_l alphabetic F s) = span "grammar_complete" (span "plain_grammar" l ++ layouts (rules_layouts pg)).
Proof. intros H Hb Hno. rewrite (second_attempt_story _ _ H Hb Hno). eexists. reflexivity. Qed.

Lemma single_story s p q : grammar_text alphabetic N [q] s -> plain p = Some q -> ~ bracket_outside_strings s ->
  snd (grammar_parse_from_l alphabetic F s) = span "grammar_complete" (plain_log N [p] ++ layouts (rules_layouts [q])).
Proof.
  intros H Hp Hb. rewrite (second_attempt_story _ _ H Hb).
  2: { intros g Hg. inversion Hg as [|x y l l' Hx Hl]; subst. inversion Hl; subst. cbn. lia. }
  do 2 f_equal. destruct H as (lay & rest & toks & -> & Hl & _ & Hg & Hs). inversion Hg as [|q' l ts ts' Hq Hn]; subst. inversion Hn; subst.
  apply plain_log_one; [exact Halpha|].
  rewrite (proj1 (production_tracks alphabetic F _ _ (fuel_positive _))), erase_parse_production.
  change (whitespace_plus_comments (lay ++ rest)) with (skip false (lay ++ rest)). rewrite skip_layout by assumption.
  assert (Hc : skip false rest = rest).
  { destruct Hq as (inc & ts'' & _ & ->). cbn [app] in Hs. apply spells_inv in Hs; [|assumption]. destruct Hs as (text & s1 & -> & Ht & _).
    eapply skip_token; eassumption. }
  rewrite Hc.
  destruct (parse_production_complete alphabetic Halpha N (fuel_for (lay ++ rest)) p ts [] rest) as (r & E & He).
  - exists q. auto.
  - left. reflexivity.
  - unfold fuel_for. rewrite app_length. lia.
  - exact Hs.
  - rewrite E. destruct He as (H2 & H3 & _). rewrite (spells_clean_nil _ _ r H2 H3). reflexivity.
Qed.
End Story.

Lemma story : forall alphabetic N pg s, alphabetic_ok alphabetic -> grammar_text alphabetic N pg s ->
  let l := snd (grammar_parse_from_l alphabetic (format_of N) s) in
  (bracket_outside_strings s -> l = span "grammar_complete" (layouts (rules_layouts pg))) /\
  (~ bracket_outside_strings s ->
    (forall g, Forall2 (fun p p' => plain p = Some p') g pg -> 2 <= List.length g -> l = span "grammar_complete" (plain_log N g)) /\
    (forall p q, pg = [q] -> plain p = Some q -> l = span "grammar_complete" (plain_log N [p] ++ layouts (rules_layouts pg))) /\
    ((forall g, Forall2 (fun p p' => plain p = Some p') g pg -> List.length g < 2) ->
      exists l', l = span "grammar_complete" (span "plain_grammar" l' ++ layouts (rules_layouts pg)))).
Proof.
  intros alphabetic N pg s Ha H l. split; [apply extended_story; assumption|]. intro Hb. split; [|split].
  - intros g Hg Hl. eapply plain_story; eassumption.
  - intros p q -> Hp. apply single_story; assumption.
  - intro Hno. apply mixed_story; assumption.
Qed.

Lemma entry_logs : forall alphabetic s,
  snd (grammar_from_str_l alphabetic s) =
    skipped ++ snd (grammar_parse_from_l alphabetic (format_of (if is_format_standard_bnf s then Bnf else Abnf)) s) /\
  snd (grammar_from_str_no_abnf_l alphabetic s) = snd (grammar_parse_from_l alphabetic BNF s).
Proof. intros alphabetic s. split; [|reflexivity]. unfold grammar_from_str_l. rewrite format_l. cbn [fst snd after]. destruct (is_format_standard_bnf s); reflexivity. Qed.

Lemma item_logs : forall alphabetic s, alphabetic_ok alphabetic ->
  (forall t, term_from_str alphabetic s = Ok (ROk t) -> snd (term_from_str_l alphabetic s) = term_found t) /\
  (forall e, expression_from_str alphabetic s = Ok (ROk e) -> snd (expression_from_str_l alphabetic s) = alternative_found false e) /\
  (forall p, production_from_str alphabetic s = Ok (ROk p) -> snd (production_from_str_l alphabetic s) = rule_found Bnf false p).
Proof.
  intros alphabetic s Ha. split; [|split]; intros x H.
  - unfold term_from_str_l. cbn [noting snd]. rewrite (term_log alphabetic Bnf). change (format_of Bnf) with BNF. unfold term_from_str in H.
    destruct (parse_term alphabetic BNF s) as [[t [|c r]]|]; try discriminate. injection H as <-. reflexivity.
  - rewrite <- expression_same in H. unfold expression_from_str_l in *. cbn [noting fst snd] in *.
    destruct (fst (parse_expression_l alphabetic BNF (fuel_for s) s)) as [[[e [|c r]]|]| |] eqn:E; try discriminate. injection H as <-.
    apply (expression_log alphabetic Ha Bnf) with (b := false) in E; [exact E|constructor].
  - rewrite <- production_same in H. unfold production_from_str_l in *. cbn [noting fst snd] in *.
    destruct (fst (parse_production_l alphabetic BNF (fuel_for s) s)) as [[[e [|c r]]|]| |] eqn:E; try discriminate. injection H as <-.
    apply (production_log alphabetic Ha Bnf) in E. apply (proj1 E false). left. auto.
Qed.
Lemma build_log : forall ho g, snd (build_parser_l ho g) = span "GrammarParser::new" (match g with [] => [] | _ => blank "ParseGrammar_new" end).
Proof. intros ho [|p g]; reflexivity. Qed.

(** ** Examples *)

(** A log as the names of its spans, in brackets. *)
Definition written (l : log) : str :=
  flat_map (fun x => match x with Enter n => n ++ lit "(" | Leave _ => lit ")" | Said _ => lit "!" end) l.

Definition two_rules : str := lit "<a>::='x' <b>::=<a>".
Definition grouped_rules : str := lit "a = ('x' / b)  b = [a]".
Definition one_rule : str := lit "<a> ::= 'x'".

Lemma C106_example_proof :
  (exists g pg, grammar_text ascii_alpha Bnf pg two_rules /\ Forall2 (fun p p' => plain p = Some p') g pg /\ 2 <= List.length g) /\
  ~ bracket_outside_strings two_rules /\
  written (snd (grammar_from_str_l ascii_alpha two_rules)) = lit ("whitespace_plus_comments()grammar_complete(plain_grammar(" ++
    "whitespace_plus_comments()production(prod_lhs(nonterminal(whitespace_plus_comments())whitespace_plus_comments())" ++
    "prod_rhs(expression(term(terminal(whitespace_plus_comments()))term(terminal()nonterminal(whitespace_plus_comments())))expression_next())" ++
    "whitespace_plus_comments())" ++
    "whitespace_plus_comments()production(prod_lhs(nonterminal(whitespace_plus_comments())whitespace_plus_comments())" ++
    "prod_rhs(expression(term(terminal()nonterminal(whitespace_plus_comments()))term(terminal()nonterminal()))expression_next()))" ++
    "whitespace_plus_comments()production(prod_lhs(nonterminal()))))") /\
  (exists pg, grammar_text ascii_alpha Abnf pg grouped_rules /\ bracket_outside_strings grouped_rules /\ rules_layouts pg = 17) /\
  snd (grammar_from_str_l ascii_alpha grouped_rules) = skipped ++ span "grammar_complete" (layouts 17) /\
  (exists p q, grammar_text ascii_alpha Bnf [q] one_rule /\ plain p = Some q /\ rules_layouts [q] = 6) /\
  ~ bracket_outside_strings one_rule /\
  written (snd (grammar_from_str_l ascii_alpha one_rule)) = lit ("whitespace_plus_comments()grammar_complete(plain_grammar(" ++
    "whitespace_plus_comments()production(prod_lhs(nonterminal(whitespace_plus_comments())whitespace_plus_comments())" ++
    "prod_rhs(expression(term(terminal(whitespace_plus_comments()))term(terminal()nonterminal()))expression_next()))" ++
    "whitespace_plus_comments()production(prod_lhs(nonterminal())))") ++ written (layouts 6) ++ lit ")" /\
  written (snd (grammar_from_str_l ascii_alpha (lit "a ="))) = lit ("whitespace_plus_comments()grammar_complete(plain_grammar(" ++
    "whitespace_plus_comments()production(prod_lhs(nonterminal(whitespace_plus_comments())whitespace_plus_comments())" ++
    "prod_rhs(expression(term(terminal()nonterminal())))))") ++ written (layouts 4) ++ lit ")" /\
  snd (grammar_from_str_l ascii_alpha (lit "<a> ::= 'y' ('x' | <b>")) = skipped ++ span "grammar_complete" (layouts 8) /\
  (exists t, term_from_str ascii_alpha (lit "'x'") = Ok (ROk t)) /\
  written (snd (term_from_str_l ascii_alpha (lit "'x'"))) = lit "term(terminal(whitespace_plus_comments()))".
Proof.
  assert (No : forall s, grammar_has_extended_syntax s = false -> ~ bracket_outside_strings s).
  { intros s H Hx. apply extended_syntax_spec in Hx. congruence. }
  split.
  { assert (E : exists g, all_consuming (plain_grammar ascii_alpha BNF (fuel_for two_rules) two_rules) = Ok (Some g)) by (eexists; vm_compute; reflexivity).
    destruct E as [g E]. apply (plain_grammar_exact ascii_alpha ascii_alpha_ok Bnf) in E. destruct E as (Hl & pg & Hg & Ht). exists g, pg. auto. }
  split; [apply No; vm_compute; reflexivity|]. split; [vm_compute; reflexivity|].
  split. { eexists. split; [apply (grammar_exact ascii_alpha ascii_alpha_ok Abnf); vm_compute; reflexivity|].
    split; [apply extended_syntax_spec; vm_compute; reflexivity|vm_compute; reflexivity]. }
  split; [vm_compute; reflexivity|].
  split. { exists (mkProd (Nonterminal (lit "a")) [[Terminal (lit "x")]]). eexists.
    split; [apply (grammar_exact ascii_alpha ascii_alpha_ok Bnf); vm_compute; reflexivity|]. split; vm_compute; reflexivity. }
  split; [apply No; vm_compute; reflexivity|]. split; [vm_compute; reflexivity|]. do 2 (split; [vm_compute; reflexivity|]).
  split; [eexists; vm_compute; reflexivity|vm_compute; reflexivity].
Qed.
