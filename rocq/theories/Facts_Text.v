(** Proofs of the theorems of Properties_Text.v that are not instances of a single lemma. *)
From Verif Require Import TextExamples.
From Coq Require String.
Import String.StringSyntax.

Lemma C32_white_space_proof : forall c, is_whitespace c = true <-> In c white_space.
Proof.
  intro c. unfold is_whitespace. rewrite !orb_true_iff, !andb_true_iff, !N.leb_le, !N.eqb_eq. split.
  - intro H.
    assert (E : (c = 9 \/ c = 10 \/ c = 11 \/ c = 12 \/ c = 13 \/ c = 32 \/ c = 133 \/ c = 160 \/ c = 5760 \/
                 c = 8192 \/ c = 8193 \/ c = 8194 \/ c = 8195 \/ c = 8196 \/ c = 8197 \/ c = 8198 \/ c = 8199 \/ c = 8200 \/
                 c = 8201 \/ c = 8202 \/ c = 8232 \/ c = 8233 \/ c = 8239 \/ c = 8287 \/ c = 12288)%N) by lia.
    cbn. intuition congruence.
  - cbn. intro H. intuition lia.
Qed.

Lemma C27_term_round_trip_proof : forall alphabetic t, alphabetic_ok alphabetic ->
  (term_from_str alphabetic (display_term t) = Ok (ROk t) <-> writable_term t).
Proof. intros al t H. exact (display_term_round al H t). Qed.

Lemma C28_expression_round_trip_proof : forall alphabetic e, alphabetic_ok alphabetic ->
  (expression_from_str alphabetic (display_expression e) = Ok (ROk e) <-> writable_expression e).
Proof. intros al e H. exact (display_expression_round al H e). Qed.

Lemma C29_production_round_trip_proof : forall alphabetic p, alphabetic_ok alphabetic ->
  (production_from_str alphabetic (display_production p) = Ok (ROk p) <-> writable_production p).
Proof. intros al p H. exact (display_production_round al H p). Qed.

Lemma C30_grammar_round_trip_proof : forall alphabetic g, alphabetic_ok alphabetic ->
  (grammar_from_str alphabetic (display_grammar g) = Ok (ROk g) <-> writable_grammar g).
Proof. intros al g H. exact (display_grammar_round al H g). Qed.

Lemma C30_grammar_round_trip_bnf_proof : forall alphabetic g, alphabetic_ok alphabetic ->
  (grammar_parse_from alphabetic BNF (display_grammar g) = Ok (ROk g) <-> writable_grammar g) /\
  (grammar_from_str_no_abnf alphabetic (display_grammar g) = Ok (ROk g) <-> writable_grammar g).
Proof.
  intros al g H. unfold grammar_parse_from, grammar_from_str_no_abnf. rewrite to_result_ok.
  assert (E : grammar_complete al BNF (display_grammar g) = Ok (Some g) <-> writable_grammar g)
    by (split; [apply parsed_bnf_writable; assumption|apply display_grammar_complete; assumption]).
  split; exact E.
Qed.

Lemma C31_bnf_survives_proof : forall alphabetic s g, alphabetic_ok alphabetic ->
  grammar_parse_from alphabetic BNF s = Ok (ROk g) ->
  grammar_from_str alphabetic (display_grammar g) = Ok (ROk g).
Proof.
  intros al s g H Hg. apply to_result_ok in Hg. apply (display_grammar_round al H).
  exact (parsed_bnf_writable al H s g Hg).
Qed.

Lemma C31_abnf_survives_proof : forall alphabetic s g, alphabetic_ok alphabetic ->
  grammar_parse_from alphabetic ABNF s = Ok (ROk g) ->
  (grammar_from_str alphabetic (display_grammar g) = Ok (ROk g) <->
   forall n, has_term g (Nonterminal n) -> ~ In 62%N n).
Proof.
  intros al s g H Hg. apply to_result_ok in Hg. rewrite (display_grammar_round al H), writable_split.
  apply (parsed_well_formed al H Abnf) in Hg. destruct Hg as [H1 H2]. split.
  - intros [_ H3] n Hn. exact (H3 _ Hn).
  - intro H3. split; [assumption|]. intros [x|n] Ht; [|exact (H3 n Ht)].
    destruct (H2 _ Ht) as [Ha|[k Hk]]; [exact Ha|discriminate].
Qed.

Lemma C31_abnf_refuted_proof : forall alphabetic, alphabetic_ok alphabetic -> alphabetic 97%N = true ->
  exists s g, grammar_from_str alphabetic s = Ok (ROk g) /\
    grammar_from_str alphabetic (display_grammar g) <> Ok (ROk g).
Proof.
  intros al H Ha. exists (lit "a>b = 'x'"), [mkProd (Nonterminal (lit "a>b")) [[Terminal (lit "x")]]]. split.
  - apply (grammar_from_str_exact al H). exists Abnf, [mkParsed (lit "a>b") [[Simple (Terminal (lit "x"))]]].
    split; [|reflexivity]. 
    exists [], (lit "a>b = 'x'"), (([TokName (lit "a>b"); TokDefine false] ++ [TokString 39%N (lit "x")] ++ []) ++ []).
    split; [reflexivity|]. split; [constructor|]. split; [discriminate|]. split.
    { constructor; [|constructor]. exists false. eexists. split; [|reflexivity].
      constructor; [discriminate|]. apply toks_more; [apply toks_terminal|constructor]. }
    apply (spells_token al Abnf _ (lit "a>b") (lit " ") (lit "= 'x'")).
    { constructor; [assumption|]. intros x Hx [Hw|Hb]; cbn in Hx; destruct Hx as [<-|[<-|[<-|[]]]];
        try discriminate; cbn in Hb; decompose [or] Hb; try discriminate; contradiction. }
    { apply layout_space; [reflexivity|constructor]. }
    { intros [E|E]; discriminate. }
    { intros n _ _. right. exists 32%N, (lit "= 'x'"). split; [reflexivity|]. left; reflexivity. }
    apply (spells_token al Abnf _ (lit "=") (lit " ") (lit "'x'")).
    { constructor. }
    { apply layout_space; [reflexivity|constructor]. }
    { intros [E|E]; discriminate. }
    { intros n _ E; discriminate. }
    apply (spells_token al Abnf _ (lit "'x'") [] []).
    { apply (text_string al Abnf 39%N (lit "x")); [left; reflexivity|]. cbn. intros [E|[]]; discriminate. }
    { constructor. }
    { auto. }
    { intros n _ E; discriminate. }
    constructor. left; reflexivity.
  - rewrite (display_grammar_round al H). intros [_ Hw].
    destruct (Hw _ (or_introl eq_refl)) as (_ & Hw' & _). apply Hw'. cbn. auto.
Qed.

Lemma C32_grammar_text_proof : forall alphabetic s g, alphabetic_ok alphabetic ->
  (grammar_from_str alphabetic s = Ok (ROk g) <->
   exists N pg, grammar_text alphabetic N pg s /\ normalize_parsed_grammar pg = Ok g).
Proof. intros al s g H. exact (grammar_from_str_exact al H s g). Qed.

Lemma C32_parse_from_proof : forall alphabetic N s g, alphabetic_ok alphabetic ->
  (grammar_parse_from alphabetic (format_of N) s = Ok (ROk g) <->
   exists pg, grammar_text alphabetic N pg s /\ normalize_parsed_grammar pg = Ok g).
Proof. intros al N s g H. unfold grammar_parse_from. rewrite to_result_ok. exact (grammar_complete_exact al H N s g). Qed.

Lemma C32_unambiguous_proof : forall alphabetic N1 N2 pg1 pg2 s, alphabetic_ok alphabetic ->
  grammar_text alphabetic N1 pg1 s -> grammar_text alphabetic N2 pg2 s -> N1 = N2 /\ pg1 = pg2.
Proof. intros al N1 N2 pg1 pg2 s H. exact (grammar_text_unique al H N1 N2 pg1 pg2 s). Qed.

Lemma C32_layout_irrelevant_proof : forall alphabetic N1 N2 pg s1 s2, alphabetic_ok alphabetic ->
  grammar_text alphabetic N1 pg s1 -> grammar_text alphabetic N2 pg s2 ->
  grammar_from_str alphabetic s1 = grammar_from_str alphabetic s2.
Proof.
  intros al N1 N2 pg s1 s2 H H1 H2. destruct (normalize_total pg) as [g Hg].
  transitivity (Ok (ROk g)); [|symmetry]; apply (grammar_from_str_exact al H); eauto.
Qed.

Lemma C32_term_text_proof : forall alphabetic s t, alphabetic_ok alphabetic ->
  (term_from_str alphabetic s = Ok (ROk t) <-> term_text alphabetic Bnf t s).
Proof. intros al s t H. exact (term_from_str_exact al H s t). Qed.

Lemma C32_expression_text_proof : forall alphabetic s e, alphabetic_ok alphabetic ->
  (expression_from_str alphabetic s = Ok (ROk e) <-> expression_text alphabetic Bnf e s).
Proof. intros al s e H. exact (expression_from_str_exact al H s e). Qed.

Lemma C32_production_text_proof : forall alphabetic s p, alphabetic_ok alphabetic ->
  (production_from_str alphabetic s = Ok (ROk p) <-> production_text alphabetic Bnf p s).
Proof. intros al s p H. exact (production_from_str_exact al H s p). Qed.

Lemma C32_layout_after_bracket_refuted_proof : forall alphabetic, exists s1 s2,
  s1 = lit "<a> ::= (" ++ lit "'x')" /\ s2 = lit "<a> ::= (" ++ lit " " ++ lit "'x')" /\ layout (lit " ") /\
  (exists g, grammar_from_str alphabetic s1 = Ok (ROk g)) /\ grammar_from_str alphabetic s2 = Ok (RErr parse_error).
Proof.
  intro al. do 2 eexists. split; [reflexivity|]. split; [reflexivity|]. split; [apply layout_space; [reflexivity|constructor]|].
  split; [eexists|]; vm_compute; reflexivity.
Qed.

(** [x] is a value or a [ParseError]. *)
Definition answers {A} (x : res (result A)) : Prop :=
  (exists a, x = Ok (ROk a)) \/ exists m, x = Ok (RErr (ParseError m)).

Lemma to_result_answers {A} (x : res (option A)) : (exists o, x = Ok o) -> answers (to_result x).
Proof. intros [[a|] ->]; [left|right]; eexists; reflexivity. Qed.

Lemma C33_total_proof : forall alphabetic s,
  answers (term_from_str alphabetic s) /\ answers (expression_from_str alphabetic s) /\
  answers (production_from_str alphabetic s) /\ answers (grammar_from_str alphabetic s) /\
  answers (grammar_from_str_no_abnf alphabetic s) /\
  forall F, answers (grammar_parse_from alphabetic F s).
Proof.
  intros al s. repeat split; try intro F; try apply to_result_answers.
  - apply term_from_str_total.
  - apply expression_from_str_total.
  - apply production_from_str_total.
  - unfold grammar_from_str. destruct (is_format_standard_bnf s); apply to_result_answers, grammar_complete_total.
  - apply grammar_complete_total.
  - apply grammar_complete_total.
Qed.

Lemma C33_whole_text_proof : forall alphabetic s, alphabetic_ok alphabetic ->
  (forall g, grammar_from_str alphabetic s = Ok (ROk g) -> exists N pg, grammar_text alphabetic N pg s) /\
  (forall p, production_from_str alphabetic s = Ok (ROk p) -> production_text alphabetic Bnf p s) /\
  (forall e, expression_from_str alphabetic s = Ok (ROk e) -> expression_text alphabetic Bnf e s) /\
  (forall t, term_from_str alphabetic s = Ok (ROk t) -> term_text alphabetic Bnf t s).
Proof.
  intros al s H. repeat split.
  - intros g Hg. apply (grammar_from_str_exact al H) in Hg. destruct Hg as (N & pg & H1 & _). eauto.
  - intros p. apply (production_from_str_exact al H).
  - intros e. apply (expression_from_str_exact al H).
  - intros t. apply (term_from_str_exact al H).
Qed.

Lemma C34_paths_agree_proof : forall alphabetic N s g, alphabetic_ok alphabetic ->
  all_consuming (plain_grammar alphabetic (format_of N) (fuel_for s) s) = Ok (Some g) ->
  exists pg, parsed_grammar_complete alphabetic (format_of N) s = Ok (Some pg) /\ normalize_parsed_grammar pg = Ok g.
Proof.
  intros al N s g H Hp. apply (plain_grammar_sound al H N) in Hp. destruct Hp as (pg & H1 & H2). exists pg.
  split; [apply (read_grammar_complete al H N); assumption|]. exact (normalize_plain _ _ H1).
Qed.

Lemma C34_path_not_observable_proof : forall alphabetic N s, alphabetic_ok alphabetic ->
  grammar_complete alphabetic (format_of N) s =
  match parsed_grammar_complete alphabetic (format_of N) s with
  | Ok (Some pg) => let* g := normalize_parsed_grammar pg in Ok (Some g)
  | Ok None => Ok None
  | Panic => Panic
  | OutOfFuel => OutOfFuel
  end.
Proof. intros al N s H. exact (grammar_complete_extended al H N s). Qed.

Lemma C35_detection_proof : forall alphabetic s,
  (starts_bnf s -> grammar_from_str alphabetic s = grammar_parse_from alphabetic BNF s) /\
  (~ starts_bnf s -> grammar_from_str alphabetic s = grammar_parse_from alphabetic ABNF s) /\
  (starts_bnf s \/ ~ starts_bnf s).
Proof.
  intros al s. split; [apply from_str_bnf|]. split; [apply from_str_abnf|].
  destruct (is_format_standard_bnf s) eqn:E; [left|right; intro H; apply detect_spec in H; congruence]. apply detect_spec. assumption.
Qed.

Lemma C35_detection_right_proof : forall alphabetic N s g, alphabetic_ok alphabetic ->
  grammar_parse_from alphabetic (format_of N) s = Ok (ROk g) -> grammar_from_str alphabetic s = Ok (ROk g).
Proof.
  intros al N s g H Hg. apply (grammar_from_str_exact al H). apply to_result_ok in Hg.
  apply (grammar_complete_exact al H N) in Hg. destruct Hg as (pg & H1 & H2). exists N, pg. auto.
Qed.

Lemma C35_display_is_bnf_proof : forall p g n, p_lhs p = Nonterminal n -> starts_bnf (display_grammar (p :: g)).
Proof. intros p g n H. apply display_starts. eauto. Qed.

Lemma C36_bnf_writable_proof : forall alphabetic s g, alphabetic_ok alphabetic ->
  grammar_parse_from alphabetic BNF s = Ok (ROk g) -> writable_grammar g.
Proof. intros al s g H Hg. apply to_result_ok in Hg. exact (parsed_bnf_writable al H s g Hg). Qed.

Lemma C36_well_formed_proof : forall alphabetic s g, alphabetic_ok alphabetic ->
  grammar_from_str alphabetic s = Ok (ROk g) ->
  well_formed g /\ forall x, has_term g (Terminal x) -> writable_term (Terminal x).
Proof.
  intros al s g H Hg. apply (grammar_from_str_exact al H) in Hg. destruct Hg as (N & pg & H1 & H2).
  assert (Hc : grammar_complete al (format_of N) s = Ok (Some g)) by (apply (grammar_complete_exact al H N); eauto).
  apply (parsed_well_formed al H N) in Hc. destruct Hc as [Hw Ht]. split; [assumption|].
  intros x Hx. destruct (Ht _ Hx) as [Ha|[k Hk]]; [exact Ha|discriminate].
Qed.

