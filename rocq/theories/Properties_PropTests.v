(** C76: the repository's property tests hold for every value of their generators (PropTests.v), whatever
    the source of the random values; one of them does not. *)
From Verif Require Import GenProofs StrategyProofs Strategies TreeFormat Text TextSpec TextExamples ParseExamples PropTests PropTestProofs PropTestRange Facts_PropTests.
From Coq Require Import Permutation.
From Coq Require String.
Import String.StringSyntax.

(** src/term.rs:124-136, src/expression.rs:213-225, src/production.rs:195-208, src/grammar.rs:929-944: what is
    displayed is read back. *)
Theorem C76_round_trips : forall G (ops : gen_ops G) alphabetic g, alphabetic_ok alphabetic ->
    (let t := fst (any_term ops g) in term_from_str alphabetic (display_term t) = Ok (ROk t)) /\
    (let e := fst (any_expression ops g) in expression_from_str alphabetic (display_expression e) = Ok (ROk e)) /\
    (let p := fst (any_production ops g) in production_from_str alphabetic (display_production p) = Ok (ROk p)) /\
    (let gr := fst (any_grammar ops g) in grammar_from_str alphabetic (display_grammar gr) = Ok (ROk gr)).
Proof. exact @C76_round_trips_proof. Qed.
Print Assumptions C76_round_trips.

(** The generators of these tests give only values which can be written, and can give each of them. *)
Theorem C76_values :
  (forall t, writable_term t <-> exists g, fst (any_term scripted g) = t) /\
  (forall e, writable_expression e <-> exists g, fst (any_expression scripted g) = e) /\
  (forall p, writable_production p <-> exists g, fst (any_production scripted g) = p) /\
  (forall gr, writable_grammar gr <-> exists g, fst (any_grammar scripted g) = gr).
Proof. exact C76_values_proof. Qed.
Print Assumptions C76_values.

(** The generators of the parser's tests: whatever the source, the grammars have the sizes and the
    references said in their comments (no production refers to itself or a later one, or the
    first term is an undefined name), and every grammar of that kind can be given. *)
Theorem C76_ranges :
  (forall G (ops : gen_ops G) g, numbered_grammar 1 5 3 3 earlier (fst (simple_valid_grammar ops g)) /\
     numbered_grammar 2 5 2 2 earlier (fst (multiple_productions_grammar ops g)) /\ undefined_range (fst (undefined_grammar ops g))) /\
  (forall gr, numbered_grammar 1 5 3 3 earlier gr -> exists g, fst (simple_valid_grammar scripted g) = gr) /\
  (forall gr, numbered_grammar 2 5 2 2 earlier gr -> exists g, fst (multiple_productions_grammar scripted g) = gr) /\
  (forall gr, undefined_range gr -> exists g, fst (undefined_grammar scripted g) = gr).
Proof. exact C76_ranges_proof. Qed.
Print Assumptions C76_ranges.

(** [NestedEmptyGrammar] gives one of four grammars. *)
Theorem C76_nested_range : forall G (ops : gen_ops G) g, In (fst (nested_empty_grammar ops g))
  (map (fun n => fst (nested_empty_grammar scripted (n, [], []))) [[0; 0]; [0; 1]; [1; 0]; [1; 1]]).
Proof. exact @nested_empty_range. Qed.
Print Assumptions C76_nested_range.

(** A grammar of the largest size, and one with both kinds of names. *)
Example C76_ranges_example :
  let row i := [[T_ "x"; Nonterminal (nt_name i); T_ ""]; [T_ "y"]; [T_ "a"; T_ "b"; T_ "c"]] in
  numbered_grammar 1 5 3 3 earlier (mkProd (N_ "nt0") [[T_ "z"]] :: map (fun i => mkProd (Nonterminal (nt_name (S i))) (row i)) [0; 1; 2; 3]) /\
  ~ numbered_grammar 1 5 3 3 earlier [mkProd (N_ "nt0") [[N_ "nt0"]]] /\
  undefined_range [mkProd (N_ "nt0") [[N_ "undefined2"; T_ "x"]; [N_ "nt0"]]].
Proof. exact ranges_examples. Qed.

(** src/parser/mod.rs:523-573: in any order of the productions the same trees are found, and as many. *)
Theorem C76_order : forall G (ops : gen_ops G) g gr gr', fst (multiple_productions_grammar ops g) = gr -> Permutation gr gr' ->
  forall ho ho' w start, exists p p' it it' ts ts',
    build_parser ho gr = ROk p /\ build_parser ho' gr' = ROk p' /\
    parse_input_starting_with p w start = Ok it /\ parse_input_starting_with p' w start = Ok it' /\
    collects it ts /\ collects it' ts' /\ Permutation ts ts' /\ length ts = length ts'.
Proof. exact C76_order_proof. Qed.
Print Assumptions C76_order.

(** src/parser/mod.rs:575-611: the grammars of [SimpleValidGrammar] always generate, and one parser
    gives the same trees each time it is used. *)
Theorem C76_reusable : forall G (ops : gen_ops G) g gr, fst (simple_valid_grammar ops g) = gr -> forall ho,
  (exists fuel, terminates fuel gr = Ok true) /\
  (forall R (rng : rng_ops R) f fuel r x r', generate_random rng f gr fuel r <> Ok (RErr x, r')) /\
  exists p, build_parser ho gr = ROk p /\
    forall w, exists it ts, parse_input p w = Ok it /\ collects it ts /\
      forall it' ts', parse_input p w = Ok it' -> collects it' ts' -> ts' = ts.
Proof. exact C76_reusable_proof. Qed.
Print Assumptions C76_reusable.

(** src/parser/mod.rs:462-476: no grammar of [GrammarWithUndefined] becomes a parser. *)
Theorem C76_undefined : forall G (ops : gen_ops G) ho g gr, fst (undefined_grammar ops g) = gr ->
    (exists msg, build_parser ho gr = RErr (ValidationError msg)) /\ prop_catches gr (build_parser ho gr) = true.
Proof. exact @C76_undefined_proof. Qed.
Print Assumptions C76_undefined.

(** src/parser/mod.rs:614-664: the check made there passes for every grammar with rules that have
    alternatives, those of the generators among them. *)
Theorem C76_catches : forall ho g, g <> [] -> (forall p, In p g -> p_rhs p <> []) -> prop_catches g (build_parser ho g) = true.
Proof. exact C76_catches_proof. Qed.
Print Assumptions C76_catches.

(** What that check accepts: a parser only if no name is undefined, otherwise a message with an undefined name. *)
Theorem C76_check : forall g r, prop_catches g r = true <->
  match r with
  | ROk _ => forall n, refers g n -> has_lhs g n
  | RErr (ValidationError msg) => exists n a b, refers g n /\ ~ has_lhs g n /\ msg = a ++ n ++ b
  | RErr _ => False
  end.
Proof. exact C76_check_proof. Qed.
Print Assumptions C76_check.

(** src/earley/mod.rs:333-377: wherever <empty> is inserted, "a" has a parse. *)
Theorem C76_empty : forall G (ops : gen_ops G) g gr, fst (nested_empty_grammar ops g) = gr -> forall ho,
  exists p it fuel t it', build_parser ho gr = ROk p /\ parse_input p (lit "a") = Ok it /\ iter_next fuel it = Ok (Some t, it').
Proof. exact C76_empty_proof. Qed.
Print Assumptions C76_empty.

(** tests/parse_input.rs:776-870: for the three grammars named there every parse ends, is the same through
    either interface, and spells the input; and a generated sentence of at most 50 bytes has a parse. *)
Theorem C76_sentences : forall ho g, In g terminating_grammars -> exists p, build_parser ho g = ROk p /\
  (forall w, exists it ts, parse_input p w = Ok it /\ grammar_parse_input g w = Ok it /\ collects it ts /\
     forall t, In t ts -> collect_terminals t = w) /\
  (forall R (rng : rng_ops R) f fuel r w r', generate_random rng f g fuel r = Ok (ROk w, r') -> byte_len w <= 50 ->
     forall it ts, parse_input p (truncated w) = Ok it -> collects it ts -> ts <> []).
Proof. exact C76_sentences_proof. Qed.
Print Assumptions C76_sentences.

(** A longer sentence is cut by the test to its first 50 bytes, and these need not have a parse: the test
    asserts that they do. *)
Theorem C76_truncated_refuted : exists g script w, In g terminating_grammars /\
  generate_random script_rng (fun _ _ => true) g 1000 script = Ok (ROk w, []) /\
  byte_len w = 52 /\ truncated w = firstn 50 w /\
  forall ho p it ts, build_parser ho g = ROk p -> parse_input p (truncated w) = Ok it -> collects it ts -> ts = [].
Proof. exact C76_truncated_refuted_proof. Qed.
Print Assumptions C76_truncated_refuted.

(** tests/parse_input.rs:888-932: the checks of Mermaid texts pass for every tree which has one. *)
Theorem C76_mermaid : forall t m, display_mermaid t = Ok m ->
  edge_lines_balanced m = true /\ count_parse_tree_edges t = count_mermaid_edges m /\ labels_no_raw_specials m = true.
Proof. exact C76_mermaid_proof. Qed.
Print Assumptions C76_mermaid.

(** What these checks accept: lines with an arrow have four quotation marks; the text up to the first quotation mark and closing
    bracket, in each of the pieces between the opening bracket and quotation mark, has none of nine characters. *)
Theorem C76_mermaid_checks : forall m,
  (edge_lines_balanced m = true <->
    forall l a b, In l (str_lines m) -> l = a ++ lit "-->" ++ b -> count_occ N.eq_dec l 34%N = 4) /\
  (labels_no_raw_specials m = true <->
    forall segment label rest, In segment (split_two 91%N 34%N m) -> segment = label ++ [34; 93]%N ++ rest ->
      (forall x y, label <> x ++ [34; 93]%N ++ y) -> forall c, In c label -> ~ In c (lit """[]\<>&" ++ [10; 13]%N)).
Proof. exact C76_mermaid_checks_proof. Qed.
Print Assumptions C76_mermaid_checks.
Theorem C76_pieces : forall a b s, a <> b ->
  join [a; b] (split_two a b s) = s /\ forall l x y, In l (split_two a b s) -> l <> x ++ [a; b] ++ y.
Proof. exact split_two_exact. Qed.
Print Assumptions C76_pieces.

(** tests/parse_input.rs:961-1000: the grammar made of a label is read, and the label has the one tree. *)
Theorem C76_single_node : forall G (ops : gen_ops G) g s, fst (mermaid_label_content ops g) = s -> forall alphabetic ho, alphabetic_ok alphabetic ->
  exists p it, grammar_from_str alphabetic (grammar_single_node s) = Ok (ROk (root_grammar s)) /\
    build_parser ho (root_grammar s) = ROk p /\ parse_input p s = Ok it /\
    collects it [Node (Nonterminal (lit "root")) [Leaf s]].
Proof. exact C76_single_node_proof. Qed.
Print Assumptions C76_single_node.

(** tests/parse_input.rs:934-959, 1002-1013: the decoder there undoes the escaping of every label. *)
Theorem C76_unescape : forall s, unescape_mermaid_entity_codes (escape_mermaid_label s) = s.
Proof. exact C76_unescape_proof. Qed.
Print Assumptions C76_unescape.

(** What the decoder makes of any text: it copies, except that a number sign, decimal digits and a semicolon become the
    character with that code, or lose the semicolon when there is no such character. *)
Theorem C76_decoder : let u := unescape_mermaid_entity_codes in
  u [] = [] /\
  (forall c s, c <> 35%N -> u (c :: s) = c :: u s) /\
  (forall d s, forallb is_digit d = true -> (forall c r, s = c :: r -> is_digit c = false) -> (forall r, s = 59%N :: r -> d = []) ->
    u (35%N :: d ++ s) = 35%N :: d ++ u s) /\
  (forall d s, forallb is_digit d = true -> d <> [] -> let n := digits_value d in
    ((n < 55296 \/ 57344 <= n < 1114112)%N -> u (35%N :: d ++ 59%N :: s) = n :: u s) /\
    (~ (n < 55296 \/ 57344 <= n < 1114112)%N -> u (35%N :: d ++ 59%N :: s) = 35%N :: d ++ u s)) /\
  digits_value [] = 0%N /\ forall d c, digits_value (d ++ [c]) = (10 * digits_value d + (c - 48))%N.
Proof. exact decoder_steps. Qed.
Print Assumptions C76_decoder.
Example C76_decoder_example :
  unescape_mermaid_entity_codes (lit "a#35;#x#57343;#;#57344;#12") = lit "a##x#57343#;" ++ [57344%N] ++ lit "#12".
Proof. vm_compute. reflexivity. Qed.

(** Some generated values; the texts of tests/parse_input.rs and src/earley/mod.rs are read as the grammars
    used above. *)
Example C76_example :
  fst (any_grammar scripted ([1; 1; 2], [true; false], [lit "a>b"; lit "x>"; lit "it's"])) =
    [mkProd (N_ "ab") [[N_ "x"; T_ "it's"]]] /\
  fst (multiple_productions_grammar scripted ([0; 0; 0; 1; 0; 0], [true; true], [lit "x"])) =
    [mkProd (N_ "nt0") [[T_ "x"]]; mkProd (N_ "nt1") [[N_ "nt0"]; [T_ ""]]] /\
  fst (undefined_grammar scripted ([0; 0; 0; 0; 0], [], [])) = [mkProd (N_ "nt0") [[N_ "undefined0"]]] /\
  grammar_from_str ascii_alpha ([10%N] ++ lit "            <start> ::= <a> <empty>" ++ [10%N] ++ lit "            <a> ::= 'a' <empty>") =
    Ok (ROk nested_base) /\
  fst (nested_empty_grammar scripted ([1; 1], [], [])) =
    [mkProd (N_ "start") [[N_ "a"; N_ "empty"]]; mkProd (N_ "a") [[T_ "a"; N_ "empty"; N_ "empty"]]; mkProd (N_ "empty") [[T_ ""]]] /\
  Forall2 (fun text g => grammar_from_str ascii_alpha text = Ok (ROk g)) terminating_texts terminating_grammars /\
  (exists t m, derives (nth 2 terminating_grammars []) t /\ yield t = lit "1,2" /\ display_mermaid t = Ok m /\
     count_mermaid_edges m = 6 /\ count_parse_tree_edges t = 6) /\
  unescape_mermaid_entity_codes (escape_mermaid_label (lit "a ""[#34;]"" & b")) = lit "a ""[#34;]"" & b" /\
  unescape_mermaid_entity_codes (lit "#34; #x #34 #9; #3:; #3/; #;") = lit """ #x #34 " ++ [9%N] ++ lit " #3:; #3/; #;" /\
  unescape_mermaid_entity_codes (lit "#55295;#55296;#57343;#57344;#1114111;#1114112;#4294967361;") =
    [55295%N] ++ lit "#55296#57343" ++ [57344%N; 1114111%N] ++ lit "#1114112#4294967361" /\
  str_lines (lit "ab" ++ [13; 10]%N ++ lit "c" ++ [10; 10]%N) = [lit "ab"; lit "c"; []] /\
  fst (mermaid_label_content scripted ([], [], [lit "it's 'a'"])) = lit "it_s _a_".
Proof. exact C76_examples. Qed.
