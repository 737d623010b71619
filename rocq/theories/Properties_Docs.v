(** C55-C58: claims made in the README and doc comments.  [alternatives], [bit scripts] and the
    example grammars are in DocProofs.v, [grammar_text] in TextSpec.v, [opens], [produces],
    [exhausted] in EarleySpec.v. *)
From Verif Require Import EarleyOrder StrategyProofs TextMain ParseExamples TextExamples DocProofs.
From Coq Require Import Permutation.
From Coq Require String.
Import String.StringSyntax.

(** C55: README.md:121-122 says that the generator prints a nonterminal without production as
    <identifier>.  It prints the bare name. *)
Theorem C55_undefined_nonterminal : forall S (choose : S -> nat -> production -> nat -> res (option expression * S))
    accept g fuel n st depth,
  ~ has_lhs g n -> traverse choose accept g (Datatypes.S fuel) n st depth = Ok (ROk n, st).
Proof. exact @undefined_bare. Qed.
Print Assumptions C55_undefined_nonterminal.

Theorem C55_brackets_refuted : exists g n, refers g n /\ ~ has_lhs g n /\
  (exists script, generate_random script_rng (fun _ _ => true) g 20 script = Ok (ROk n, [])) /\
  forall S (choose : S -> nat -> production -> nat -> res (option expression * S)) accept fuel st w st',
    lawful choose -> generate choose accept g fuel st = Ok (ROk w, st') -> w <> display_term (Nonterminal n).
Proof. exact undef_brackets. Qed.
Print Assumptions C55_brackets_refuted.

(** And where every alternative of the first rule needs such a nonterminal, nothing is printed:
    an error is returned. *)
Theorem C55_error_refuted : exists g n, refers g n /\ ~ has_lhs g n /\
  forall S (choose : S -> nat -> production -> nat -> res (option expression * S)) accept fuel st,
    generate choose accept g fuel st = Ok (RErr (GenerateError msg_not_terminating), st).
Proof. exact undef_error. Qed.
Print Assumptions C55_error_refuted.

Example C55_example : ~ has_lhs undef_grammar (lit "undef") /\
  generate_random script_rng (fun _ _ => true) undef_grammar 20 [1] = Ok (ROk (lit "undef"), []).
Proof. exact undef_example. Qed.

(** C56: README.md:25-26: an optional ';' indicates the end of a production. *)

(** Texts in the same notation can be joined with a line break. *)
Theorem C56_concatenation : forall alphabetic N pg1 pg2 s1 s2 nl, alphabetic_ok alphabetic -> newline nl ->
  grammar_text alphabetic N pg1 s1 -> grammar_text alphabetic N pg2 s2 ->
  exists g, normalize_parsed_grammar (pg1 ++ pg2) = Ok g /\
    grammar_from_str alphabetic (s1 ++ nl :: s2) = Ok (ROk g).
Proof. exact read_concat. Qed.
Print Assumptions C56_concatenation.

(** In BNF a [;], with anything up to the end of the line, may stand between them. *)
Theorem C56_semicolon_line : forall alphabetic pg1 pg2 s1 s2 body nl,
  (forall c, In c body -> ~ newline c) -> newline nl ->
  grammar_text alphabetic Bnf pg1 s1 -> grammar_text alphabetic Bnf pg2 s2 ->
  grammar_text alphabetic Bnf (pg1 ++ pg2) (s1 ++ lit ";" ++ body ++ nl :: s2) /\
  grammar_text alphabetic Bnf pg1 (s1 ++ lit ";" ++ body).
Proof. exact semicolon_line. Qed.
Print Assumptions C56_semicolon_line.

(** But [;] does not end a production: what follows on the same line is lost. *)
Theorem C56_semicolon_refuted : forall alphabetic, exists s1 s2 g1 g2,
  grammar_from_str alphabetic s1 = Ok (ROk g1) /\ grammar_from_str alphabetic s2 = Ok (ROk g2) /\
  (exists g, grammar_from_str alphabetic (s1 ++ lit ";" ++ 10%N :: s2) = Ok (ROk g) /\ g = g1 ++ g2) /\
  grammar_from_str alphabetic (s1 ++ lit "; " ++ s2) = Ok (ROk g1) /\ g2 <> [].
Proof. exact semicolon_one_line. Qed.
Print Assumptions C56_semicolon_refuted.

(** And in ABNF it becomes part of a preceding name. *)
Theorem C56_abnf_semicolon_refuted : forall alphabetic, alphabetic_ok alphabetic ->
  alphabetic 97%N = true -> alphabetic 98%N = true ->
  grammar_from_str alphabetic (lit "a = b") = Ok (ROk [mkProd (N_ "a") [[N_ "b"]]]) /\
  grammar_from_str alphabetic (lit "a = b;") = Ok (ROk [mkProd (N_ "a") [[N_ "b;"]]]).
Proof. exact abnf_semicolon. Qed.
Print Assumptions C56_abnf_semicolon_refuted.

Example C56_example : grammar_text ascii_alpha Bnf bnf_parsed bnf_text /\
  grammar_text ascii_alpha Abnf bnf_parsed abnf_text /\ newline 10%N /\
  grammar_from_str ascii_alpha (lit "<a> ::= 'x' | <b>; end of a" ++ 10%N :: lit "<b> ::= 'y';") =
    Ok (ROk [mkProd (N_ "a") [[T_ "x"]; [N_ "b"]]; mkProd (N_ "b") [[T_ "y"]]]).
Proof. exact semicolon_example. Qed.

(** C57: only the alternatives matter to parsing, not how they are distributed over productions
    ([::=|], several productions for a nonterminal). *)
Theorem C57_alternatives : forall g g' start input it it' t,
  (forall a, In a (alternatives g) <-> In a (alternatives g')) ->
  opens g start input it -> opens g' start input it' ->
  (exists ts itf, produces it ts itf /\ In t ts) <-> (exists ts itf, produces it' ts itf /\ In t ts).
Proof. exact same_alternatives. Qed.
Print Assumptions C57_alternatives.

Theorem C57_multiplicity : forall g g' start input it it' ts ts' itf itf',
  Permutation (alternatives g) (alternatives g') ->
  opens g start input it -> produces it ts itf -> exhausted itf ->
  opens g' start input it' -> produces it' ts' itf' -> exhausted itf' ->
  Permutation ts ts'.
Proof. exact permuted_alternatives. Qed.
Print Assumptions C57_multiplicity.

Theorem C57_split : forall before after l es1 es2,
  alternatives (before ++ mkProd l (es1 ++ es2) :: after) =
  alternatives (before ++ mkProd l es1 :: mkProd l es2 :: after).
Proof. exact split_alternatives. Qed.
Print Assumptions C57_split.

(** The generator is different: it never uses a later production for the same nonterminal. *)
Theorem C57_generation_refuted : exists g g', (forall a, In a (alternatives g) <-> In a (alternatives g')) /\
  (exists script, generate_random script_rng (fun _ _ => true) g 20 script = Ok (ROk (lit "y"), [])) /\
  forall S (choose : S -> nat -> production -> nat -> res (option expression * S)) accept fuel st w st',
    lawful choose -> generate choose accept g' fuel st = Ok (ROk w, st') -> w = lit "x".
Proof. exact generation_ignores. Qed.
Print Assumptions C57_generation_refuted.

(** Two trees for <s>, written in one production and in three. *)
Example C57_example :
  let g := [mkProd (N_ "s") [[N_ "t"]; [N_ "u"]]; mkProd (N_ "t") [[T_ "x"]]; mkProd (N_ "u") [[T_ "x"]]] in
  let g' := [mkProd (N_ "s") [[N_ "u"]]; mkProd (N_ "t") [[T_ "x"]]; mkProd (N_ "u") [[T_ "x"]]; mkProd (N_ "s") [[N_ "t"]]] in
  Permutation (alternatives g) (alternatives g') /\
  exists it it' ts ts' itf itf', opens g (N_ "s") (lit "x") it /\ produces it ts itf /\ exhausted itf /\
    opens g' (N_ "s") (lit "x") it' /\ produces it' ts' itf' /\ exhausted itf' /\
    List.length ts = 2 /\ ts <> ts'.
Proof. exact split_example. Qed.

(** C58: README.md:124-125 promises an error for an infinite loop.  The guard accepts the grammar
    <s> ::= <s> <s> <s> | 'a', whose generation with the default strategy goes on for ever with
    positive probability: of the 2^n sequences of [n] coin tosses, at most 5/8 make it return. *)
Theorem C58_endless_generation_refuted : exists g,
  (forall fuel, 2 <= fuel -> terminates fuel g = Ok true) /\
  (exists script, generate_random script_rng (fun _ _ => true) g 20 script = Ok (ROk (lit "aaa"), [])) /\
  forall n (scripts : list (list nat)), NoDup scripts ->
    (forall s, In s scripts -> List.length s = n /\ (forall b, In b s -> b < 2) /\
       exists fuel r, generate_random script_rng (fun _ _ => true) g fuel s = Ok r) ->
    8 * List.length scripts <= 5 * 2 ^ n.
Proof. exact endless_generation. Qed.
Print Assumptions C58_endless_generation_refuted.

(** Of the eight sequences of three tosses, four make it return. *)
Example C58_example :
  map (fun s => match generate_random script_rng (fun _ _ => true) branching_grammar 50 s with Ok _ => true | _ => false end)
    (bit_scripts 3) = [false; false; false; false; true; true; true; true] /\
  generate_random script_rng (fun _ _ => true) branching_grammar 50 [0; 1; 0; 1; 1; 1; 1] = Ok (ROk (lit "aaaaa"), []).
Proof. vm_compute. auto. Qed.
