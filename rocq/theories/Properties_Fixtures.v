(** C75: the grammar of BNF in BNF (tests/fixtures).  [simple_text g w] (Fixtures.v) says, without
    that grammar, that [w] is a list of rules, one to a line, denoting [g]. *)
From Verif Require Import TextExamples GenProofs StrategyProofs Facts_Strategies Strategies Fixtures FixtureProofs Facts_Fixtures.
From Coq Require String.
Import String.StringSyntax.

(** Both files are read as the same grammar. *)
Theorem C75_fixtures : grammar_from_str ascii_alpha fixture_bnf = Ok (ROk meta_grammar) /\
  grammar_from_str ascii_alpha fixture_abnf = Ok (ROk meta_grammar).
Proof. exact C75_fixtures_proof. Qed.
Print Assumptions C75_fixtures.

(** Its sentences are exactly the simple texts. *)
Theorem C75_language : forall w, generates meta_grammar (lit "syntax") w <-> exists g, simple_text g w.
Proof. exact C75_language_proof. Qed.
Print Assumptions C75_language.

(** Each sentence is accepted as a grammar text, and read as the grammar it denotes. *)
Theorem C75_accepted : forall alphabetic w, alphabetic_ok alphabetic -> generates meta_grammar (lit "syntax") w ->
  exists g, simple_text g w /\ grammar_from_str alphabetic w = Ok (ROk g).
Proof. exact C75_accepted_proof. Qed.
Print Assumptions C75_accepted.

(** In particular whatever is generated from it, with any lawful strategy and callback. *)
Theorem C75_generated : forall alphabetic S (choose : S -> nat -> production -> nat -> res (option expression * S)) accept fuel st w st',
  alphabetic_ok alphabetic -> lawful choose -> generate choose accept meta_grammar fuel st = Ok (ROk w, st') ->
  exists g, simple_text g w /\ grammar_from_str alphabetic w = Ok (ROk g).
Proof. exact C75_generated_proof. Qed.
Print Assumptions C75_generated.

(** And every simple text is generated by some choices. *)
Theorem C75_all_generated : forall g w, simple_text g w ->
  exists script k, forall fuel, k <= fuel ->
    generate_random script_rng (fun _ _ => true) meta_grammar fuel script = Ok (ROk w, []).
Proof. exact C75_all_generated_proof. Qed.
Print Assumptions C75_all_generated.

(** The strategies of the library never report an error on it. *)
Theorem C75_no_error : forall R (rng : rng_ops R) fuel x,
  (forall accept r st', generate (random_walk rng) accept meta_grammar fuel r <> Ok (RErr x, st')) /\
  (forall max accept r st', generate (depth_bounded rng max) accept meta_grammar fuel r <> Ok (RErr x, st')) /\
  (forall accept c st', generate (coverage_guided rng) accept meta_grammar fuel c <> Ok (RErr x, st')) /\
  (forall checks rec nonrec accept r st', generate (weighted rng checks rec nonrec) accept meta_grammar fuel r <> Ok (RErr x, st')).
Proof. exact C75_no_error_proof. Qed.
Print Assumptions C75_no_error.

(** The parser of the library, run with this grammar, recognizes the simple texts. *)
Theorem C75_recognized : forall w it, opens meta_grammar (nt "syntax") w it ->
  ((exists fuel t it', iter_next fuel it = Ok (Some t, it')) <-> exists g, simple_text g w).
Proof. exact C75_recognized_proof. Qed.
Print Assumptions C75_recognized.

(** What is displayed of a grammar with simple names and strings is a sentence. *)
Theorem C75_displayed : forall g, simple_grammar g -> generates meta_grammar (lit "syntax") (display_grammar g).
Proof. exact C75_displayed_proof. Qed.
Print Assumptions C75_displayed.

(** The grammar does not describe itself: it is displayed as a text which is read back, but which
    is not one of its sentences, because of the line break in the string of <EOL>. *)
Theorem C75_self_description_refuted : exists g, grammar_from_str ascii_alpha fixture_bnf = Ok (ROk g) /\
  grammar_from_str ascii_alpha (display_grammar g) = Ok (ROk g) /\ ~ generates g (lit "syntax") (display_grammar g).
Proof. exact C75_self_refuted_proof. Qed.
Print Assumptions C75_self_description_refuted.

Example C75_example :
  let g := [mkProd (nt "list") [[tm "x'y"]; [tm "say ""; {{"; nt "list"]]; mkProd (nt "b-2") [[tm ""]]] in
  simple_grammar g /\ generates meta_grammar (lit "syntax") (display_grammar g) /\
  grammar_from_str ascii_alpha (display_grammar g) = Ok (ROk g) /\
  simple_text [mkProd (nt "a") [[tm ""]]] (lit "<a>::=''" ++ [10%N]) /\
  generate_random script_rng (fun _ _ => true) meta_grammar 2000
    [0; 0; 0; 0; 26; 0; 0; 0; 0; 0; 1; 0; 0; 0; 0] = Ok (ROk (lit "<a>::=''" ++ [10%N]), []).
Proof.
  cbv zeta.
  assert (H : simple_grammar [mkProd (nt "list") [[tm "x'y"]; [tm "say ""; {{"; nt "list"]]; mkProd (nt "b-2") [[tm ""]]]) by exact simple_grammar_example.
  split; [exact H|]. split; [exact (C75_displayed_proof _ H)|]. split; [vm_compute; reflexivity|].
  split; [exact tiny_text|]. vm_compute. reflexivity.
Qed.
