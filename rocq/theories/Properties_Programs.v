(** C95: the programs in examples/ and the benchmarks of parsing (benches/divan.rs), for every source of random
    numbers and every sentence.  The programs and the specifications are in Programs.v. *)
From Verif Require Import Programs ParseExamples TextExamples LinearSpec Facts_Linear PropTests TreeCost TreeSpec GenProofs Facts_Generation ProgramProofs.
From Coq Require Import Lia.
From Coq Require String.
Import String.StringSyntax.
Open Scope list_scope.

(** The texts are read as these grammars. *)
Theorem C95_texts : forall alphabetic plain,
  grammar_from_str_msg alphabetic (debug_str plain) example_text =
    Ok (ROk [mkProd (N_ "dna") [[N_ "base"]; [N_ "base"; N_ "dna"]]; mkProd (N_ "base") [[T_ "A"]; [T_ "C"]; [T_ "G"]; [T_ "T"]]]) /\
  grammar_from_str_msg alphabetic (debug_str plain) reversed_text =
    Ok (ROk [mkProd (N_ "base") [[T_ "A"]; [T_ "C"]; [T_ "G"]; [T_ "T"]]; mkProd (N_ "dna") [[N_ "base"]; [N_ "base"; N_ "dna"]]]) /\
  grammar_from_str alphabetic polish_text = Ok (ROk polish_grammar) /\
  grammar_from_str alphabetic nullable_text = Ok (ROk nullable_grammar).
Proof. exact program_texts. Qed.
Print Assumptions C95_texts.

(** examples/create_grammar.rs prints the grammar and some sequence of bases, nothing on standard error. *)
Theorem C95_create_grammar : forall alphabetic plain R (rng : rng_ops R) fuel r out err r', readable plain ->
  create_grammar alphabetic plain rng example_text fuel r = Ok ((out, err), r') ->
  err = [] /\ exists w, w <> [] /\ Forall (fun c => In c (lit "ACGT")) w /\ out = created w.
Proof. exact create_grammar_prints. Qed.
Print Assumptions C95_create_grammar.

(** Every sequence can be printed. *)
Theorem C95_create_every : forall alphabetic plain w, readable plain -> w <> [] -> Forall (fun c => In c (lit "ACGT")) w ->
  exists script k, forall fuel, k <= fuel ->
  create_grammar alphabetic plain script_rng example_text fuel script = Ok ((created w, []), []).
Proof. exact create_grammar_all. Qed.
Print Assumptions C95_create_every.

(** The other two examples print the picture of the tree of a sequence of bases and reject everything else. *)
Theorem C95_parse_tree : forall alphabetic plain ho text target sentence,
  text = example_text /\ target = None \/ text = reversed_text /\ target = Some (lit "dna") ->
  exists out, verdict sentence out /\ exists fuel0, forall fuel, fuel0 <= fuel ->
  parse_tree_example alphabetic plain ho target text sentence fuel =
    Ok (match target with
        | None => line (lit "Parsing input: " ++ sentence)
        | Some _ => line (lit "Parsing input with <dna>: " ++ sentence)
        end ++ out, []).
Proof. exact parse_tree_prints. Qed.
Print Assumptions C95_parse_tree.

(** The calculator: what is generated is an expression in Polish notation, which has one parse tree, found by
    linear work; a text that is none has no tree. *)
Theorem C95_polish_generated : forall R (rng : rng_ops R) fuel r x r',
  generate_random rng (fun _ _ => true) polish_grammar fuel r = Ok (x, r') ->
  exists e, well_spelled e /\ x = ROk (spelled e).
Proof. exact polish_generated. Qed.
Print Assumptions C95_polish_generated.

Theorem C95_polish_trees : forall input it, opens polish_grammar (N_ "product") input it ->
  (forall e, well_spelled e -> input = spelled e -> collects it [polish_tree e]) /\
  ((forall e, well_spelled e -> input <> spelled e) -> collects it []).
Proof. exact polish_runs. Qed.
Print Assumptions C95_polish_trees.

Theorem C95_polish_unambiguous : forall e e', well_spelled e -> well_spelled e' -> spelled e = spelled e' -> e = e'.
Proof. exact polish_injective. Qed.
Print Assumptions C95_polish_unambiguous.

Theorem C95_polish_work : forall input it ts it1, opens polish_grammar (N_ "product") input it -> produces it ts it1 ->
  List.length (tt_arena (s_tree (it_state it1))) <= 34 * S (List.length input).
Proof. exact polish_work. Qed.
Print Assumptions C95_polish_work.

(** The cycle: the first k trees run 0 to k - 1 times around it, in this order; building them takes 4 k^2
    lookups (C92). *)
Theorem C95_cycle : forall it, opens nullable_grammar (N_ "a") [] it -> forall k,
  (exists fuel0 it', forall fuel, fuel0 <= fuel -> take_trees fuel k it = Ok (map tower (seq 0 k), it')) /\
  list_sum (map lookups (map tower (seq 0 k))) = 4 * (k * k).
Proof. exact cycle_taken. Qed.
Print Assumptions C95_cycle.

(** GATTACA; "GATTACAX" is rejected; "*74"; the first three trees of the cycle. *)
Example C95_example :
  readable (fun _ => true) /\ Forall (fun c => In c (lit "ACGT")) (lit "GATTACA") /\
  create_grammar ascii_alpha (fun _ => true) script_rng example_text 20 [1; 2; 0; 3] =
    Ok ((utf8 "Successfully created Grammar!
Grammar structure:
"%string ++ example_structure ++ utf8 "

Generating a random DNA sequence:
Generated: GT
"%string, []), []) /\
  parse_tree_example ascii_alpha (fun _ => true) id_order None example_text (lit "GATTACA") 200 = Ok (utf8 "Parsing input: GATTACA
Parse tree:
<dna> ::= <base> <dna>
├── <base> ::= ""G""
│   └── ""G""
└── <dna> ::= <base> <dna>
    ├── <base> ::= ""A""
    │   └── ""A""
    └── <dna> ::= <base> <dna>
        ├── <base> ::= ""T""
        │   └── ""T""
        └── <dna> ::= <base> <dna>
            ├── <base> ::= ""T""
            │   └── ""T""
            └── <dna> ::= <base> <dna>
                ├── <base> ::= ""A""
                │   └── ""A""
                └── <dna> ::= <base> <dna>
                    ├── <base> ::= ""C""
                    │   └── ""C""
                    └── <dna> ::= <base>
                        └── <base> ::= ""A""
                            └── ""A""

"%string, []) /\
  parse_tree_example ascii_alpha (fun _ => true) id_order (Some (lit "dna")) reversed_text (lit "GATTACAX") 200 =
    Ok (utf8 "Parsing input with <dna>: GATTACAX
Grammar could not parse the sentence
"%string, []) /\
  well_spelled (Operation 42%N (Number 55%N) (Number 52%N)) /\ spelled (Operation 42%N (Number 55%N) (Number 52%N)) = lit "*74" /\
  trees_of polish_grammar (N_ "product") "*74" 1 = [polish_tree (Operation 42%N (Number 55%N) (Number 52%N))] /\
  map tree_size (map tower (seq 0 3)) = [2; 4; 6] /\
  trees_of nullable_grammar (N_ "a") "" 3 = map tower (seq 0 3).
Proof.
  split; [intros c _; reflexivity|]. split; [cbn; repeat constructor; cbn; tauto|].
  repeat match goal with |- _ /\ _ => split end; try (vm_compute; reflexivity); cbn; tauto.
Qed.
