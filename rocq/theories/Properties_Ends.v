(** C77: when generation is sure to end.  C78: the repository's tests of random generation. *)
From Coq Require Import Permutation.
From Verif Require Import EndsProofs Facts_Strategies TextExamples ParseExamples GenTests Facts_Ends.

(** Without recursion, generation succeeds with every strategy that always chooses. *)
Theorem C77_ends : forall S (choose : S -> nat -> production -> nat -> res (option expression * S)) g p rest n,
  always_chooses choose g -> g = p :: rest -> p_lhs p = Nonterminal n ->
  (forall x, refers g x -> has_lhs g x) -> (forall q, In q g -> p_rhs q <> [] /\ p_rhs q <> [[]]) -> ~ recursive g n ->
  forall fuel st, List.length g < fuel -> exists w st', generate_with_strategy choose g fuel st = Ok (ROk w, st').
Proof. exact C77_ends_proof. Qed.
Print Assumptions C77_ends.

Theorem C77_strategies : forall R (rng : rng_ops R) g, (forall q, In q g -> p_rhs q <> []) ->
  always_chooses (random_walk rng) g /\ (forall max, always_chooses (depth_bounded rng max) g) /\
  always_chooses (coverage_guided rng) g /\ (forall rec nonrec, always_chooses (weighted rng false rec nonrec) g).
Proof. exact C77_strategies_proof. Qed.
Print Assumptions C77_strategies.

(** With recursion, there is a source with which the random walk never ends. *)
Theorem C77_endless : forall g p rest n,
  g = p :: rest -> p_lhs p = Nonterminal n -> distinct_lhs g -> no_lone_epsilon g ->
  (forall x, refers g x -> has_lhs g x) -> (forall x, has_lhs g x -> exists w, generates g x w) -> recursive g n ->
  exists R (rng : rng_ops R) r, forall fuel, generate_random rng (fun _ _ => true) g fuel r = OutOfFuel.
Proof. exact C77_endless_proof. Qed.
Print Assumptions C77_endless.

(** Every character of a sentence comes from a terminal; and no sentence is empty if no alternative and no terminal is. *)
Theorem C77_letters : forall S (choose : S -> nat -> production -> nat -> res (option expression * S)) accept g fuel st w st',
  lawful choose -> (forall x, refers g x -> has_lhs g x) -> generate choose accept g fuel st = Ok (ROk w, st') ->
  (forall c, In c w -> letter g c) /\
  ((forall p e, In p g -> In e (p_rhs p) -> e <> [] /\ ~ In (Terminal []) e) -> w <> []).
Proof. exact C77_letters_proof. Qed.
Print Assumptions C77_letters.

(** [small] is <s> ::= <a> <a> | 'x' ; <a> ::= 'y' | 'z', [dna] the grammar of the documentation. *)
Example C77_example :
  (forall q, In q small -> p_rhs q <> [] /\ p_rhs q <> [[]]) /\ (forall x, refers small x -> has_lhs small x) /\
  ~ recursive small (lit "s") /\
  generate_with_strategy (random_walk script_rng) small 3 [0; 1; 0] = Ok (ROk (lit "zy"), []) /\
  (distinct_lhs dna /\ no_lone_epsilon dna /\ (forall x, refers dna x -> has_lhs dna x) /\
   (forall x, has_lhs dna x -> exists w, generates dna x w) /\ recursive dna (lit "dna")) /\
  (exists st', generate (random_walk script_rng) (pure_callback (fun _ _ => true)) dna 9 [1; 2; 0; 3] = Ok (ROk (lit "GT"), st')).
Proof.
  split; [intros q [<-|[<-|[]]]; split; discriminate|]. split; [apply (validate_closed id_order); reflexivity|].
  split; [apply small_not_recursive|]. split; [reflexivity|]. split; [exact dna_conditions|]. eexists. vm_compute. reflexivity.
Qed.

(** C78: src/grammar.rs:1156-1178, with every source of randomness. *)
Theorem C78_groups : forall alphabetic, exists g, grammar_from_str alphabetic groups_text = Ok (ROk g) /\
  forall R (rng : rng_ops R) r fuel, 7 <= fuel ->
  exists w r', generate_random rng (fun _ _ => true) g fuel r = Ok (ROk w, r') /\ In w [lit "a"; lit "b"; lit "ac"; lit "bc"].
Proof. exact C78_groups_proof. Qed.
Print Assumptions C78_groups.

(** src/grammar.rs:1237-1255 *)
Theorem C78_depth_bounded : forall alphabetic, exists g, grammar_from_str alphabetic nest_text = Ok (ROk g) /\
  forall R (rng : rng_ops R) r fuel, 4 <= fuel ->
  exists w r', generate_with_strategy (depth_bounded rng 1) g fuel r = Ok (ROk w, r') /\ In w [lit "a"; lit "(a)"].
Proof. exact C78_depth_bounded_proof. Qed.
Print Assumptions C78_depth_bounded.

(** src/grammar.rs:1257-1276, for every number of alternatives: each is generated once before one comes again. *)
Theorem C78_coverage : forall R (rng : rng_ops R) n ts fuel k r, ts <> [] -> 2 <= fuel ->
  exists outs c', generations (coverage_guided rng) [mkProd (Nonterminal n) (map (fun t => [Terminal t]) ts)] fuel k (mkCov [] r) = Ok (map ROk outs, c') /\
    List.length outs = k /\ incl outs ts /\ (List.length ts <= k -> Permutation (firstn (List.length ts) outs) ts).
Proof. exact C78_coverage_proof. Qed.
Print Assumptions C78_coverage.

Theorem C78_abc : forall alphabetic, grammar_from_str alphabetic abc_text =
  Ok (ROk [mkProd (nt "s") (map (fun t => [Terminal t]) [lit "a"; lit "b"; lit "c"])]).
Proof. exact C78_abc_proof. Qed.
Print Assumptions C78_abc.

(** src/grammar.rs:1220-1235, 1679-1709, src/generation.rs:397-410, with every strategy. *)
Theorem C78_letters : forall alphabetic text letters,
  In (text, letters) [(dna_text, lit "ACGT"); (x_text, lit "x"); (names_text, utf8 "😀😍αβ"%string)] ->
  exists g, grammar_from_str alphabetic text = Ok (ROk g) /\
  forall S (choose : S -> nat -> production -> nat -> res (option expression * S)) accept fuel st w st', lawful choose ->
    generate choose accept g fuel st = Ok (ROk w, st') -> w <> [] /\ forall c, In c w -> In c letters.
Proof. exact C78_letters_proof. Qed.
Print Assumptions C78_letters.

(** src/generation.rs:427-451: ten of the eleven possible draws select the second alternative; ... *)
Theorem C78_subtract : forall R (rng : rng_ops R) checks r addr depth, fst (draw_u32 rng r 11) <> 0%N ->
  weighted rng checks 1 10 r addr subtract_production depth = Ok (Some [tm "a"], snd (draw_u32 rng r 11)).
Proof. exact C78_subtract_proof. Qed.
Print Assumptions C78_subtract.

(** ... with a source that draws the eleventh for ever it is never selected. *)
Theorem C78_subtract_refuted : exists R (rng : rng_ops R) r, forall addr depth,
  weighted rng true 1 10 r addr subtract_production depth = Ok (Some [nt "s"], r).
Proof. exact C78_subtract_refuted_proof. Qed.
Print Assumptions C78_subtract_refuted.

(** src/grammar.rs:1278-1308: the average lengths may come out the other way round. *)
Theorem C78_average_refuted : exists g, grammar_from_str ascii_alpha x_text = Ok (ROk g) /\
  exists R (rng : rng_ops R) r1 r2 heavy light r1' r2',
    generations (weighted rng true 100 1) g 10 20 r1 = Ok (heavy, r1') /\
    generations (weighted rng true 1 100) g 10 20 r2 = Ok (light, r2') /\
    List.length heavy = 20 /\ List.length light = 20 /\ average heavy = 1 /\ average light = 2.
Proof. exact C78_average_refuted_proof. Qed.
Print Assumptions C78_average_refuted.

Example C78_example : exists c',
  generations (coverage_guided script_rng) [mkProd (nt "s") (map (fun t => [Terminal t]) [lit "a"; lit "b"; lit "c"])] 2 4 (mkCov [] [1; 1; 0; 2]) =
    Ok (map ROk [lit "b"; lit "c"; lit "a"; lit "c"], c').
Proof. eexists. vm_compute. reflexivity. Qed.
