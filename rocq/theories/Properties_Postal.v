(** C93, C94: the benchmarks that generate postal addresses and parse them.  The grammar is in Postal.v;
    [average_draws] is in ExpectSpec.v. *)
From Verif Require Import Postal TextExamples ParseExamples PropTests StrategyProofs Facts_Strategies Facts_Walks Facts_Expect PostalProofs PostalTrees.
From Coq Require Import Lia.
From Coq Require String.
Import String.StringSyntax.
Open Scope list_scope.

(** The file is read as this grammar. *)
Theorem C93_file : grammar_from_str ascii_alpha postal_text = Ok (ROk postal_grammar).
Proof. exact postal_read. Qed.
Print Assumptions C93_file.

(** No strategy of the library reports an error on it, so no [unwrap] of a generated address fails. *)
Theorem C93_unwrap : forall R (rng : rng_ops R) fuel x,
  (forall accept r st', generate (random_walk rng) accept postal_grammar fuel r <> Ok (RErr x, st')) /\
  (forall max accept r st', generate (depth_bounded rng max) accept postal_grammar fuel r <> Ok (RErr x, st')) /\
  (forall accept c st', generate (coverage_guided rng) accept postal_grammar fuel c <> Ok (RErr x, st')) /\
  (forall checks rec nonrec accept r st', generate (weighted rng checks rec nonrec) accept postal_grammar fuel r <> Ok (RErr x, st')).
Proof. exact C93_unwrap_proof. Qed.
Print Assumptions C93_unwrap.

(** RandomWalk takes at most 58.25 random numbers on average. *)
Theorem C93_random_walk : forall base len, Nat.divide 260 base ->
  average_draws (fun f fuel => generate_random (stream_rng f) (fun _ _ => true) postal_grammar fuel 0) base len 4 233.
Proof. exact C93_random_walk_proof. Qed.
Print Assumptions C93_random_walk.

(** DepthBounded takes no more, whatever its limit. *)
Theorem C93_depth_bounded : forall max base len, Nat.divide 780 base ->
  average_draws (fun f fuel => generate (depth_bounded (stream_rng f) max) (pure_callback (fun _ _ => true)) postal_grammar fuel 0) base len 4 233.
Proof. exact C93_depth_bounded_proof. Qed.
Print Assumptions C93_depth_bounded.

(** CoverageGuided takes at most 272, whatever it has seen before. *)
Theorem C93_coverage_guided : forall seen base len, Nat.divide 260 base ->
  average_draws (fun f fuel => let* (r, c) := generate (coverage_guided (stream_rng f)) (pure_callback (fun _ _ => true)) postal_grammar fuel (mkCov seen 0) in
                               Ok (r, c_rng c)) base len 4 1088.
Proof. exact C93_coverage_proof. Qed.
Print Assumptions C93_coverage_guided.

(** Weighted with the weights of the benchmark, 100 and 1, takes at most 52033.25. *)
Theorem C93_weighted : forall checks base len, Nat.divide (N.to_nat 26260) base ->
  average_draws (fun f fuel => generate (weighted (stream_rng f) checks 100 1) (pure_callback (fun _ _ => true)) postal_grammar fuel 0)
    base len 4 (N.to_nat 208133).
Proof. exact C93_weighted_proof. Qed.
Print Assumptions C93_weighted.

(** With the numbers 0, 0, 0, ... the address takes 33 of them. *)
Example C93_example : Nat.divide 260 260 /\ Nat.divide 780 780 /\ Nat.divide (N.to_nat 26260) (N.to_nat 26260) /\
  generate_random (stream_rng (fun _ => 0)) (fun _ _ => true) postal_grammar 100 0 = Ok (ROk (lit "A.ASr.;0A0;A,AA00000;"), 33).
Proof. split; [apply Nat.divide_refl|]. split; [apply Nat.divide_refl|]. split; [apply Nat.divide_refl|]. vm_compute. reflexivity. Qed.

(** The parser is built, every iteration of the benchmark ends, with exactly the parse trees of the address; and a
    generated address has at least one. *)
Theorem C94_ends : forall ho, exists p, build_parser ho postal_grammar = ROk p /\
  (forall w, exists it ts, parse_input p w = Ok it /\ grammar_parse_input postal_grammar w = Ok it /\ collects it ts /\
     forall t, In t ts <-> parses postal_grammar (N_ "postal-address") w t) /\
  forall S (choose : S -> nat -> production -> nat -> res (option expression * S)) accept fuel st w st', lawful choose ->
    generate choose accept postal_grammar fuel st = Ok (ROk w, st') ->
    forall it ts, parse_input p w = Ok it -> collects it ts -> ts <> [].
Proof. exact C94_ends_proof. Qed.
Print Assumptions C94_ends.

(** But the average number of trees of a random address has no bound: for every [B] there is a number [len] of draws
    such that already the addresses [R] returned within them have, on average over all lists of [len]
    numbers below [base], at least [B] trees. *)
Theorem C94_trees : forall ho p base, build_parser ho postal_grammar = ROk p -> 0 < base -> Nat.divide 260 base ->
  forall B, exists len (R : list (list nat * list ptree)), NoDup (map fst R) /\
    (forall s ts, In (s, ts) R -> In s (scripts base len) /\ exists fuel w l it, l <= len /\
       generate_random (stream_rng (source s)) (fun _ _ => true) postal_grammar fuel 0 = Ok (ROk w, l) /\
       parse_input p w = Ok it /\ collects it ts) /\
    B * base ^ len <= list_sum (map (fun x => List.length (snd x)) R).
Proof. exact C94_trees_proof. Qed.
Print Assumptions C94_trees.

(** The name ABA: three trees, from A BA, AB A and A B A. *)
Example C94_example : (exists p, build_parser id_order postal_grammar = ROk p) /\
  List.length (trees_of postal_grammar (N_ "postal-address") "ABA;0A;A,AA00000;" 5) = 3.
Proof. split; [eexists; vm_compute; reflexivity|vm_compute; reflexivity]. Qed.
