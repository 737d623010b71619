(** C107: seeds.  The model is Seeding.v: [std_rng] is any generator with seeds, [sys_rng] that of the system; [after] is the
    caller's generator after 32 bytes were taken from it, [strategy_of] the strategy seeded with these bytes. *)
From Verif Require Import Facts_Seeding ParseExamples.

(** Every entry point is RandomWalk with a seed of 32 bytes from the given generator; [generate] and [generate_callback] take
    their generator's seed from the system. *)
Theorem C107_entry_points : forall R T (std : std_rng R) (sys : sys_rng T) g fuel,
  (forall r, generate_seeded std g fuel r =
     let* (x, _) := generate_random (std_ops std) (fun _ _ => true) g fuel (strategy_of std r) in Ok (x, after std r)) /\
  (forall C f r (c : C), generate_seeded_callback std (fun c n w => (f n w, c)) g fuel r c =
     let* (x, _) := generate_random (std_ops std) f g fuel (strategy_of std r) in Ok (x, after std r, c)) /\
  (forall C f t (c : C), generate_callback std sys (fun c n w => (f n w, c)) g fuel t c =
     let* (x, _) := generate_random (std_ops std) f g fuel (strategy_of std (from_seed std (fst (sys_fill sys t)))) in
     Ok (x, snd (sys_fill sys t), c)) /\
  (forall t, generate_fresh std sys g fuel t =
     let* (x, _) := generate_random (std_ops std) (fun _ _ => true) g fuel (strategy_of std (from_seed std (fst (sys_fill sys t)))) in
     Ok (x, snd (sys_fill sys t))).
Proof. exact C107_entry_points_proof. Qed.
Print Assumptions C107_entry_points.

(** A sentence takes 32 bytes from the caller's generator, whatever the grammar, the callback (also one with a state) and the
    outcome. *)
Theorem C107_generator : forall R T (std : std_rng R) (sys : sys_rng T),
  (forall g fuel r x r', generate_seeded std g fuel r = Ok (x, r') -> r' = after std r) /\
  (forall C (accept : C -> str -> str -> bool * C) g fuel r c x r' c',
     generate_seeded_callback std accept g fuel r c = Ok (x, r', c') -> r' = after std r) /\
  (forall C (accept : C -> str -> str -> bool * C) g fuel t c x t' c',
     generate_callback std sys accept g fuel t c = Ok (x, t', c') -> t' = snd (sys_fill sys t)).
Proof. exact C107_generator_proof. Qed.
Print Assumptions C107_generator.

(** The callback, which may keep a state of its own, is called one time after the other; the last call is the one that accepts
    the sentence. *)
Theorem C107_calls : forall R (std : std_rng R) C (accept : C -> str -> str -> bool * C) g fuel r c x r' c',
  generate_seeded_callback std accept g fuel r c = Ok (x, r', c') ->
  exists log, calls accept c log c' /\
    forall w, x = ROk w -> exists n p rest before, g = p :: rest /\ p_lhs p = Nonterminal n /\ log = before ++ [(n, w, true)].
Proof. exact C107_calls_proof. Qed.
Print Assumptions C107_calls.

(** One sentence after the other from the same generator: the i-th is RandomWalk with the i-th block of 32 bytes. *)
Theorem C107_sentences : forall R (std : std_rng R) fuel gs r xs r',
  seeded_sentences std fuel gs r = Ok (xs, r') <->
  r' = Nat.iter (List.length gs) (after std) r /\ List.length xs = List.length gs /\
  forall i g, nth_error gs i = Some g -> exists x rest, nth_error xs i = Some x /\
    generate_random (std_ops std) (fun _ _ => true) g fuel (strategy_of std (Nat.iter i (after std) r)) = Ok (x, rest).
Proof. exact @sentences_exact. Qed.
Print Assumptions C107_sentences.

(** So it depends on the generator and its position only, not on what the other calls generate. *)
Theorem C107_position : forall R (std : std_rng R) fuel fuel' gs gs' r xs r1 xs' r1' i,
  seeded_sentences std fuel gs r = Ok (xs, r1) -> seeded_sentences std fuel' gs' r = Ok (xs', r1') ->
  i < List.length gs -> nth_error gs i = nth_error gs' i -> nth_error xs i = nth_error xs' i.
Proof. exact C107_position_proof. Qed.
Print Assumptions C107_position.

(** This is not so when one strategy is used for several sentences. *)
Theorem C107_reuse_refuted : exists R (std : std_rng R) g fuel r x1 x2 r' y2 s1 s2,
  seeded_sentences std fuel [g; g] r = Ok ([ROk x1; ROk x2], r') /\
  generate_with_strategy (random_walk (std_ops std)) g fuel (strategy_of std r) = Ok (ROk x1, s1) /\
  generate_with_strategy (random_walk (std_ops std)) g fuel s1 = Ok (ROk y2, s2) /\ x2 <> y2.
Proof. exact C107_reuse_refuted_proof. Qed.
Print Assumptions C107_reuse_refuted.

(** [CoverageGuided::new], [Weighted::new] and their defaults always have the seed 0; only [RandomWalk::default] and
    [DepthBounded::new] ask the system for one. *)
Theorem C107_constructors : forall R T (std : std_rng R) (sys : sys_rng T),
  seed_ok zero_seed /\ Forall (eq 0%N) zero_seed /\
  coverage_new std = coverage_from_seed std zero_seed /\ coverage_default std = coverage_from_seed std zero_seed /\
  weighted_default std = weighted_from_seed std 100 1 zero_seed /\
  (forall rec nonrec, weighted_new std rec nonrec = weighted_from_seed std rec nonrec zero_seed) /\
  (forall t s t', sys_fill sys t = (s, t') ->
     random_walk_default std sys t = (random_walk_from_seed std s, t') /\
     forall max, depth_bounded_new std sys max t = (depth_bounded_from_seed std max s, t')) /\
  forall s, random_walk_from_seed std s = from_seed std s /\ c_seen (coverage_from_seed std s) = [] /\ c_rng (coverage_from_seed std s) = from_seed std s /\
    (forall max, max_depth (depth_bounded_from_seed std max s) = max /\ d_rng (depth_bounded_from_seed std max s) = from_seed std s) /\
    forall rec nonrec, let w := weighted_from_seed std rec nonrec s in
      recursive_weight w = rec /\ non_recursive_weight w = nonrec /\ w_rng w = from_seed std s.
Proof. exact C107_constructors_proof. Qed.
Print Assumptions C107_constructors.

(** The structs with their public fields generate as [depth_bounded] and [weighted] (Strategies.v) with these values, and keep
    the fields. *)
Theorem C107_structs : forall R (std : std_rng R) f g fuel r,
  (forall max, generate (choose_depth_bounded std) (pure_callback f) g fuel (mkDepth max r) =
     through (mkDepth max) (generate (depth_bounded (std_ops std) max) (pure_callback f) g fuel r)) /\
  (forall checks rec nonrec, generate (choose_weighted std checks) (pure_callback f) g fuel (mkWeighted rec nonrec r) =
     through (mkWeighted rec nonrec) (generate (weighted (std_ops std) checks rec nonrec) (pure_callback f) g fuel r)).
Proof. exact C107_structs_proof. Qed.
Print Assumptions C107_structs.

(** Three sentences from one generator; in the second list the first grammar is refused by the guard, and the others are the
    same.  The callback of the last one counts its calls and refuses the first two. *)
Example C107_example :
  let r := [0; 1; 1] ++ repeat 0 29 ++ [1] ++ repeat 0 31 ++ [0; 0; 1; 1; 1] ++ repeat 7 27 ++ [9] in
  let stuck := [mkProd (N_ "s") [[N_ "s"]]] in
  seeded_sentences listed 9 [sum_grammar; sum_grammar; sum_grammar] r =
    Ok ([ROk (lit "a+a"); ROk (lit "a"); ROk (lit "a+a+a")], [9]) /\
  seeded_sentences listed 9 [stuck; sum_grammar; sum_grammar] r =
    Ok ([RErr (GenerateError msg_not_terminating); ROk (lit "a"); ROk (lit "a+a+a")], [9]) /\
  generate_seeded_callback listed (fun c _ _ => (Nat.leb 2 c, S c)) sum_grammar 9 ([1; 1; 1] ++ repeat 0 29 ++ [8]) 0 = Ok (ROk (lit "a"), [8], 3) /\
  generate_fresh listed listed_sys sum_grammar 9 ([0; 1; 1] ++ repeat 0 29 ++ [5]) =
    Ok (ROk (lit "a+a"), [5]) /\
  weighted_new listed 7 3 = mkWeighted 7 3 (repeat 0 32) /\
  depth_bounded_new listed listed_sys 4 ([6; 5] ++ repeat 1 30 ++ [2]) = (mkDepth 4 ([6; 5] ++ repeat 1 30), [2]).
Proof. repeat split; vm_compute; reflexivity. Qed.
