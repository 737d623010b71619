(** C22-C25: the built-in strategies.  [rng] ranges over all random streams. *)
From Coq Require Import Permutation.
From Verif Require Import Facts_Strategies ParseExamples StrategyProofs.

(** C22 *)
Theorem C22_random_walk : forall R (rng : rng_ops R) r addr p depth, p_rhs p <> [] ->
  exists e r', random_walk rng r addr p depth = Ok (Some e, r') /\ In e (p_rhs p).
Proof. exact C22_random_walk_proof. Qed.
Print Assumptions C22_random_walk.

Theorem C22_depth_bounded : forall R (rng : rng_ops R) max r addr p depth, p_rhs p <> [] ->
  exists e r', depth_bounded rng max r addr p depth = Ok (Some e, r') /\ In e (p_rhs p).
Proof. exact C22_depth_bounded_proof. Qed.
Print Assumptions C22_depth_bounded.

Theorem C22_coverage_guided : forall R (rng : rng_ops R) c addr p depth, p_rhs p <> [] ->
  exists e c', coverage_guided rng c addr p depth = Ok (Some e, c') /\ In e (p_rhs p).
Proof. exact C22_coverage_guided_proof. Qed.
Print Assumptions C22_coverage_guided.

(** [checks]: compiled with overflow checks (debug profile).  [nsum] is the sum of a list. *)
Theorem C22_weighted : forall R (rng : rng_ops R) checks rec nonrec r addr p depth, p_rhs p <> [] ->
  checks = false \/ (nsum (fill_weights rec nonrec p) < 2 ^ 32)%N ->
  exists e r', weighted rng checks rec nonrec r addr p depth = Ok (Some e, r') /\ In e (p_rhs p).
Proof. exact C22_weighted_proof. Qed.
Print Assumptions C22_weighted.

Theorem C22_weighted_overflow_refuted : exists p, p_rhs p <> [] /\
  forall R (rng : rng_ops R) r addr depth, weighted rng true 4294967295 4294967295 r addr p depth = Panic.
Proof. exact C22_weighted_overflow_refuted_proof. Qed.
Print Assumptions C22_weighted_overflow_refuted.

(** Generation with these strategies never panics, whatever the grammar. *)
Theorem C22_generation_no_panic : forall R (rng : rng_ops R) g fuel,
  (forall accept r, generate (random_walk rng) accept g fuel r <> Panic) /\
  (forall max accept r, generate (depth_bounded rng max) accept g fuel r <> Panic) /\
  (forall accept c, generate (coverage_guided rng) accept g fuel c <> Panic) /\
  (forall rec nonrec accept r, generate (weighted rng false rec nonrec) accept g fuel r <> Panic).
Proof. exact C22_generation_no_panic_proof. Qed.
Print Assumptions C22_generation_no_panic.

Example C22_example :
  random_walk script_rng [1] 0 two_alts 0 = Ok (Some [T_ "b"], []) /\
  weighted (const_rng 100) true 100 1 tt 0 two_alts 0 = Ok (Some [T_ "b"], tt) /\
  (nsum (fill_weights 100 1 two_alts) < 2 ^ 32)%N.
Proof. repeat split. Qed.

(** C23 *)
Theorem C23_terminals_at_depth : forall R (rng : rng_ops R) max r addr p depth e r',
  max <= depth -> (exists e', In e' (p_rhs p) /\ forall n, ~ In (Nonterminal n) e') ->
  depth_bounded rng max r addr p depth = Ok (Some e, r') ->
  In e (p_rhs p) /\ forall n, ~ In (Nonterminal n) e.
Proof. exact C23_terminals_at_depth_proof. Qed.
Print Assumptions C23_terminals_at_depth.

Theorem C23_generation_bounded : forall R (rng : rng_ops R) max_depth g,
  (forall p, In p g -> exists e, In e (p_rhs p) /\ forall n, ~ In (Nonterminal n) e) ->
  exists fuel bound, forall st, exists r st',
    generate_with_strategy (depth_bounded rng max_depth) g fuel st = Ok (r, st') /\
    forall w, r = ROk w -> List.length w <= bound.
Proof. exact C23_generation_bounded_proof. Qed.
Print Assumptions C23_generation_bounded.

Example C23_example :
  (forall p, In p [two_alts] -> exists e, In e (p_rhs p) /\ forall n, ~ In (Nonterminal n) e) /\
  generate_with_strategy (depth_bounded (const_rng 0) 3) [two_alts] 10 tt = Ok (ROk (lit "baaa"), tt).
Proof.
  split; [|reflexivity]. intros p [<-|[]]. exists [T_ "b"]. split; [right; left; reflexivity|].
  intros n [E|[]]. discriminate.
Qed.

(** <s> ::= <s> <t> | <t> ; <t> ::= 'a' : every nonterminal is productive, but <s> has no
    alternative without nonterminals.  With a stream that keeps drawing 0, DepthBounded runs for
    ever whatever the depth limit. *)
Theorem C23_termination_refuted : exists g,
  (forall p, In p g -> p_rhs p <> []) /\ terminates 5 g = Ok true /\
  forall max f fuel, generate (depth_bounded (const_rng 0) max) (pure_callback f) g fuel tt = OutOfFuel.
Proof. exact C23_termination_refuted_proof. Qed.
Print Assumptions C23_termination_refuted.

(** C24: a history of [choose] calls on one strategy, any interleaving of productions.  The
    first [length (p_rhs p)] answers for [p] are its alternatives in some order ([rest] are the
    alternatives not reached yet). *)
Theorem C24_coverage : forall R (rng : rng_ops R) a p c calls es c',
  p_rhs p <> [] ->
  (forall addr q depth, In (addr, q, depth) calls -> addr = a -> q = p) ->
  (forall i, ~ In (a, i) (c_seen c)) ->
  coverage_run rng c calls = Ok (es, c') ->
  exists rest,
    Permutation (firstn (List.length (p_rhs p)) (answers_for a calls es) ++ rest) (map Some (p_rhs p)) /\
    (List.length (p_rhs p) <= List.length (answers_for a calls es) -> rest = []).
Proof. exact C24_coverage_proof. Qed.
Print Assumptions C24_coverage.

(** Two productions interleaved, with a stream that always draws the first candidate. *)
Example C24_example :
  let p := two_alts in let q := mkProd (N_ "t") [[T_ "c"]; [T_ "d"]; [T_ "e"]] in
  exists c', coverage_run (const_rng 0) (mkCov [] tt) [(0, p, 0); (1, q, 1); (0, p, 0); (1, q, 2); (1, q, 0); (0, p, 1)] =
    Ok (map Some [[N_ "s"; T_ "a"]; [T_ "c"]; [T_ "b"]; [T_ "d"]; [T_ "e"]; [N_ "s"; T_ "a"]], c').
Proof. eexists. reflexivity. Qed.

(** The strategy identifies a production by the address of its left hand side.  When another
    grammar is stored at the same address (after the first one is dropped or moved), its
    alternatives count as covered: the claim is false across grammars. *)
Theorem C24_address_reuse_refuted : exists p q,
  forall a, exists es c', coverage_run (const_rng 0) (mkCov [] tt) [(a, p, 0); (a, p, 0); (a, q, 0); (a, q, 0)] = Ok (es, c') /\
    skipn 2 es = [Some [T_ "c"]; Some [T_ "c"]] /\ p_rhs q = [[T_ "c"]; [T_ "d"]].
Proof. exact C24_address_reuse_refuted_proof. Qed.
Print Assumptions C24_address_reuse_refuted.

(** C25: the weight of an alternative is [rec] if it mentions the left hand side, else [nonrec]. *)
Theorem C25_weights : forall rec nonrec p i e, nth_error (p_rhs p) i = Some e ->
  (In (p_lhs p) e -> nth_error (fill_weights rec nonrec p) i = Some rec) /\
  (~ In (p_lhs p) e -> nth_error (fill_weights rec nonrec p) i = Some nonrec).
Proof. exact fill_weights_spec. Qed.
Print Assumptions C25_weights.

(** Exactly [w] of the [nsum ws] possible draws select the alternative [i] of weight [w]: the
    draws in [xs], [n_range lo w] being lo, lo+1, ..., lo+w-1. *)
Theorem C25_proportional : forall R (rng : rng_ops R) checks rec nonrec p,
  let ws := fill_weights rec nonrec p in
  (0 < nsum ws)%N -> (nsum ws < 2 ^ 32)%N ->
  (* the draws are split among the alternatives *)
  (forall x, (x < nsum ws)%N -> exists i w, nth_error ws i = Some w /\ In x (n_range (nsum (firstn i ws)) w)) /\
  forall i w, nth_error ws i = Some w ->
  let xs := n_range (nsum (firstn i ws)) w in
  NoDup xs /\ List.length xs = N.to_nat w /\ (forall x, In x xs -> (x < nsum ws)%N) /\
  forall r addr depth, In (fst (draw_u32 rng r (nsum ws))) xs ->
    weighted rng checks rec nonrec r addr p depth = Ok (nth_error (p_rhs p) i, snd (draw_u32 rng r (nsum ws))).
Proof. exact C25_proportional_proof. Qed.
Print Assumptions C25_proportional.

Theorem C25_zero_total : forall R (rng : rng_ops R) checks rec nonrec r addr p depth,
  nsum (fill_weights rec nonrec p) = 0%N ->
  weighted rng checks rec nonrec r addr p depth = random_walk rng r addr p depth.
Proof. exact C25_zero_total_proof. Qed.
Print Assumptions C25_zero_total.

Example C25_example : fill_weights 100 1 two_alts = [100%N; 1%N] /\ nsum [100%N; 1%N] = 101%N /\
  nsum (fill_weights 0 0 two_alts) = 0%N /\ In 100%N (n_range (nsum (firstn 1 [100%N; 1%N])) 1).
Proof. repeat split. apply n_range_spec. cbn. lia. Qed.

(** When the sum does not fit in u32 (release profile): weights 2^32-1 and 2 wrap to the total
    1, and the alternative of weight 2 is never selected. *)
Theorem C25_overflow_refuted : exists p rec nonrec, (0 < rec)%N /\ (0 < nonrec)%N /\
  (rec < 2 ^ 32)%N /\ (nonrec < 2 ^ 32)%N /\ p_rhs p = [[N_ "s"; T_ "a"]; [T_ "b"]] /\
  forall R (rng : rng_ops R) r addr depth r', weighted rng false rec nonrec r addr p depth <> Ok (Some [T_ "b"], r').
Proof. exact C25_overflow_refuted_proof. Qed.
Print Assumptions C25_overflow_refuted.
