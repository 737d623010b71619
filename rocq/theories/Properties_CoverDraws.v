(** C88: how many random numbers CoverageGuided takes on average.  [estimate] and [average_draws] are in
    ExpectSpec.v. *)
From Verif Require Import ParseExamples StrategyProofs Facts_Strategies DocProofs Facts_Linear Facts_Expect CoverDraws.
From Coq Require Import Lia.
From Coq Require String.
Import String.StringSyntax.

(** An estimate for RandomWalk gives a bound for CoverageGuided, whatever it has seen before: to the
    estimate of the first nonterminal the needs of every alternative are added once. *)
Theorem C88_average : forall g p rest n fuel0,
  g = p :: rest -> p_lhs p = Nonterminal n -> terminates fuel0 g = Ok true -> forall seen K W base len,
  (forall q, In q g -> choosable q -> Nat.divide (List.length (p_rhs q)) base) ->
  estimate g random_alternatives K (fun _ => W) ->
  average_draws (fun f fuel => let* (r, c) := generate (coverage_guided (stream_rng f)) (pure_callback (fun _ _ => true)) g fuel (mkCov seen 0) in
                               Ok (r, c_rng c))
    base len K (W n + list_sum (map (fun q => list_sum (map (load W) (p_rhs q))) g)).
Proof. exact cover_average. Qed.
Print Assumptions C88_average.

(** A strategy that has chosen every alternative of the grammar is a RandomWalk: the same result, the same
    numbers used, and it stays one. *)
Theorem C88_all_seen : forall g R (rng : rng_ops R) accept fuel c,
  (forall ix p i, nth_error g ix = Some p -> i < List.length (p_rhs p) -> In (ix, i) (c_seen c)) ->
  match generate (coverage_guided rng) (pure_callback accept) g fuel c, generate_random rng accept g fuel (c_rng c) with
  | Ok (x, c'), Ok (y, r) => x = y /\ c_rng c' = r /\
      forall ix p i, nth_error g ix = Some p -> i < List.length (p_rhs p) -> In (ix, i) (c_seen c')
  | Panic, Panic => True
  | OutOfFuel, OutOfFuel => True
  | _, _ => False
  end.
Proof. exact @seen_generate. Qed.
Print Assumptions C88_all_seen.

(** For the grammar for DNA at most 4 + 6 draws on average.  With the numbers 1, 1, 1 the recursive alternative
    is chosen first, then the other. *)
Example C88_example :
  let dna_draws := fun n => if str_eqb n (lit "dna") then 4 else 1 in
  estimate dna_grammar random_alternatives 1 (fun _ => dna_draws) /\ terminates 3 dna_grammar = Ok true /\
  dna_draws (lit "dna") + list_sum (map (fun q => list_sum (map (load dna_draws) (p_rhs q))) dna_grammar) = 10 /\
  generate (coverage_guided (stream_rng (fun _ => 1))) (pure_callback (fun _ _ => true)) dna_grammar 20 (mkCov [] 0) =
    Ok (ROk (lit "CG"), mkCov [(1, 2); (0, 0); (1, 1); (0, 1)] 4) /\
  (forall q, In q dna_grammar -> choosable q -> Nat.divide (List.length (p_rhs q)) 4).
Proof.
  split; [|split; [reflexivity|split; [reflexivity|split; [vm_compute; reflexivity|]]]].
  - intros d n p H _. destruct (first_for_In _ _ _ H) as [[<-|[<-|[]]] E]; injection E as <-; vm_compute; lia.
  - intros q [<-|[<-|[]]] _; [exists 2|exists 1]; reflexivity.
Qed.
