(** C81: several sentences generated with one [CoverageGuided] strategy.  [generate_times],
    [chosen_from], [unavoidable] and [flat_text] are in CoverSpec.v; [traced_choose] and
    [traced_accept] (TraceSpec.v) only add the log of the questions and answers. *)
From Verif Require Import Facts_Cover.
From Coq Require Import Permutation.

(** Over all runs together, the first choices made at a production are different alternatives,
    until there are none left. *)
Theorem C81_choices : forall R (rng : rng_ops R) f g fuel k r0 rs c',
  generate_times (coverage_guided rng) (pure_callback f) g fuel k (mkCov [] r0) = Ok (rs, c') -> exists evs,
    generate_times (traced_choose (coverage_guided rng)) (traced_accept (pure_callback f)) g fuel k (mkCov [] r0, []) = Ok (rs, (c', rev evs)) /\
    forall n p, first_for g n p -> p_rhs p <> [] -> exists rest,
      Permutation (firstn (length (p_rhs p)) (chosen_from p evs) ++ rest) (p_rhs p) /\
      (length (p_rhs p) <= length (chosen_from p evs) -> rest = []).
Proof. exact C81_choices_proof. Qed.
Print Assumptions C81_choices.

(** A production that every sentence needs has all its alternatives exercised after as many
    successful runs as it has alternatives. *)
Theorem C81_unavoidable : forall R (rng : rng_ops R) f g fuel k r0 rs c' p rest n m q,
  g = p :: rest -> p_lhs p = Nonterminal n -> unavoidable g m n -> first_for g m q -> p_rhs q <> [] ->
  generate_times (coverage_guided rng) (pure_callback f) g fuel k (mkCov [] r0) = Ok (rs, c') ->
  (forall r, In r rs -> exists w, r = ROk w) -> length (p_rhs q) <= k ->
  exists evs, generate_times (traced_choose (coverage_guided rng)) (traced_accept (pure_callback f)) g fuel k (mkCov [] r0, []) =
      Ok (rs, (c', rev evs)) /\
    forall e, In e (p_rhs q) -> exists d, In (Chose q d (Some e)) evs.
Proof. exact C81_unavoidable_proof. Qed.
Print Assumptions C81_unavoidable.

(** A starting rule of terminals only: as many runs as alternatives give every alternative once,
    whatever the random numbers. *)
Theorem C81_flat : forall g p rest n, g = p :: rest -> p_lhs p = Nonterminal n -> choosable p ->
  (forall e, In e (p_rhs p) -> forall m, ~ In (Nonterminal m) e) ->
  exists fuel0, forall R (rng : rng_ops R) fuel r0, fuel0 <= fuel -> exists ws c',
    generate_times (coverage_guided rng) (pure_callback (fun _ _ => true)) g fuel (length (p_rhs p)) (mkCov [] r0) = Ok (map ROk ws, c') /\
    Permutation ws (map flat_text (p_rhs p)).
Proof. exact C81_flat_proof. Qed.
Print Assumptions C81_flat.

(** "Suited for generating data that fully explores all options of the grammar"
    (src/generation.rs:142): once all alternatives of a production are seen, nothing leads to the
    alternatives not yet seen below it.  With the grammar <s> ::= <b> | <a>, <a> ::= 'x' | 'y',
    <b> ::= 'z' and a source of random numbers that always gives 0, 'y' never appears. *)
Theorem C81_explores_refuted : exists g, generates g (lit "s") (lit "y") /\
  forall fuel k, 9 <= fuel -> exists rs c',
    generate_times (coverage_guided (const_rng 0)) (pure_callback (fun _ _ => true)) g fuel k (mkCov [] tt) = Ok (rs, c') /\
    ~ In (ROk (lit "y")) rs.
Proof. exact C81_explores_refuted_proof. Qed.
Print Assumptions C81_explores_refuted.

(** Every run of [digits_grammar] goes through <d>, and three runs exercise its three alternatives. *)
Example C81_example :
  unavoidable digits_grammar (lit "d") (lit "s") /\
  (exists c, generate_times (coverage_guided script_rng) (pure_callback (fun _ _ => true)) digits_grammar 9 3
      (mkCov [] [1; 2; 0; 0; 0; 0; 0]) = Ok (map ROk [lit "-3"; lit "1"; lit "2"], c)) /\
  choosable (mkProd (N_ "c") [[T_ "red"]; [T_ "dark "; T_ "green"]; [T_ "blue"]]) /\
  (exists c, generate_times (coverage_guided script_rng) (pure_callback (fun _ _ => true))
      [mkProd (N_ "c") [[T_ "red"]; [T_ "dark "; T_ "green"]; [T_ "blue"]]] 9 3
      (mkCov [] [1; 1; 0]) = Ok (map ROk [lit "dark green"; lit "blue"; lit "red"], c)).
Proof.
  split; [exact digits_unavoidable|]. split; [eexists; vm_compute; reflexivity|].
  split; [split; discriminate|eexists; vm_compute; reflexivity].
Qed.
