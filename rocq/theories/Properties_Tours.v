(** C70, the part about CoverageGuided.  [tour], [first_at], [offered] are in TourSpec.v; [follows], [gives],
    [source], [scripts], [count] and [product] in WalkSpec.v; [returning] in Facts_Walks.v.  [mkCov seen i] is a
    strategy that has seen [seen] (positions of productions and indices of alternatives) and has drawn [i]
    numbers; [common_multiple g base] (TourProofs.v): [base] is a multiple of the numbers up to the number of
    alternatives of any production. *)
From Verif Require Import ParseExamples StrategyProofs Facts_Strategies Facts_Tours.

(** ** C70 The probability of a result: CoverageGuided *)

(** The generator returns [r] after [l] draws, with [seen'] seen, exactly if the source takes a tour of [l]
    draws to them. *)
Theorem C70_coverage : forall g p rest n fuel0,
  g = p :: rest -> p_lhs p = Nonterminal n -> terminates fuel0 g = Ok true -> forall ok f seen r seen' l,
  (exists fuel, generate (coverage_guided (stream_rng f)) (pure_callback ok) g fuel (mkCov seen 0) = Ok (r, mkCov seen' l)) <->
  (exists ds, tour g ok no_alternative seen n ds r seen' /\ List.length ds = l /\ follows f 0 ds).
Proof. exact C70_coverage_proof. Qed.
Print Assumptions C70_coverage.

(** Every tour is taken by some source, and a source takes at most one. *)
Theorem C70_tour_taken : forall g ok bad s n ds r s', tour g ok bad s n ds r s' -> follows (source (map fst ds)) 0 ds.
Proof. exact C70_tour_taken_proof. Qed.
Print Assumptions C70_tour_taken.
Theorem C70_one_tour : forall g ok f s n ds r s' ds' r' s2,
  tour g ok no_alternative s n ds r s' -> tour g ok no_alternative s n ds' r' s2 -> follows f 0 ds -> follows f 0 ds' ->
  ds = ds' /\ r = r' /\ s' = s2.
Proof. exact C70_one_tour_proof. Qed.
Print Assumptions C70_one_tour.

(** Of the [base ^ len] lists of [len] numbers below [base] the share 1 / (m_1 * ... * m_l) takes a given tour,
    where the m_i are the numbers of alternatives offered on it. *)
Theorem C70_tour_share : forall g ok bad s n ds r s' base len,
  tour g ok bad s n ds r s' -> common_multiple g base -> List.length ds <= len ->
  count (gives ds) (scripts base len) * product (map snd ds) = base ^ len.
Proof. exact C70_tour_share_proof. Qed.
Print Assumptions C70_tour_share.

(** The share of the lists for which a result is returned is the sum over the tours to it. *)
Theorem C70_coverage_probability : forall g p rest n fuel0,
  g = p :: rest -> p_lhs p = Nonterminal n -> terminates fuel0 g = Ok true -> forall base len, common_multiple g base -> forall ok seen r,
  exists W, NoDup W /\ (forall ds, In ds W <-> (exists seen', tour g ok no_alternative seen n ds r seen') /\ List.length ds <= len) /\
    returning (fun f fuel => let* (r, c) := generate (coverage_guided (stream_rng f)) (pure_callback ok) g fuel (mkCov seen 0) in Ok (r, c_rng c))
      base len r (list_sum (map (fun ds => base ^ len / product (map snd ds)) W)).
Proof. exact C70_coverage_probability_proof. Qed.
Print Assumptions C70_coverage_probability.

(** <s> ::= <s> 'a' | 'b' and a strategy that has seen nothing: only "b" and "ba" can be returned, each for half
    of the sources (with RandomWalk "ba" is returned for a quarter of them). *)
Example C70_coverage_example :
  let g := [two_alts] in let yes := fun _ _ : str => true in let s := lit "s" in
  common_multiple g 2 /\ terminates 3 g = Ok true /\
  offered [(0, 0)] 0 two_alts = [1] /\ offered [(0, 1); (0, 0)] 0 two_alts = [0; 1] /\
  tour g yes no_alternative [] s [(0, 2); (0, 1)] (ROk (lit "ba")) [(0, 1); (0, 0)] /\
  (forall ds r seen, tour g yes no_alternative [] s ds r seen <->
     ds = [(1, 2)] /\ r = ROk (lit "b") /\ seen = [(0, 1)] \/
     ds = [(0, 2); (0, 1)] /\ r = ROk (lit "ba") /\ seen = [(0, 1); (0, 0)]) /\
  filter (fun l => match generate (coverage_guided (stream_rng (source l))) (pure_callback yes) g 10 (mkCov [] 0) with
                   | Ok (ROk w, c) => list_eqb N.eqb w (lit "ba") | _ => false end) (scripts 2 2) = [[0; 0]; [0; 1]].
Proof. exact tours_example. Qed.
