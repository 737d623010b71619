(** C70: the probability of what a generator returns.  [walk], [random_alternatives],
    [depth_alternatives], [weighted_alternatives], [follows], [gives], [source], [scripts], [count]
    and [product] are in WalkSpec.v; [stream_rng] (WalkProofs.v) draws from [m] values the next
    number of its source modulo [m].  [returning] (Facts_Walks.v) counts the lists of numbers for
    which a generator returns a result. *)
From Verif Require Import ParseExamples StrategyProofs Facts_Strategies Facts_Walks.

(** ** C70 The probability of a result *)

(** The generator returns [r] after [l] draws exactly if the source takes a walk of [l] draws to
    [r]. *)
Theorem C70_random_walk : forall g p rest n fuel0,
  g = p :: rest -> p_lhs p = Nonterminal n -> terminates fuel0 g = Ok true -> forall ok f r l,
  (exists fuel, generate_random (stream_rng f) ok g fuel 0 = Ok (r, l)) <->
  (exists ds, walk g ok random_alternatives no_alternative 0 n ds r /\ List.length ds = l /\ follows f 0 ds).
Proof. exact C70_random_walk_proof. Qed.
Print Assumptions C70_random_walk.

Theorem C70_depth_bounded : forall g p rest n fuel0,
  g = p :: rest -> p_lhs p = Nonterminal n -> terminates fuel0 g = Ok true -> forall max ok f r l,
  (exists fuel, generate (depth_bounded (stream_rng f) max) (pure_callback ok) g fuel 0 = Ok (r, l)) <->
  (exists ds, walk g ok (depth_alternatives max) no_alternative 0 n ds r /\ List.length ds = l /\ follows f 0 ds).
Proof. exact C70_depth_bounded_proof. Qed.
Print Assumptions C70_depth_bounded.

Theorem C70_weighted : forall g p rest n fuel0,
  g = p :: rest -> p_lhs p = Nonterminal n -> terminates fuel0 g = Ok true -> forall checks rec nonrec ok f r l,
  (forall q, In q g -> (nsum (fill_weights rec nonrec q) < 2 ^ 32)%N) ->
  (exists fuel, generate (weighted (stream_rng f) checks rec nonrec) (pure_callback ok) g fuel 0 = Ok (r, l)) <->
  (exists ds, walk g ok (weighted_alternatives rec nonrec) no_alternative 0 n ds r /\ List.length ds = l /\ follows f 0 ds).
Proof. exact C70_weighted_proof. Qed.
Print Assumptions C70_weighted.

(** A source takes at most one walk: different walks exclude each other. *)
Theorem C70_one_walk : forall g ok alts bad d n f ds ds' r r',
  walk g ok alts bad d n ds r -> walk g ok alts bad d n ds' r' -> follows f 0 ds -> follows f 0 ds' -> ds = ds' /\ r = r'.
Proof. exact C70_one_walk_proof. Qed.
Print Assumptions C70_one_walk.

(** Of the [base ^ len] lists of [len] numbers below [base], [base] being a common multiple of the
    numbers of alternatives, exactly the share 1 / (m_1 * ... * m_l) takes a given walk, where the
    m_i are the numbers of alternatives it draws from. *)
Theorem C70_scripts : forall base len, NoDup (scripts base len) /\ List.length (scripts base len) = base ^ len /\
  forall s, In s (scripts base len) <-> List.length s = len /\ forall x, In x s -> x < base.
Proof. exact C70_scripts_proof. Qed.
Print Assumptions C70_scripts.

Theorem C70_share : forall g ok alts bad d n ds r base len, walk g ok alts bad d n ds r ->
  0 < base -> (forall d p, In p g -> choosable p -> Nat.divide (List.length (alts d p)) base) -> List.length ds <= len ->
  (forall s, List.length s = len -> gives ds s = true <-> follows (source s) 0 ds) /\
  count (gives ds) (scripts base len) * product (map snd ds) = base ^ len.
Proof. exact C70_share_proof. Qed.
Print Assumptions C70_share.

(** The share of the lists for which a result is returned is the sum over the walks to it. *)
Theorem C70_random_walk_probability : forall g p rest n fuel0,
  g = p :: rest -> p_lhs p = Nonterminal n -> terminates fuel0 g = Ok true -> forall base len, 0 < base -> forall ok r,
  (forall d q, In q g -> choosable q -> Nat.divide (List.length (random_alternatives d q)) base) ->
  exists W, NoDup W /\ (forall ds, In ds W <-> walk g ok random_alternatives no_alternative 0 n ds r /\ List.length ds <= len) /\
    returning (fun f fuel => generate_random (stream_rng f) ok g fuel 0) base len r
      (list_sum (map (fun ds => base ^ len / product (map snd ds)) W)).
Proof. exact C70_random_walk_probability_proof. Qed.
Print Assumptions C70_random_walk_probability.

Theorem C70_depth_bounded_probability : forall g p rest n fuel0,
  g = p :: rest -> p_lhs p = Nonterminal n -> terminates fuel0 g = Ok true -> forall base len, 0 < base -> forall max ok r,
  (forall d q, In q g -> choosable q -> Nat.divide (List.length (depth_alternatives max d q)) base) ->
  exists W, NoDup W /\ (forall ds, In ds W <-> walk g ok (depth_alternatives max) no_alternative 0 n ds r /\ List.length ds <= len) /\
    returning (fun f fuel => generate (depth_bounded (stream_rng f) max) (pure_callback ok) g fuel 0) base len r
      (list_sum (map (fun ds => base ^ len / product (map snd ds)) W)).
Proof. exact C70_depth_bounded_probability_proof. Qed.
Print Assumptions C70_depth_bounded_probability.

Theorem C70_weighted_probability : forall g p rest n fuel0,
  g = p :: rest -> p_lhs p = Nonterminal n -> terminates fuel0 g = Ok true -> forall base len, 0 < base -> forall checks rec nonrec ok r,
  (forall q, In q g -> (nsum (fill_weights rec nonrec q) < 2 ^ 32)%N) ->
  (forall d q, In q g -> choosable q -> Nat.divide (List.length (weighted_alternatives rec nonrec d q)) base) ->
  exists W, NoDup W /\ (forall ds, In ds W <-> walk g ok (weighted_alternatives rec nonrec) no_alternative 0 n ds r /\ List.length ds <= len) /\
    returning (fun f fuel => generate (weighted (stream_rng f) checks rec nonrec) (pure_callback ok) g fuel 0) base len r
      (list_sum (map (fun ds => base ^ len / product (map snd ds)) W)).
Proof. exact C70_weighted_probability_proof. Qed.
Print Assumptions C70_weighted_probability.

(** <s> ::= <s> 'a' | 'b' with the weights 2 and 1: "ba" takes two draws, of which the first has
    two of three chances and the second one; 2 of 9. *)
Example C70_example :
  let g := [two_alts] in let p := two_alts in let yes := fun _ _ : str => true in
  p_lhs p = Nonterminal (lit "s") /\ terminates 3 g = Ok true /\
  weighted_alternatives 2 1 0 p = [[N_ "s"; T_ "a"]; [N_ "s"; T_ "a"]; [T_ "b"]] /\
  depth_alternatives 1 1 p = [[T_ "b"]] /\
  (forall q, In q g -> (nsum (fill_weights 2 1 q) < 2 ^ 32)%N) /\
  (forall d q, In q g -> choosable q -> Nat.divide (List.length (weighted_alternatives 2 1 d q)) 3) /\
  walk g yes (weighted_alternatives 2 1) no_alternative 0 (lit "s") [(1, 3); (2, 3)] (ROk (lit "ba")) /\
  count (gives [(1, 3); (2, 3)]) (scripts 3 2) = 1 /\
  filter (fun s => match generate (weighted (stream_rng (source s)) true 2 1) (pure_callback yes) g 10 0 with
                   | Ok (ROk w, l) => list_eqb N.eqb w (lit "ba") && (l <=? 2) | _ => false end) (scripts 3 2) = [[0; 2]; [1; 2]].
Proof.
  assert (Hf : first_for [two_alts] (lit "s") two_alts).
  { exists [], []. repeat split. intros q []. }
  assert (Hc : choosable two_alts) by (split; discriminate).
  cbn zeta. repeat split; try reflexivity.
  - intros q [<-|[]]. reflexivity.
  - intros d q [<-|[]] _. exists 1. reflexivity.
  - apply (wk_accept _ _ (weighted_alternatives 2 1) _ 0 (lit "s") two_alts 1 [N_ "s"; T_ "a"] [(2, 3)] (lit "ba")); try assumption; try reflexivity.
    apply (wks_nonterminal _ _ _ _ 1 (lit "s") [T_ "a"] [(2, 3)] [] (lit "b") (lit "a")).
    + apply (wk_accept _ _ (weighted_alternatives 2 1) _ 1 (lit "s") two_alts 2 [T_ "b"] [] (lit "b")); try assumption; try reflexivity.
      apply (wks_terminal _ _ _ _ 2 (lit "b") [] [] []). constructor.
    + apply (wks_terminal _ _ _ _ 1 (lit "a") [] [] []). constructor.
Qed.
