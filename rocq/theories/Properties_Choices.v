(** C51-C53: the choices of the strategies, the language of DepthBounded, runs without errors.
    [depth_candidate], [coverage_candidate] and [bounded_expansion] are in StrategyExact.v,
    [small_alternatives] and [nodes] in DepthLength.v. *)
From Verif Require Import ParseExamples DepthLength.

(** C51: each choice is one draw from [0..length el], where [el] lists every candidate once; so
    each candidate is selected by exactly one value of the draw. *)
Theorem C51_random_walk : forall R (rng : rng_ops R) r addr p depth, p_rhs p <> [] ->
  random_walk rng r addr p depth =
    let '(i, r') := draw_usize rng r (List.length (p_rhs p)) in Ok (nth_error (p_rhs p) i, r').
Proof. exact @random_walk_one_draw. Qed.
Print Assumptions C51_random_walk.

Theorem C51_depth_bounded : forall max depth p, p_rhs p <> [] ->
  exists el, el <> [] /\ NoDup el /\ (forall i, In i el <-> depth_candidate max depth p i) /\
    forall R (rng : rng_ops R) r addr, depth_bounded rng max r addr p depth =
      let '(k, r') := draw_usize rng r (List.length el) in Ok (nth_error (p_rhs p) (nth k el 0), r').
Proof. exact depth_bounded_one_draw. Qed.
Print Assumptions C51_depth_bounded.

Theorem C51_coverage_guided : forall seen addr p, p_rhs p <> [] ->
  exists el, el <> [] /\ NoDup el /\ (forall i, In i el <-> coverage_candidate seen addr p i) /\
    forall R (rng : rng_ops R) r depth, exists c', coverage_guided rng (mkCov seen r) addr p depth =
        Ok (nth_error (p_rhs p) (nth (fst (draw_usize rng r (List.length el))) el 0), c') /\
      c_rng c' = snd (draw_usize rng r (List.length el)) /\
      forall x, In x (c_seen c') <-> x = (addr, nth (fst (draw_usize rng r (List.length el))) el 0) \/ In x seen.
Proof. exact coverage_one_draw. Qed.
Print Assumptions C51_coverage_guided.

(** At the limit only the two alternatives without nonterminals are candidates. *)
Example C51_example :
  let p := mkProd (N_ "s") [[T_ "a"]; [N_ "s"; T_ "b"]; [T_ "c"; T_ "d"]] in
  map (fun k => depth_bounded script_rng 4 [k] 0 p 4) [0; 1] = [Ok (Some [T_ "a"], []); Ok (Some [T_ "c"; T_ "d"], [])] /\
  map (fun k => depth_bounded script_rng 4 [k] 0 p 3) [0; 1; 2] =
    [Ok (Some [T_ "a"], []); Ok (Some [N_ "s"; T_ "b"], []); Ok (Some [T_ "c"; T_ "d"], [])] /\
  map (fun k => coverage_guided script_rng (mkCov [(7, 1)] [k]) 7 p 0) [0; 1] =
    [Ok (Some [T_ "a"], mkCov [(7, 0); (7, 1)] []); Ok (Some [T_ "c"; T_ "d"], mkCov [(7, 2); (7, 1)] [])].
Proof. repeat split. Qed.

(** C52: DepthBounded with limit [max] generates exactly the texts with an expansion tree of at
    most [max + 1] levels, if every production has an alternative without nonterminals. *)
Theorem C52_language : forall max g n p rest w,
  g = p :: rest -> p_lhs p = Nonterminal n -> no_lone_epsilon g ->
  (forall q, In q g -> exists e, In e (p_rhs q) /\ forall n, ~ In (Nonterminal n) e) ->
  (bounded_expansion g (fun _ _ => True) (S max) (Nonterminal n) w <->
   exists R (rng : rng_ops R) fuel st st', generate_with_strategy (depth_bounded rng max) g fuel st = Ok (ROk w, st')).
Proof. exact depth_bounded_language. Qed.
Print Assumptions C52_language.

(** With any callback, also a stateful one: [ok] is a property of what it accepts. *)
Theorem C52_levels_with_callback : forall R (rng : rng_ops R) max accept (ok : str -> str -> Prop) g fuel st w st',
  (forall q, In q g -> exists e, In e (p_rhs q) /\ forall n, ~ In (Nonterminal n) e) ->
  (forall st n w st', accept st n w = (true, st') -> ok n w) ->
  generate (depth_bounded rng max) accept g fuel st = Ok (ROk w, st') ->
  exists n p rest, g = p :: rest /\ p_lhs p = Nonterminal n /\ bounded_expansion g ok (S max) (Nonterminal n) w.
Proof. exact @depth_bounded_sound. Qed.
Print Assumptions C52_levels_with_callback.

(** The grammar of the test in src/generation.rs: with limit 1 only "a" and "(a)". *)
Example C52_example :
  no_lone_epsilon nest_grammar /\
  (forall q, In q nest_grammar -> exists e, In e (p_rhs q) /\ forall n, ~ In (Nonterminal n) e) /\
  map (fun s => generate_with_strategy (depth_bounded script_rng 1) nest_grammar 9 s) [[0]; [1; 0]] =
    [Ok (ROk (lit "a"), []); Ok (ROk (lit "(a)"), [])] /\
  (forall w, bounded_expansion nest_grammar (fun _ _ => True) 2 (N_ "s") w -> w = lit "a" \/ w = lit "(a)").
Proof.
  split; [intros q [<-|[]]; discriminate|].
  split; [intros q [<-|[]]; exists [T_ "a"]; split; [left; reflexivity|intros n [E|[]]; discriminate]|].
  split; [reflexivity|].
  assert (Hff : forall n p, first_for nest_grammar n p -> p = mkProd (N_ "s") [[T_ "a"]; [T_ "("; N_ "s"; T_ ")"]]).
  { intros n p Hf. apply first_for_In in Hf. destruct Hf as [[<-|[]] _]. reflexivity. }
  assert (H1 : forall n w, bounded_expansion nest_grammar (fun _ _ => True) 1 (Nonterminal n) w -> has_lhs nest_grammar n -> w = lit "a").
  { intros n w H Hn. inversion H as [|? ? Hu|? ? p e ? Hf He Hes]; subst; [contradiction|].
    apply Hff in Hf. subst p. destruct He as [<-|[<-|[]]].
    - inversion Hes as [|? ? ? ? ? Ht Hr]; subst. inversion Ht; subst. inversion Hr; subst. reflexivity.
    - exfalso. eapply (level_0 _ _ _ _ Hes). right. left. reflexivity. }
  intros w H. inversion H as [|? ? Hu|? ? p e ? Hf He Hes]; subst.
  - destruct Hu. exists (mkProd (N_ "s") [[T_ "a"]; [T_ "("; N_ "s"; T_ ")"]]). split; [left; reflexivity|reflexivity].
  - apply Hff in Hf. subst p. destruct He as [<-|[<-|[]]].
    + left. inversion Hes as [|? ? ? ? ? Ht Hr]; subst. inversion Ht; subst. inversion Hr; subst. reflexivity.
    + right. inversion Hes as [|? ? ? ? ? Ht Hr]; subst. inversion Ht; subst.
      inversion Hr as [|? ? ? ? ? Ht2 Hr2]; subst.
      apply H1 in Ht2; [|exists (mkProd (N_ "s") [[T_ "a"]; [T_ "("; N_ "s"; T_ ")"]]); split; [left; reflexivity|reflexivity]].
      subst. inversion Hr2 as [|? ? ? ? ? Ht3 Hr3]; subst. inversion Ht3; subst. inversion Hr3; subst. reflexivity.
Qed.

(** The length of the texts: with at most [c] characters and [k] nonterminals in each alternative
    at most [c * (1 + k + .. + k^max)], with any callback; for all [c], [k] and [max] some grammar
    and random stream reach it. *)
Theorem C52_length : forall R (rng : rng_ops R) max accept g fuel st w st' c k,
  (forall q, In q g -> exists e, In e (p_rhs q) /\ forall n, ~ In (Nonterminal n) e) ->
  small_alternatives g c k ->
  generate (depth_bounded rng max) accept g fuel st = Ok (ROk w, st') ->
  List.length w <= c * nodes k (S max).
Proof. exact depth_bounded_length. Qed.
Print Assumptions C52_length.

Theorem C52_length_reached : forall c k max, exists g,
  (forall q, In q g -> exists e, In e (p_rhs q) /\ forall n, ~ In (Nonterminal n) e) /\
  small_alternatives g c k /\
  exists R (rng : rng_ops R) fuel st w st',
    generate_with_strategy (depth_bounded rng max) g fuel st = Ok (ROk w, st') /\ List.length w = c * nodes k (S max).
Proof. exact depth_bounded_length_reached. Qed.
Print Assumptions C52_length_reached.

(** <s> ::= 'aa' <s> <s> <s> | 'aa' with limit 2: 1 + 3 + 9 nonterminals, 26 characters. *)
Example C52_length_example :
  small_alternatives (bushy 2 3) 2 3 /\ nodes 3 3 = 13 /\
  generate_with_strategy (depth_bounded (const_rng 0) 2) (bushy 2 3) 9 tt = Ok (ROk (repeat 97%N 26), tt).
Proof. split; [exact (proj2 (bushy_small 2 3))|]. split; reflexivity. Qed.

(** C53: with the built-in strategies no error is returned once the guard has passed and every
    production has an alternative, and not just a single empty one. *)
Theorem C53_no_error : forall g n p rest, g = p :: rest -> p_lhs p = Nonterminal n ->
  (forall q, In q g -> p_rhs q <> [] /\ p_rhs q <> [[]]) ->
  (exists tr, derives g tr /\ root tr = Nonterminal n) ->
  forall R (rng : rng_ops R) fuel x,
  (forall accept r st', generate (random_walk rng) accept g fuel r <> Ok (RErr x, st')) /\
  (forall max accept r st', generate (depth_bounded rng max) accept g fuel r <> Ok (RErr x, st')) /\
  (forall accept c st', generate (coverage_guided rng) accept g fuel c <> Ok (RErr x, st')) /\
  (forall checks rec nonrec accept r st', generate (weighted rng checks rec nonrec) accept g fuel r <> Ok (RErr x, st')).
Proof. exact strategies_no_error. Qed.
Print Assumptions C53_no_error.

Example C53_example : (forall q, In q eps_grammar -> p_rhs q <> [] /\ p_rhs q <> [[]]) /\
  terminates 10 eps_grammar = Ok true.
Proof. split; [|reflexivity]. intros q [<-|[<-|[<-|[]]]]; split; discriminate. Qed.
