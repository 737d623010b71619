(** C79: the errors of generation, word for word, and what causes each. *)
From Verif Require Import ErrorProofs ParseExamples Facts_GenErrors EndsSpec WalkProofs DeadEndSpec DeadEnds.
From Coq Require Import Relations.
From Coq Require String.
Import String.StringSyntax.

(** Every error is one of five, and has its cause. *)
Theorem C79_causes : forall S (choose : S -> nat -> production -> nat -> res (option expression * S)) accept g fuel st x st',
  lawful choose -> generate choose accept g fuel st = Ok (RErr x, st') -> exists m, x = GenerateError m /\
  ((m = lit "Can't generate, first rule in grammar doesn't lead to a terminal state" /\
    exists p rest, g = p :: rest /\ ~ exists tr, derives g tr /\ root tr = p_lhs p) \/
   (m = lit "Failed to get first production!" /\ g = []) \/
   (exists p rest s, m = lit "Terminal type cannot define a production in '" ++ display_production p ++ lit "'!" /\
    g = p :: rest /\ p_lhs p = Terminal s) \/
   (m = lit "Production has no choosable alternative!" /\
    exists p rest start n q, g = p :: rest /\ p_lhs p = Nonterminal start /\
      clos_refl_trans _ (calls g) start n /\ first_for g n q /\ (p_rhs q = [] \/ p_rhs q = [[]])) \/
   (m = lit "Couldn't select random Expression!" /\
    exists st1 addr q depth st2, nth_error g addr = Some q /\ choose st1 addr q depth = Ok (None, st2))).
Proof. exact C79_causes_proof. Qed.
Print Assumptions C79_causes.

(** The causes which are in the first production have their effect; that of the first error is C19. *)
Theorem C79_first : forall S (choose : S -> nat -> production -> nat -> res (option expression * S)) accept fuel st,
  generate choose accept [] fuel st = Ok (RErr (GenerateError (lit "Failed to get first production!")), st) /\
  forall p rest s, p_lhs p = Terminal s -> (exists tr, derives (p :: rest) tr /\ root tr = p_lhs p) -> List.length (p :: rest) < fuel ->
    generate choose accept (p :: rest) fuel st =
      Ok (RErr (GenerateError (lit "Terminal type cannot define a production in '" ++ display_production p ++ lit "'!")), st).
Proof. exact C79_first_proof. Qed.
Print Assumptions C79_first.

(** A strategy that returns nothing. *)
Theorem C79_refusal : forall S (choose : S -> nat -> production -> nat -> res (option expression * S)) accept g p rest n fuel st st',
  g = p :: rest -> p_lhs p = Nonterminal n -> (exists tr, derives g tr /\ root tr = p_lhs p) -> List.length g < fuel ->
  p_rhs p <> [] -> p_rhs p <> [[]] -> choose st 0 p 0 = Ok (None, st') ->
  generate choose accept g fuel st = Ok (RErr (GenerateError (lit "Couldn't select random Expression!")), st').
Proof. exact C79_refusal_proof. Qed.
Print Assumptions C79_refusal.

(** A production with nothing to choose: some random numbers lead to the error exactly if the expansion of the
    first nonterminal may come to such a production, after terms that can be expanded. *)
Theorem C79_dead_ends : forall g p rest n fuel0, g = p :: rest -> p_lhs p = Nonterminal n -> terminates fuel0 g = Ok true -> forall ok,
  let error := RErr (GenerateError (lit "Production has no choosable alternative!")) in
  ((exists f fuel l, generate (random_walk (stream_rng f)) (pure_callback ok) g fuel 0 = Ok (error, l)) <-> dead_end_below g ok random_alternatives (0, n)) /\
  (forall max, (exists f fuel l, generate (depth_bounded (stream_rng f) max) (pure_callback ok) g fuel 0 = Ok (error, l)) <->
     dead_end_below g ok (depth_alternatives max) (0, n)) /\
  (forall checks rec nonrec, (forall q, In q g -> (nsum (fill_weights rec nonrec q) < 2 ^ 32)%N) ->
     (exists f fuel l, generate (weighted (stream_rng f) checks rec nonrec) (pure_callback ok) g fuel 0 = Ok (error, l)) <->
     dead_end_below g ok (weighted_alternatives rec nonrec) (0, n)).
Proof. exact C79_dead_ends_proof. Qed.
Print Assumptions C79_dead_ends.

(** In <s> ::= 'a' | <l> <e> ; <l> ::= 'x' <l> with an empty <e>, the error cannot occur although <e> can be reached. *)
Example C79_dead_ends_example :
  let yes := fun _ _ : str => true in
  terminates 5 dead_end = Ok true /\ dead_end_below dead_end yes random_alternatives (0, lit "s") /\
  terminates 5 never_reached = Ok true /\ ~ dead_end_below never_reached yes random_alternatives (0, lit "s") /\
  clos_refl_trans _ (calls never_reached) (lit "s") (lit "e").
Proof. exact C79_dead_ends_example_proof. Qed.

(** The built-in strategies are lawful and never return nothing. *)
Theorem C79_strategies : forall R (rng : rng_ops R),
  (forall max, lawful (random_walk rng) /\ lawful (depth_bounded rng max) /\ lawful (coverage_guided rng)) /\
  (forall checks rec nonrec, lawful (weighted rng checks rec nonrec)) /\
  forall addr p depth, p_rhs p <> [] ->
  (forall r r', random_walk rng r addr p depth <> Ok (None, r')) /\ (forall max r r', depth_bounded rng max r addr p depth <> Ok (None, r')) /\
  (forall c c', coverage_guided rng c addr p depth <> Ok (None, c')) /\
  (forall checks rec nonrec r r', weighted rng checks rec nonrec r addr p depth <> Ok (None, r')).
Proof. exact C79_strategies_proof. Qed.
Print Assumptions C79_strategies.

(** The comment on [choose] (src/generation.rs:20-21) names "depth-bounded with no terminal-only option" as a case without a
    valid choice.  DepthBounded then chooses an alternative with nonterminals. *)
Theorem C22_no_choice_refuted : exists p, p_rhs p <> [] /\ (forall e, In e (p_rhs p) -> exists n, In (Nonterminal n) e) /\
  forall R (rng : rng_ops R) max r addr depth, max <= depth -> exists e r' n, depth_bounded rng max r addr p depth = Ok (Some e, r') /\ In (Nonterminal n) e.
Proof. exact C22_no_choice_refuted_proof. Qed.
Print Assumptions C22_no_choice_refuted.

(** [dead_end] is <s> ::= 'a' | <e>, where <e> has one empty alternative. *)
Example C79_example :
  generate_with_strategy (random_walk script_rng) dead_end 5 [0] = Ok (ROk (lit "a"), []) /\
  generate_with_strategy (random_walk script_rng) dead_end 5 [1] = Ok (RErr (GenerateError (lit "Production has no choosable alternative!")), []) /\
  generate_with_strategy (fun (st : unit) _ _ _ => Ok (None, st)) dead_end 5 tt = Ok (RErr (GenerateError (lit "Couldn't select random Expression!")), tt).
Proof. repeat split. Qed.
