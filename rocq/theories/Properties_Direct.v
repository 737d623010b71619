(** C87: when random generation has a finite average number of draws.  [directly_recursive] and
    [self_references] are in DirectSpec.v, [average_draws] in ExpectSpec.v. *)
From Verif Require Import ParseExamples StrategyProofs Facts_Strategies DocProofs Facts_Linear Facts_Direct.
From Coq Require Import Lia.
From Coq Require String.
Import String.StringSyntax.

(** If all recursion is direct and every nonterminal occurs less often in its own alternatives than it
    has alternatives, RandomWalk takes a finite number of draws on average. *)
Theorem C87_random_walk : forall g p rest n fuel0,
  g = p :: rest -> p_lhs p = Nonterminal n -> terminates fuel0 g = Ok true -> directly_recursive g ->
  (forall m q, first_for g m q -> choosable q -> self_references m (p_rhs q) < List.length (p_rhs q)) ->
  exists B, forall base len, (forall q, In q g -> choosable q -> Nat.divide (List.length (p_rhs q)) base) ->
    average_draws (fun f fuel => generate_random (stream_rng f) (fun _ _ => true) g fuel 0) base len 1 B.
Proof. exact C87_random_walk_proof. Qed.
Print Assumptions C87_random_walk.

(** The same for Weighted, if the alternatives are counted with their weights. *)
Theorem C87_weighted : forall g p rest n fuel0,
  g = p :: rest -> p_lhs p = Nonterminal n -> terminates fuel0 g = Ok true -> directly_recursive g ->
  forall checks rec nonrec,
  (forall m q, first_for g m q -> choosable q ->
     self_references m (weighted_alternatives rec nonrec 0 q) < List.length (weighted_alternatives rec nonrec 0 q)) ->
  (forall q, In q g -> (nsum (fill_weights rec nonrec q) < 2 ^ 32)%N) ->
  exists B, forall base len,
    (forall q, In q g -> choosable q -> Nat.divide (List.length (weighted_alternatives rec nonrec 0 q)) base) ->
    average_draws (fun f fuel => generate (weighted (stream_rng f) checks rec nonrec) (pure_callback (fun _ _ => true)) g fuel 0)
      base len 1 B.
Proof. exact C87_weighted_proof. Qed.
Print Assumptions C87_weighted.

(** Such weights exist whenever every nonterminal has an alternative that does not mention it. *)
Theorem C87_weights_exist : forall g,
  (forall m q, first_for g m q -> choosable q -> exists e, In e (p_rhs q) /\ ~ In (Nonterminal m) e) ->
  exists nonrec, forall m q, first_for g m q -> choosable q ->
    self_references m (weighted_alternatives 1 nonrec 0 q) < List.length (weighted_alternatives 1 nonrec 0 q).
Proof. exact C87_weights_exist_proof. Qed.
Print Assumptions C87_weights_exist.

(** Against indirect recursion no weights help: for <a> ::= <b> <b> <b> | 'x' and
    <b> ::= <a> <a> <a> | 'x' at most two of three calls return, whatever the weights are. *)
Theorem C87_indirect_refuted : exists g,
  (forall fuel, 3 <= fuel -> terminates fuel g = Ok true) /\
  forall checks rec nonrec base len, (forall q, In q g -> (nsum (fill_weights rec nonrec q) < 2 ^ 32)%N) ->
  (forall q, In q g -> choosable q -> Nat.divide (List.length (weighted_alternatives rec nonrec 0 q)) base) ->
  forall back, NoDup back ->
    (forall s, In s back -> In s (scripts base len) /\ exists fuel r l, l <= len /\
       generate (weighted (stream_rng (source s)) checks rec nonrec) (pure_callback (fun _ _ => true)) g fuel 0 = Ok (r, l)) ->
    3 * List.length back <= 2 * base ^ len.
Proof. exact C87_indirect_proof. Qed.
Print Assumptions C87_indirect_refuted.

(** With the default weights 100 and 1 (generation.rs:225-235), at most one of a hundred calls for
    <s> ::= <s> <s> | 'a' returns. *)
Theorem C87_default_weights_refuted : exists g,
  (forall fuel, 2 <= fuel -> terminates fuel g = Ok true) /\
  forall checks base len, Nat.divide 101 base -> forall back, NoDup back ->
    (forall s, In s back -> In s (scripts base len) /\ exists fuel r l, l <= len /\
       generate (weighted (stream_rng (source s)) checks 100 1) (pure_callback (fun _ _ => true)) g fuel 0 = Ok (r, l)) ->
    100 * List.length back <= base ^ len.
Proof. exact C87_default_weights_proof. Qed.
Print Assumptions C87_default_weights_refuted.

(** The grammar for DNA has one self-reference in two alternatives; that for the calculator (C86) has two in
    two, but with the weights 1 and 2 only two in three; the last number of 0, ..., 100 makes the grammar
    of the last theorem return at once. *)
Example C87_example :
  directly_recursive dna_grammar /\ terminates 3 dna_grammar = Ok true /\
  (forall m q, first_for dna_grammar m q -> choosable q -> self_references m (p_rhs q) < List.length (p_rhs q)) /\
  directly_recursive polish_grammar /\ terminates 9 polish_grammar = Ok true /\
  self_references (lit "product") [[N_ "number"]; [N_ "op"; N_ "product"; N_ "product"]] = 2 /\
  (forall m q, first_for polish_grammar m q -> choosable q ->
     self_references m (weighted_alternatives 1 2 0 q) < List.length (weighted_alternatives 1 2 0 q)) /\
  ~ directly_recursive mutual_grammar /\
  generate (weighted (stream_rng (source [100])) true 100 1) (pure_callback (fun _ _ => true)) pair_grammar 9 0 = Ok (ROk (lit "a"), 1).
Proof.
  assert (Hin : forall g m q, first_for g m q -> In q g /\ p_lhs q = Nonterminal m) by (intros; apply first_for_In; assumption).
  split; [|split; [reflexivity|split; [|split; [|split; [vm_compute; reflexivity|split; [reflexivity|split; [|split; [|vm_compute; reflexivity]]]]]]]].
  - exists (fun n => if str_eqb n (lit "dna") then 1 else 0). intros n p e m H He Hm. destruct (Hin _ _ _ H) as [[<-|[<-|[]]] E]; injection E as <-;
      (repeat (destruct He as [<-|He]; [repeat (destruct Hm as [Hm|Hm]; [first [discriminate Hm|injection Hm as <-; first [left; reflexivity|right; vm_compute; lia]]|]); destruct Hm|]); destruct He).
  - intros m q H _. destruct (Hin _ _ _ H) as [[<-|[<-|[]]] E]; injection E as <-; vm_compute; lia.
  - exists (fun n => if str_eqb n (lit "product") then 1 else 0). intros n p e m H He Hm. destruct (Hin _ _ _ H) as [[<-|[<-|[<-|[]]]] E]; injection E as <-;
      (repeat (destruct He as [<-|He]; [repeat (destruct Hm as [Hm|Hm]; [first [discriminate Hm|injection Hm as <-; first [left; reflexivity|right; vm_compute; lia]]|]); destruct Hm|]); destruct He).
  - intros m q H _. destruct (Hin _ _ _ H) as [[<-|[<-|[<-|[]]]] E]; injection E as <-; vm_compute; lia.
  - intros [rank H].
    assert (Ha : first_for mutual_grammar (lit "a") mutual_a) by (apply rule_some; reflexivity).
    assert (Hb : first_for mutual_grammar (lit "b") mutual_b) by (apply rule_some; reflexivity).
    destruct (H _ _ _ (lit "b") Ha (or_introl eq_refl) (or_introl eq_refl)) as [E|H1]; [discriminate|].
    destruct (H _ _ _ (lit "a") Hb (or_introl eq_refl) (or_introl eq_refl)) as [E|H2]; [discriminate|].
    revert H1 H2. generalize (rank (lit "a")), (rank (lit "b")). intros. lia.
Qed.
