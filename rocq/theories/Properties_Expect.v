(** C85: how many random numbers a sentence takes on average.  [estimate] and [average_draws] are in
    ExpectSpec.v. *)
From Verif Require Import ParseExamples StrategyProofs Facts_Strategies DocProofs Facts_Linear Facts_Expect.
From Coq Require Import Lia.
From Coq Require String.
Import String.StringSyntax.

(** If an estimate of the draws below each nonterminal is consistent with the rules, the average
    number of draws of a call does not exceed it. *)
Theorem C85_random_walk : forall g p rest n fuel0,
  g = p :: rest -> p_lhs p = Nonterminal n -> terminates fuel0 g = Ok true -> forall K W base len,
  estimate g random_alternatives K W ->
  (forall d q, In q g -> choosable q -> Nat.divide (List.length (random_alternatives d q)) base) ->
  average_draws (fun f fuel => generate_random (stream_rng f) (fun _ _ => true) g fuel 0) base len K (W 0 n).
Proof. exact C85_random_walk_proof. Qed.
Print Assumptions C85_random_walk.

Theorem C85_depth_bounded : forall g p rest n fuel0,
  g = p :: rest -> p_lhs p = Nonterminal n -> terminates fuel0 g = Ok true -> forall K W base len max,
  estimate g (depth_alternatives max) K W ->
  (forall d q, In q g -> choosable q -> Nat.divide (List.length (depth_alternatives max d q)) base) ->
  average_draws (fun f fuel => generate (depth_bounded (stream_rng f) max) (pure_callback (fun _ _ => true)) g fuel 0) base len K (W 0 n).
Proof. exact C85_depth_bounded_proof. Qed.
Print Assumptions C85_depth_bounded.

Theorem C85_weighted : forall g p rest n fuel0,
  g = p :: rest -> p_lhs p = Nonterminal n -> terminates fuel0 g = Ok true -> forall K W base len checks rec nonrec,
  estimate g (weighted_alternatives rec nonrec) K W ->
  (forall q, In q g -> (nsum (fill_weights rec nonrec q) < 2 ^ 32)%N) ->
  (forall d q, In q g -> choosable q -> Nat.divide (List.length (weighted_alternatives rec nonrec d q)) base) ->
  average_draws (fun f fuel => generate (weighted (stream_rng f) checks rec nonrec) (pure_callback (fun _ _ => true)) g fuel 0)
    base len K (W 0 n).
Proof. exact C85_weighted_proof. Qed.
Print Assumptions C85_weighted.

(** Then generation ends with probability one: for every [k] there is a number of draws within which
    at most one of [k] calls does not return. *)
Theorem C85_probability_one : forall run base K W, 0 < K -> (forall len, average_draws run base len K W) ->
  forall k, exists len, forall late, NoDup late ->
    (forall s, In s late -> In s (scripts base len) /\ ~ exists fuel r l, l <= len /\ run (source s) fuel = Ok (r, l)) ->
    k * List.length late <= base ^ len.
Proof. exact C85_probability_one_proof. Qed.
Print Assumptions C85_probability_one.

(** The grammar for DNA takes at most four draws on average.  For <s> ::= <s> <s> <s> | 'a', which does
    not end with probability one (C58), there is no estimate for RandomWalk; with the weights 1 and 4
    a sentence takes at most two and a half draws on average. *)
Example C85_example :
  let dna_draws := fun (_ : nat) n => if str_eqb n (lit "dna") then 4 else 1 in
  estimate dna_grammar random_alternatives 1 dna_draws /\ terminates 3 dna_grammar = Ok true /\
  (forall d q, In q dna_grammar -> choosable q -> Nat.divide (List.length (random_alternatives d q)) 4) /\
  (forall K W, 0 < K -> ~ estimate branching_grammar random_alternatives K (fun _ => W)) /\
  estimate branching_grammar (weighted_alternatives 1 4) 2 (fun _ _ => 5) /\
  (forall d q, In q branching_grammar -> choosable q -> Nat.divide (List.length (weighted_alternatives 1 4 d q)) 5) /\
  (forall d q, In q [two_alts] -> choosable q -> Nat.divide (List.length (depth_alternatives 2 d q)) 2) /\
  estimate [two_alts] (depth_alternatives 2) 4 (fun d _ => match d with 0 => 7 | 1 => 6 | _ => 4 end).
Proof.
  assert (Hf : forall g n p, first_for g n p -> find_production g n 0 <> None /\ In p g /\ p_lhs p = Nonterminal n).
  { intros g n p H. destruct (find_production_first g n p H) as [i E]. split; [congruence|]. apply first_for_In, H. }
  split; [|split; [reflexivity|split; [|split; [|split; [|split; [|split]]]]]].
  - intros d n p H _. destruct (Hf _ _ _ H) as (_ & [<-|[<-|[]]] & E); injection E as <-; vm_compute; lia.
  - intros d q [<-|[<-|[]]] _; [exists 2|exists 1]; reflexivity.
  - intros K W HK H. specialize (H 0 (lit "s") (mkProd (N_ "s") [[N_ "s"; N_ "s"; N_ "s"]; [T_ "a"]])).
    assert (G : K * 2 + (W (lit "s") + (W (lit "s") + (W (lit "s") + 0)) + (0 + 0)) <= W (lit "s") * 2); [|revert G; generalize (W (lit "s")); intros w G; lia].
    apply H; [exists [], []; repeat split; intros q []|split; discriminate].
  - intros d n p H _. destruct (Hf _ _ _ H) as (_ & [<-|[]] & E); injection E as <-; vm_compute; lia.
  - intros d q [<-|[]] _. exists 1. reflexivity.
  - intros [|[|d]] q [<-|[]] _; [exists 1|exists 1|exists 2]; reflexivity.
  - intros [|[|d]] n p H _; destruct (Hf _ _ _ H) as (_ & [<-|[]] & E); injection E as <-; vm_compute; lia.
Qed.
