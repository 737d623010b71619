(** The last steps to C85. *)
From Verif Require Export ExpectProofs Facts_Walks.
From Verif Require Import StrategyProofs Facts_Strategies.
From Coq Require Import Lia.

Section Facts.
  Variables (g : grammar) (p : production) (rest : list production) (n : str) (fuel0 : nat).
  Hypothesis Eg : g = p :: rest.
  Hypothesis Hl : p_lhs p = Nonterminal n.
  Hypothesis Ht : terminates fuel0 g = Ok true.
  Variables (K : nat) (W : nat -> str -> nat) (base len : nat).
  Notation yes := (fun _ _ : str => true).

  Lemma start_rule : rule_of g n <> None.
  Proof.
    assert (H : first_for g n p) by (exists [], rest; rewrite Eg; repeat split; [exact Hl|intros q []]).
    apply rule_some in H. congruence.
  Qed.

  Lemma C85_random_walk_proof : estimate g random_alternatives K W ->
    (forall d q, In q g -> choosable q -> Nat.divide (length (random_alternatives d q)) base) ->
    average_draws (fun f fuel => generate_random (stream_rng f) yes g fuel 0) base len K (W 0 n).
  Proof.
    intros He Hd. apply (average g random_alternatives no_alternative); [|exact Hd|exact He|exact start_rule|].
    - intros d q _ [Hc _]. exact Hc.
    - intros f r l. exact (C70_random_walk_proof g p rest n fuel0 Eg Hl Ht yes f r l).
  Qed.

  Lemma C85_depth_bounded_proof max : estimate g (depth_alternatives max) K W ->
    (forall d q, In q g -> choosable q -> Nat.divide (length (depth_alternatives max d q)) base) ->
    average_draws (fun f fuel => generate (depth_bounded (stream_rng f) max) (pure_callback yes) g fuel 0) base len K (W 0 n).
  Proof.
    intros He Hd. apply (average g (depth_alternatives max) no_alternative); [|exact Hd|exact He|exact start_rule|].
    - intros d q _ [Hc _]. unfold depth_alternatives. destruct (d <? max); [exact Hc|].
      destruct (filter (fun e => negb (existsb is_nonterminal e)) (p_rhs q)); [exact Hc|discriminate].
    - intros f r l. exact (C70_depth_bounded_proof g p rest n fuel0 Eg Hl Ht max yes f r l).
  Qed.

  Lemma C85_weighted_proof checks rec nonrec : estimate g (weighted_alternatives rec nonrec) K W ->
    (forall q, In q g -> (nsum (fill_weights rec nonrec q) < 2 ^ 32)%N) ->
    (forall d q, In q g -> choosable q -> Nat.divide (length (weighted_alternatives rec nonrec d q)) base) ->
    average_draws (fun f fuel => generate (weighted (stream_rng f) checks rec nonrec) (pure_callback yes) g fuel 0) base len K (W 0 n).
  Proof.
    intros He Hw Hd. apply (average g (weighted_alternatives rec nonrec) no_alternative); [|exact Hd|exact He|exact start_rule|].
    - intros d q _ [Hc _]. unfold weighted_alternatives.
      match goal with |- context [match ?l with [] => _ | _ :: _ => _ end] => destruct l end; [exact Hc|discriminate].
    - intros f r l. exact (C70_weighted_proof g p rest n fuel0 Eg Hl Ht checks rec nonrec yes f r l Hw).
  Qed.
End Facts.

Lemma C85_probability_one_proof : forall run base K W, 0 < K -> (forall len, average_draws run base len K W) ->
  forall k, exists len, forall late, NoDup late ->
    (forall s, In s late -> In s (scripts base len) /\ ~ exists fuel r l, l <= len /\ run (source s) fuel = Ok (r, l)) ->
    k * length late <= base ^ len.
Proof.
  intros run base K W HK H k. exists (S (k * W)). intros late Hnd Hl.
  pose proof (H (S (k * W)) [] late (NoDup_nil _) Hnd ltac:(intros s l []) Hl) as HB. cbn [map list_sum fold_right Nat.add] in HB.
  set (B := base ^ S (k * W)) in *. clearbody B. set (x := length late) in *. clearbody x. clear - HB HK.
  assert (H1 : S (k * W) * x <= W * B) by nia. destruct W as [|w]; [nia|].
  assert (H2 : S w * (k * x) <= S w * B) by nia. apply Nat.mul_le_mono_pos_l in H2; lia.
Qed.
