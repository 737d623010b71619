(** C86: random sentences of the calculator that the benchmarks use (benches/divan.rs:79-92).
    [polish_grammar] is in Facts_Linear.v, [average_at_least] in ExpectSpec.v. *)
From Verif Require Import ParseExamples StrategyProofs Facts_Strategies DocProofs Facts_Linear Facts_Expect CriticalProofs.
From Coq Require Import Lia.
From Coq Require String.
Import String.StringSyntax.

(** The number of draws of a sentence has no finite average: within 2 (B + 1)^2 draws at least [B] are
    taken on average. *)
Theorem C86_infinite_average : forall base, Nat.divide 20 base -> forall B,
  average_at_least (fun f fuel => generate_random (stream_rng f) (fun _ _ => true) polish_grammar fuel 0)
    base (2 * (S B * S B)) B.
Proof. exact C86_infinite_average_proof. Qed.
Print Assumptions C86_infinite_average.

(** All the same generation ends with probability one. *)
Theorem C86_probability_one : forall base, Nat.divide 20 base -> forall k, exists len, forall late, NoDup late ->
  (forall s, In s late -> In s (scripts base len) /\
     ~ exists fuel r l, l <= len /\ generate_random (stream_rng (source s)) (fun _ _ => true) polish_grammar fuel 0 = Ok (r, l)) ->
  k * List.length late <= base ^ len.
Proof. exact C86_probability_one_proof. Qed.
Print Assumptions C86_probability_one.

(** So the estimates that C85 asks for are not necessary for an end with probability one. *)
Theorem C86_no_estimate : forall K W, 0 < K -> ~ estimate polish_grammar random_alternatives K W.
Proof. exact C86_no_estimate_proof. Qed.
Print Assumptions C86_no_estimate.

(** The numbers 0 and 3 make the sentence "3", after two draws; 1, 2, 0, 7, 0, 4 make "*74".  With the
    weights 1 and 2 a sentence takes at most six draws on average. *)
Example C86_example :
  generate_random (stream_rng (source [0; 3])) (fun _ _ => true) polish_grammar 20 0 = Ok (ROk (lit "3"), 2) /\
  generate_random (stream_rng (source [1; 2; 0; 7; 0; 4])) (fun _ _ => true) polish_grammar 40 0 = Ok (ROk (lit "*74"), 6) /\
  Nat.divide 20 20 /\
  estimate polish_grammar (weighted_alternatives 1 2) 1 (fun _ n => if str_eqb n (lit "product") then 6 else 1).
Proof.
  split; [vm_compute; reflexivity|]. split; [vm_compute; reflexivity|]. split; [exists 1; reflexivity|].
  intros d n p H _. destruct (first_for_In _ _ _ H) as [[<-|[<-|[<-|[]]]] E]; injection E as <-; vm_compute; lia.
Qed.
