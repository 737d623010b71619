(** C100: what generation sees of a grammar.  [shows], [expands_to] and [same_generation] are in GenSameSpec.v. *)
From Verif Require Import ParseExamples GenProofs Facts_Rename GenSameCases.
From Coq Require String.
Import String.StringSyntax.

(** The expansion of a nonterminal, for strategies and callbacks of the user's. *)
Theorem C100_expansion : forall S S' (choose : S -> nat -> production -> nat -> res (option expression * S))
    (choose' : S' -> nat -> production -> nat -> res (option expression * S'))
    (accept : S -> str -> str -> bool * S) (accept' : S' -> str -> str -> bool * S') (T : S -> S' -> Prop) h g g' start,
  shows h g start g' -> corresponding h g start g' T choose choose' ->
  (forall n s st st', expands_to g start n -> T st st' ->
     fst (accept' st' (h n) s) = fst (accept st n s) /\ T (snd (accept st n s)) (snd (accept' st' (h n) s))) ->
  forall fuel n st st' depth, expands_to g start n -> T st st' ->
  same_outcome T (traverse choose accept g fuel n st depth) (traverse choose' accept' g' fuel (h n) st' depth).
Proof. exact @traverse_same. Qed.
Print Assumptions C100_expansion.

(** The built-in strategies. *)
Theorem C100_same : forall h g g' start f f',
  shows h g start g' -> keeps_apart h g start -> begins g start -> begins g' (h start) ->
  (exists fuel, terminates fuel g = Ok true) -> (exists fuel, terminates fuel g' = Ok true) ->
  (forall n s, expands_to g start n -> f' (h n) s = f n s) ->
  same_generation g f g' f'.
Proof. exact same_generation_shows. Qed.
Print Assumptions C100_same.

(** Rules for nonterminals that the expansion cannot come to, or that have an earlier rule. *)
Theorem C100_added : forall g1 extra g2 start f, begins g1 start ->
  (forall q m, In q extra -> p_lhs q = Nonterminal m -> expands_to (g1 ++ g2) start m -> has_lhs g1 m) ->
  (exists fuel, terminates fuel (g1 ++ g2) = Ok true) ->
  same_generation (g1 ++ g2) f (g1 ++ extra ++ g2) f.
Proof. exact added_same. Qed.
Print Assumptions C100_added.

(** The order of rules for different nonterminals, after the first. *)
Theorem C100_exchanged : forall g1 a b g2 start f, begins g1 start -> p_lhs a <> p_lhs b ->
  (exists fuel, terminates fuel (g1 ++ a :: b :: g2) = Ok true) ->
  same_generation (g1 ++ a :: b :: g2) f (g1 ++ b :: a :: g2) f.
Proof. exact exchanged_same. Qed.
Print Assumptions C100_exchanged.

(** The names of the nonterminals that have a rule. *)
Theorem C100_renamed : forall h g start f f', (forall a b, h a = h b -> a = b) -> begins g start ->
  (forall n, expands_to g start n -> ~ has_lhs g n -> h n = n) ->
  (exists fuel, terminates fuel g = Ok true) -> (forall n s, expands_to g start n -> f' (h n) s = f n s) ->
  same_generation g f (map (rename_production h) g) f'.
Proof. exact renamed_same. Qed.
Print Assumptions C100_renamed.

(** The order of two rules for the same nonterminal can be observed. *)
Theorem C100_order_refuted : exists g1 a b start, begins g1 start /\ p_lhs a = p_lhs b /\
  (exists fuel, terminates fuel (g1 ++ [a; b]) = Ok true) /\
  ~ same_generation (g1 ++ [a; b]) (fun _ _ => true) (g1 ++ [b; a]) (fun _ _ => true).
Proof. exact order_visible. Qed.
Print Assumptions C100_order_refuted.

(** The name of a nonterminal without a rule can be observed. *)
Theorem C100_name_refuted : exists h g start, (forall a b : str, h a = h b -> a = b) /\ begins g start /\
  (exists fuel, terminates fuel g = Ok true) /\
  ~ same_generation g (fun _ _ => true) (map (rename_production h) g) (fun _ _ => true).
Proof. exact name_visible. Qed.
Print Assumptions C100_name_refuted.

Example C100_example :
  begins front (lit "s") /\
  (forall q m, In q middle -> p_lhs q = Nonterminal m -> expands_to (front ++ back) (lit "s") m -> has_lhs front m) /\
  terminates 5 (front ++ back) = Ok true /\
  generate_random script_rng (fun _ _ => true) (front ++ back) 9 [0; 1; 1] = Ok (ROk (lit "adu"), []) /\
  generate_random script_rng (fun _ _ => true) (front ++ middle ++ back) 9 [0; 1; 1] = Ok (ROk (lit "adu"), []) /\
  shown (generate_with_strategy (coverage_guided script_rng) (front ++ back) 9 (mkCov [] [0; 0; 1])) =
    Some (lit "adu", [], [(1, 1); (0, 1); (0, 0)]) /\
  shown (generate_with_strategy (coverage_guided script_rng) (front ++ middle ++ back) 9 (mkCov [] [0; 0; 1])) =
    Some (lit "adu", [], [(3, 1); (0, 1); (0, 0)]).
Proof. exact example_same. Qed.
