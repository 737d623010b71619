(** C104: grammars put together from others.  The constructions are in CombineSpec.v. *)
From Verif Require Import CombineProofs CombineGen ParseExamples.
From Coq Require Import Permutation.
From Coq Require String.
Import String.StringSyntax.

(** ** C104 Alternation, sequence, repetition and reversal of grammars *)

(** A rule with two alternatives returns the trees of the one grammar and of the other. *)
Theorem C104_either : forall n a b g h w it it1 it2 t, separate n a b g h ->
  opens (either n a b g h) (Nonterminal n) w it -> opens g (Nonterminal a) w it1 -> opens h (Nonterminal b) w it2 ->
  (returns it t <-> exists u, t = Node (Nonterminal n) [Sub u] /\ (returns it1 u \/ returns it2 u)).
Proof. exact either_returns. Qed.
Print Assumptions C104_either.

(** The numbers of trees add up. *)
Theorem C104_either_all : forall n a b g h w ts ts1 ts2, separate n a b g h -> NoDup (flat_prods (either n a b g h)) ->
  all_trees (either n a b g h) n w ts -> all_trees g a w ts1 -> all_trees h b w ts2 ->
  Permutation ts (map (fun u => Node (Nonterminal n) [Sub u]) (ts1 ++ ts2)).
Proof. exact either_all. Qed.
Print Assumptions C104_either_all.

(** A rule with two names in sequence: the input is cut in two. *)
Theorem C104_sequence : forall n a b g h w it t, separate n a b g h -> opens (in_sequence n a b g h) (Nonterminal n) w it ->
  (returns it t <-> exists u v x y it1 it2, t = Node (Nonterminal n) [Sub u; Sub v] /\ w = x ++ y /\
     opens g (Nonterminal a) x it1 /\ returns it1 u /\ opens h (Nonterminal b) y it2 /\ returns it2 v).
Proof. exact sequence_returns. Qed.
Print Assumptions C104_sequence.

(** The numbers of trees are multiplied for each cut and summed up. *)
Theorem C104_sequence_all : forall n a b g h w ts (left right : nat -> list ptree),
  separate n a b g h -> NoDup (flat_prods (in_sequence n a b g h)) ->
  all_trees (in_sequence n a b g h) n w ts ->
  (forall i, i <= length w -> all_trees g a (firstn i w) (left i)) ->
  (forall i, i <= length w -> all_trees h b (skipn i w) (right i)) ->
  Permutation ts (flat_map (fun i => map (fun x => Node (Nonterminal n) [Sub (fst x); Sub (snd x)]) (list_prod (left i) (right i)))
                           (seq 0 (S (length w)))).
Proof. exact sequence_all. Qed.
Print Assumptions C104_sequence_all.

(** A recursive rule with an empty alternative accepts the sequences of any length. *)
Theorem C104_repeated : forall n a g w, ~ called a g n -> ~ has_lhs g n ->
  (accepts (repeated n a g) n w <-> exists ws, w = concat ws /\ Forall (accepts g a) ws).
Proof. exact repeated_accepts. Qed.
Print Assumptions C104_repeated.

(** All alternatives and terminals reversed: the reversed trees of the reversed input. *)
Theorem C104_mirror : forall g s w it it' t, opens g s w it -> opens (mirror g) s (rev w) it' ->
  (returns it' (mirror_tree t) <-> returns it t).
Proof. exact mirror_returns. Qed.
Print Assumptions C104_mirror.

Theorem C104_mirror_all : forall g s w ts ts', NoDup (flat_prods g) -> all_trees g s w ts -> all_trees (mirror g) s (rev w) ts' ->
  Permutation ts' (map mirror_tree ts).
Proof. exact mirror_all. Qed.
Print Assumptions C104_mirror_all.

(** All of them can be built if the parts can. *)
Theorem C104_built : forall n a b g h, sound g -> sound h -> has_alt g a -> has_alt h b ->
  sound (either n a b g h) /\ sound (in_sequence n a b g h) /\ sound (repeated n a g) /\ sound (mirror g).
Proof. exact combined_sound. Qed.
Print Assumptions C104_built.

(** Sums, and one or more "+a": two trees for either, 1 + 1 + 2 trees in sequence. *)
Example C104_example :
  separate (lit "s") (lit "e") (lit "d") sum_grammar plus_grammar /\
  NoDup (flat_prods (either (lit "s") (lit "e") (lit "d") sum_grammar plus_grammar)) /\
  NoDup (flat_prods (in_sequence (lit "s") (lit "e") (lit "d") sum_grammar plus_grammar)) /\
  sound sum_grammar /\ sound plus_grammar /\ has_alt sum_grammar (lit "e") /\ has_alt plus_grammar (lit "d") /\
  (exists ts, all_trees (either (lit "s") (lit "e") (lit "d") sum_grammar plus_grammar) (lit "s") (lit "a+a+a") ts /\ length ts = 2) /\
  (exists ts, all_trees (in_sequence (lit "s") (lit "e") (lit "d") sum_grammar plus_grammar) (lit "s") (lit "a+a+a+a") ts /\ length ts = 4) /\
  accepts (repeated (lit "s") (lit "e") sum_grammar) (lit "s") (lit "aa+a") /\
  (exists ts, all_trees (mirror plus_grammar) (lit "d") (rev (lit "+a+a")) ts /\
     ts = [Node (N_ "d") [Leaf (lit "a+"); Sub (Node (N_ "d") [Leaf (lit "a+")])]]).
Proof. exact combined_examples. Qed.

(** The texts that can be generated are those of the one grammar or the other, the pairs, the sequences, the reversals. *)
Theorem C104_generated : forall n a b g h w, tidy a g -> tidy b h -> separate n a b g h -> distinct_lhs (g ++ h) ->
  (makes (either n a b g h) w <-> makes g w \/ makes h w) /\
  (makes (in_sequence n a b g h) w <-> exists x y, w = x ++ y /\ makes g x /\ makes h y) /\
  (makes (repeated n a g) w <-> exists ws, w = concat ws /\ Forall (makes g) ws) /\
  (makes (mirror g) (rev w) <-> makes g w).
Proof. exact combined_makes. Qed.
Print Assumptions C104_generated.

Example C104_generated_example :
  tidy (lit "e") sum_grammar /\ tidy (lit "d") plus_grammar /\ separate (lit "s") (lit "e") (lit "d") sum_grammar plus_grammar /\
  distinct_lhs (sum_grammar ++ plus_grammar) /\
  generate_random script_rng (fun _ _ => true) (in_sequence (lit "s") (lit "e") (lit "d") sum_grammar plus_grammar) 20 [0; 0; 1; 1; 1; 0]
    = Ok (ROk (lit "a+a+a+a"), []) /\
  generate_random script_rng (fun _ _ => true) (repeated (lit "s") (lit "e") sum_grammar) 20 [1; 1; 1; 0; 1; 1; 0]
    = Ok (ROk (lit "aa+a"), []).
Proof. exact combined_makes_examples. Qed.
