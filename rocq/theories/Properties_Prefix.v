(** Properties C109: how far into the input the parser gets. *)
From Verif Require Import PrefixProofs Facts_Prefix ParseExamples.
From Coq Require Import String.
Open Scope list_scope.

(** At any time, a traversal ends only where the input before it can be continued to a sentence. *)
Theorem C109_only_viable : forall g start input it ts it1 k,
  fruitful g start -> opens g start input it -> produces it ts it1 -> arrives it1 k ->
  exists w v, input = w ++ v /\ byte_len w = k /\ leads g start w.
Proof. exact arrives_leads. Qed.
Print Assumptions C109_only_viable.

(** At the end, the traversals end exactly there. *)
Theorem C109_all_viable : forall g start input it ts it1 f it2,
  fruitful g start -> opens g start input it -> produces it ts it1 -> iter_next f it1 = Ok (None, it2) ->
  forall k, arrives it2 k <-> exists w v, input = w ++ v /\ byte_len w = k /\ leads g start w.
Proof. exact ended_arrives. Qed.
Print Assumptions C109_all_viable.

(** Without nonterminals that generate nothing being excluded, one direction. *)
Theorem C109_arrives : forall g start input it ts it1 f it2 w v,
  opens g start input it -> produces it ts it1 -> iter_next f it1 = Ok (None, it2) ->
  input = w ++ v -> leads g start w -> arrives it2 (byte_len w).
Proof. exact leads_arrives. Qed.
Print Assumptions C109_arrives.

(** With terminals of one character these are all the beginnings of sentences. *)
Theorem C109_characters : forall g start input it ts it1 f it2,
  fruitful g start -> short_terminals g -> opens g start input it -> produces it ts it1 -> iter_next f it1 = Ok (None, it2) ->
  forall k, arrives it2 k <-> exists w v, input = w ++ v /\ byte_len w = k /\ viable g start w.
Proof. exact ended_viable. Qed.
Print Assumptions C109_characters.

(** What follows the first wrong terminal does not matter: neither whether the enumeration ends, nor for the work. *)
Theorem C109_rest : forall g start w x y it it' ts it1 f it2,
  fruitful g start -> wrong_after g start w x -> wrong_after g start w y ->
  opens g start (w ++ x) it -> opens g start (w ++ y) it' -> produces it ts it1 -> iter_next f it1 = Ok (None, it2) ->
  exists ts' it1' f' it2', produces it' ts' it1' /\ iter_next f' it1' = Ok (None, it2') /\
    List.length (tt_arena (s_tree (it_state it2'))) = List.length (tt_arena (s_tree (it_state it2))).
Proof. exact wrong_same_work. Qed.
Print Assumptions C109_rest.

(** And nothing is returned. *)
Theorem C109_refused : forall g start w x it ts it1,
  wrong_after g start w x -> x <> [] -> opens g start (w ++ x) it -> produces it ts it1 -> ts = [].
Proof. exact wrong_refused. Qed.
Print Assumptions C109_refused.

(** <s> ::= 'a' <x> and <x> ::= <x> 'c' with the input ab: the parser goes on after the a, although there is no sentence. *)
Theorem C109_any_grammar_refuted : exists g start input it f it2 k,
  opens g start input it /\ iter_next f it = Ok (None, it2) /\ arrives it2 k /\ forall w, ~ leads g start w.
Proof. exact fruitful_needed. Qed.
Print Assumptions C109_any_grammar_refuted.

(** <s> ::= 'ab' with the input ac: a terminal is matched as a whole. *)
Theorem C109_any_terminals_refuted : exists g start input it f it2 w v,
  fruitful g start /\ opens g start input it /\ iter_next f it = Ok (None, it2) /\
  input = w ++ v /\ viable g start w /\ ~ arrives it2 (byte_len w).
Proof. exact short_needed. Qed.
Print Assumptions C109_any_terminals_refuted.

(** Sums: a+b and a+b+a+a+a both take seven traversals. *)
Example C109_example :
  fruitful sum_grammar (N_ "e") /\ short_terminals sum_grammar /\
  wrong_after sum_grammar (N_ "e") (lit "a+") (lit "b") /\ wrong_after sum_grammar (N_ "e") (lit "a+") (lit "b+a+a+a") /\
  (exists it f it2, opens sum_grammar (N_ "e") (lit "a+b") it /\ iter_next f it = Ok (None, it2) /\
     arrives it2 2 /\ ~ arrives it2 3 /\ List.length (tt_arena (s_tree (it_state it2))) = 7) /\
  (exists it f it2, opens sum_grammar (N_ "e") (lit "a+b+a+a+a") it /\ iter_next f it = Ok (None, it2) /\
     List.length (tt_arena (s_tree (it_state it2))) = 7).
Proof. exact prefix_example. Qed.
