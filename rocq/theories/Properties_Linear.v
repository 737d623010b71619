(** C83: grammars whose alternatives begin with different characters.  [predictive],
    [linear_bound] and the trees of DNA sequences are in LinearSpec.v; [dna_grammar] (README.md and
    examples/) and [polish_grammar] (benches/divan.rs) in Facts_Linear.v. *)
From Verif Require Import Facts_Linear Facts_Repeated.
From Coq Require String.
Import String.StringSyntax.

(** Every input has at most one parse tree. *)
Theorem C83_one_tree : forall g start input t t', predictive g -> parses g start input t -> parses g start input t' -> t = t'.
Proof. exact C83_one_tree_proof. Qed.
Print Assumptions C83_one_tree.

(** The iterator returns at most one tree, and all its calls together make a number of traversals
    that is linear in the length of the input. *)
Theorem C83_linear : forall g start input it ts it1,
  predictive g -> NoDup (flat_prods g) -> opens g start input it -> produces it ts it1 ->
  List.length ts <= 1 /\ List.length (tt_arena (s_tree (it_state it1))) <= linear_bound g input /\
  exists r, iter_next (S (linear_bound g input)) it1 = Ok r.
Proof. exact C83_linear_proof. Qed.
Print Assumptions C83_linear.

(** That no alternative is listed twice cannot be left out.  There is a grammar of this kind in which
    one is, and for which the iterator, on inputs of [n + 1] characters with one parse tree, can be
    asked for [2 ^ n] results; the work is at least that. *)
Theorem C83_repeated_refuted : exists g start, predictive g /\ forall n, let input := repeat 97%N n ++ [98%N] in
  (exists it, opens g start input it) /\ forall it, opens g start input it ->
    exists ts it1, produces it ts it1 /\ 2 ^ n <= List.length ts /\ 2 ^ n <= List.length (tt_arena (s_tree (it_state it1))).
Proof. exact linear_repeated. Qed.
Print Assumptions C83_repeated_refuted.

(** The Polish calculator of the benchmarks is of this kind. *)
Theorem C83_polish : predictive polish_grammar /\ NoDup (flat_prods polish_grammar).
Proof. exact (conj polish_predictive polish_nodup). Qed.
Print Assumptions C83_polish.

(** The grammar for DNA is not of this kind.  Exactly the nonempty sequences of the four letters have a
    parse tree, which is the comb [dna_tree]; *)
Theorem C83_dna_trees : forall input t, parses dna_grammar (N_ "dna") input t <->
  exists c w, input = c :: w /\ Forall dna_letter input /\ t = dna_tree c w.
Proof. exact C83_dna_trees_proof. Qed.
Print Assumptions C83_dna_trees.

(** the iterator returns it and ends; *)
Theorem C83_dna_run : forall c w it, Forall dna_letter (c :: w) -> opens dna_grammar (N_ "dna") (c :: w) it ->
  exists it1 f it2, produces it [dna_tree c w] it1 /\ iter_next f it1 = Ok (None, it2).
Proof. exact C83_dna_run_proof. Qed.
Print Assumptions C83_dna_run.

(** but the work grows with the square of the length. *)
Theorem C83_dna_work : forall input it ts it1 f it2, Forall dna_letter input ->
  opens dna_grammar (N_ "dna") input it -> produces it ts it1 -> iter_next f it1 = Ok (None, it2) ->
  List.length input * (List.length input - 1) <= 2 * List.length (tt_arena (s_tree (it_state it2))).
Proof. exact C83_dna_work_proof. Qed.
Print Assumptions C83_dna_work.

Example C83_example :
  linear_bound polish_grammar (lit "+1*23") = 204 /\
  (exists it, opens polish_grammar (N_ "product") (lit "+1*23") it) /\
  List.length (trees_of polish_grammar (N_ "product") "+1*23" 3) = 1 /\
  ~ predictive dna_grammar /\ (exists it, opens dna_grammar (N_ "dna") (lit "GATTACA") it) /\
  Forall dna_letter (lit "GATTACA") /\
  trees_of dna_grammar (N_ "dna") "GAT" 3 = [dna_tree 71%N (lit "AT")].
Proof.
  split; [reflexivity|].
  split; [eexists; exact (proj1 (run_facts polish_grammar (N_ "product") "+1*23" 3 ltac:(vm_compute; reflexivity) ltac:(vm_compute; reflexivity)))|].
  split; [vm_compute; reflexivity|].
  split; [exact dna_not_predictive|].
  split; [eexists; exact (proj1 (run_facts dna_grammar (N_ "dna") "GATTACA" 3 ltac:(vm_compute; reflexivity) ltac:(vm_compute; reflexivity)))|].
  split; [|vm_compute; reflexivity].
  repeat apply Forall_cons; [..|apply Forall_nil]; vm_compute; auto.
Qed.

Example C83_repeated_example :
  predictive twice_grammar /\ (exists it, opens twice_grammar (N_ "s") (lit "aaab") it) /\
  List.length (trees_of twice_grammar (N_ "s") "aaab" 20) = 2 ^ 3.
Proof.
  split; [exact repeated_predictive|].
  split; [eexists; exact (proj1 (run_facts twice_grammar (N_ "s") "aaab" 20 ltac:(vm_compute; reflexivity) ltac:(vm_compute; reflexivity)))|].
  vm_compute. reflexivity.
Qed.
