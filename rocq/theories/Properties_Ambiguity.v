(** C84: unambiguous grammars.  [unambiguous], [fruitful] and [quadratic_bound] are in
    AmbiguitySpec.v. *)
From Verif Require Import Facts_Ambiguity Facts_Repeated.
From Coq Require String.
Import String.StringSyntax.

(** If every input has at most one parse tree and every reachable nonterminal generates some string,
    the number of traversals is at most quadratic and every call returns within that many
    iterations. *)
Theorem C84_quadratic : forall g start input it ts it1,
  unambiguous g start -> fruitful g start -> NoDup (flat_prods g) -> opens g start input it -> produces it ts it1 ->
  List.length ts <= 1 /\ List.length (tt_arena (s_tree (it_state it1))) <= quadratic_bound g input /\
  exists r, iter_next (S (quadratic_bound g input)) it1 = Ok r.
Proof. exact C84_quadratic_proof. Qed.
Print Assumptions C84_quadratic.

(** The square cannot be improved: the grammar for DNA of README.md is such a grammar. *)
Theorem C84_square_attained : exists g start, unambiguous g start /\ fruitful g start /\ NoDup (flat_prods g) /\ forall n,
  let input := repeat 65%N (S n) in
  exists it ts it1 f it2, opens g start input it /\ produces it ts it1 /\ iter_next f it1 = Ok (None, it2) /\
    S n * n <= 2 * List.length (tt_arena (s_tree (it_state it2))).
Proof. exact C84_square_attained_proof. Qed.
Print Assumptions C84_square_attained.

(** Without the second condition the bound fails: a grammar that has no parse tree at all, for which
    rejecting an input of n characters takes 2^n traversals. *)
Theorem C84_unambiguous_alone_refuted : exists g start, unambiguous g start /\ ~ cyclic g /\ NoDup (flat_prods g) /\ forall n,
  let input := repeat 120%N n in
  (exists it, opens g start input it) /\
  forall it, opens g start input it ->
    (exists f it', iter_next f it = Ok (None, it')) /\
    forall f o it', iter_next f it = Ok (o, it') -> o = None /\ 2 ^ n <= List.length (tt_arena (s_tree (it_state it'))).
Proof. exact C84_fruitful_needed_proof. Qed.
Print Assumptions C84_unambiguous_alone_refuted.

(** Nor can alternatives be listed twice. *)
Theorem C84_repeated_refuted : exists g start, unambiguous g start /\ fruitful g start /\ forall n, let input := repeat 97%N n ++ [98%N] in
  (exists it, opens g start input it) /\ forall it, opens g start input it ->
    exists ts it1, produces it ts it1 /\ 2 ^ n <= List.length ts /\ 2 ^ n <= List.length (tt_arena (s_tree (it_state it1))).
Proof. exact quadratic_repeated. Qed.
Print Assumptions C84_repeated_refuted.

Example C84_example :
  unambiguous dna_grammar (N_ "dna") /\ fruitful dna_grammar (N_ "dna") /\ NoDup (flat_prods dna_grammar) /\
  quadratic_bound dna_grammar (lit "GATTACA") = 832 /\
  List.length (tt_arena (s_tree (it_state (final_of dna_grammar (N_ "dna") "GATTACA" 3)))) = 90.
Proof.
  split; [exact dna_unambiguous|]. split; [exact dna_fruitful|]. split; [exact dna_nodup|].
  split; vm_compute; reflexivity.
Qed.
