(** C111: what a parse keeps in memory.  [visits], [values], [ids_where], [kept] and [retains] are in
    MemorySpec.v; [opens] in EarleySpec.v, [predictive] and [linear_bound] in LinearSpec.v, [unambiguous],
    [fruitful] and [quadratic_bound] in AmbiguitySpec.v. *)
From Verif Require Import MemoryProofs ParseExamples Facts_Linear Facts_Ambiguity.
From Coq Require Import Permutation.
From Coq Require String.
Import String.StringSyntax.

(** The two tables of the tree have one entry for each traversal, the first for the predicted ones and the
    second for the matched ones; the set of the queue has each traversal. *)
Theorem C111_tables : forall g start input it it1, opens g start input it -> visits it it1 ->
  let st := it_state it1 in let arena := tt_arena (s_tree st) in
  Permutation (values troot_eqb (tt_roots (s_tree st))) (ids_where is_root arena) /\
  Permutation (values tedge_eqb (tt_edges (s_tree st))) (ids_where is_child arena) /\
  Permutation (q_processed (s_queue st)) (seq 0 (List.length arena)).
Proof. exact parse_tables. Qed.
Print Assumptions C111_tables.

(** The vectors of the completion map together have each traversal once that left the queue and waits for a
    nonterminal or is complete, and none of the vectors is empty. *)
Theorem C111_vectors : forall g start input it it1, opens g start input it -> visits it it1 ->
  let st := it_state it1 in let arena := tt_arena (s_tree st) in
  let popped := firstn (List.length arena - List.length (q_queue (s_queue st))) arena in
  Permutation (List.concat (values ckey_eqb (cm_incomplete (s_comp st)))) (ids_where is_waiting popped) /\
  Permutation (List.concat (values ckey_eqb (cm_complete (s_comp st)))) (ids_where is_finished popped) /\
  ~ In [] (values ckey_eqb (cm_incomplete (s_comp st))) /\ ~ In [] (values ckey_eqb (cm_complete (s_comp st))).
Proof. exact parse_vectors. Qed.
Print Assumptions C111_vectors.

(** So memory and number of traversals determine each other up to a constant factor. *)
Theorem C111_kept : forall g start input it it1, opens g start input it -> visits it it1 ->
  let n := List.length (tt_arena (s_tree (it_state it1))) in 3 * n <= kept (it_state it1) <= 5 * n.
Proof. exact parse_kept. Qed.
Print Assumptions C111_kept.

(** The states met are the first one and those after a call, whether it returned a tree or [None]. *)
Theorem C111_every_call : forall it it1,
  visits it it1 <-> it1 = it \/ exists it0 fuel o, visits it it0 /\ iter_next fuel it0 = Ok (o, it1).
Proof. exact visits_iff. Qed.
Print Assumptions C111_every_call.

(** Nothing is given back, neither between trees nor after the last one. *)
Theorem C111_retains : forall it it1, visits it it1 -> retains (it_state it) (it_state it1).
Proof. exact visits_retains. Qed.
Print Assumptions C111_retains.

(** Memory is linear for predictive grammars and quadratic for unambiguous ones. *)
Theorem C111_linear : forall g start input it it1, predictive g -> NoDup (flat_prods g) ->
  opens g start input it -> visits it it1 -> kept (it_state it1) <= 5 * linear_bound g input.
Proof. exact linear_kept. Qed.
Print Assumptions C111_linear.

Theorem C111_quadratic : forall g start input it it1, unambiguous g start -> fruitful g start -> NoDup (flat_prods g) ->
  opens g start input it -> visits it it1 -> kept (it_state it1) <= 5 * quadratic_bound g input.
Proof. exact quadratic_kept. Qed.
Print Assumptions C111_quadratic.

Example C111_example :
  exists it ts it1, opens sum_grammar (N_ "e") (lit sum_input) it /\ produces it ts it1 /\ visits it it1 /\ List.length ts = 1 /\
    let st := it_state it1 in
    List.length (tt_arena (s_tree st)) = 22 /\ kept st = 88 /\ ids_where is_root (tt_arena (s_tree st)) = [0; 1; 5; 6; 13; 14] /\
    values ckey_eqb (cm_complete (s_comp st)) = [[2; 8; 17]; [7; 16]; [15]].
Proof.
  destruct (run_facts sum_grammar (N_ "e") sum_input 1) as (H1 & H2 & _); [vm_compute; reflexivity..|].
  eexists _, _, _. split; [exact H1|]. split; [exact H2|]. split; [exact (produces_visits _ _ _ H2)|]. vm_compute. repeat split.
Qed.

Example C111_bounds_example :
  (predictive polish_grammar /\ NoDup (flat_prods polish_grammar) /\ linear_bound polish_grammar (lit "+1*23") = 204 /\
   opens polish_grammar (N_ "product") (lit "+1*23") (start_of polish_grammar (N_ "product") "+1*23") /\
   visits (start_of polish_grammar (N_ "product") "+1*23") (final_of polish_grammar (N_ "product") "+1*23" 3) /\
   kept (it_state (final_of polish_grammar (N_ "product") "+1*23" 3)) = 330) /\
  (unambiguous dna_grammar (N_ "dna") /\ fruitful dna_grammar (N_ "dna") /\ NoDup (flat_prods dna_grammar) /\ quadratic_bound dna_grammar (lit "GATTACA") = 832 /\
   opens dna_grammar (N_ "dna") (lit "GATTACA") (start_of dna_grammar (N_ "dna") "GATTACA") /\
   visits (start_of dna_grammar (N_ "dna") "GATTACA") (final_of dna_grammar (N_ "dna") "GATTACA" 3) /\
   kept (it_state (final_of dna_grammar (N_ "dna") "GATTACA" 3)) = 357).
Proof.
  destruct (run_facts polish_grammar (N_ "product") "+1*23" 3) as (H1 & H2 & _); [vm_compute; reflexivity..|].
  destruct (run_facts dna_grammar (N_ "dna") "GATTACA" 3) as (H3 & H4 & _); [vm_compute; reflexivity..|].
  split.
  - split; [exact polish_predictive|]. split; [exact polish_nodup|]. split; [vm_compute; reflexivity|]. split; [exact H1|]. split; [exact (produces_visits _ _ _ H2)|]. vm_compute. reflexivity.
  - split; [exact dna_unambiguous|]. split; [exact dna_fruitful|]. split; [exact dna_nodup|]. split; [vm_compute; reflexivity|]. split; [exact H3|]. split; [exact (produces_visits _ _ _ H4)|]. vm_compute. reflexivity.
Qed.
