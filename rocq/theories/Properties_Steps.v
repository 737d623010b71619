(** C110.  The loops inside the main loop of the parser, counted with the entries of the log of C105 ([opens_t],
    [produces_t], [iter_next_t] in Tracing.v and TracingSpec.v).  [matched l] and [predictions l] are the traversals
    reported to result from [match_term] and from [predict], [results A] those of the arena [A] that result from
    others (StepsSpec.v). *)
From Verif Require Import EarleySpec LinearSpec AmbiguitySpec Facts_Linear Facts_Ambiguity WorkNumbered TreeSpec ParseExamples Facts_Steps.
From Coq Require Import String List Permutation.
Import ListNotations.
Open Scope list_scope.

(** ** C110 The steps of a parse *)

(** No call of [match_term] is made twice, or in vain: at any time the calls made so far have had different results,
    and those are all traversals of the arena that have something matched. *)
Theorem C110_matched_once : forall g start input it l0 ts it1 l, opens_t g start input it l0 -> produces_t it ts it1 l ->
  Permutation (matched l) (results (tt_arena (s_tree (it_state it1)))) /\ NoDup (results (tt_arena (s_tree (it_state it1)))).
Proof. exact matched_both. Qed.
Print Assumptions C110_matched_once.
Theorem C110_matched_end : forall g start input it l0 ts it1 l f it2 l2,
  opens_t g start input it l0 -> produces_t it ts it1 l -> iter_next_t f it1 = Ok ((None, it2), l2) ->
  Permutation (matched (l ++ l2)) (results (tt_arena (s_tree (it_state it2)))).
Proof. exact matched_end. Qed.
Print Assumptions C110_matched_end.

(** Predictions are repeated: one for every alternative, each time a traversal that waits for the nonterminal is
    taken from the queue. *)
Theorem C110_predictions : forall g start input it l0 ts it1 l, opens_t g start input it l0 -> produces_t it ts it1 l ->
  List.length (predictions l) = list_sum (map (choices g) (pops l)) /\ List.length (predictions l) <= widest g * List.length (pops l).
Proof. exact predictions_sum. Qed.
Print Assumptions C110_predictions.

(** All entries of the log, those of building the trees included. *)
Theorem C110_log : forall g start input it l0 ts it1 l f it2 l2,
  opens_t g start input it l0 -> produces_t it ts it1 l -> iter_next_t f it1 = Ok ((None, it2), l2) ->
  let n := List.length (tt_arena (s_tree (it_state it2))) in
  List.length (matched (l ++ l2)) <= n /\ List.length (predictions (l ++ l2)) <= widest g * n /\
  List.length (l ++ l2) <= (10 + 3 * widest g) * n + list_sum (map (fun t => 6 * tree_size t + 3) ts) + 2.
Proof. exact log_arena. Qed.
Print Assumptions C110_log.

(** So the bounds of C83 and C84 are bounds for all steps, not only for those of the main loop. *)
Theorem C110_linear : forall g start input it l0 ts it1 l f it2 l2, predictive g -> NoDup (flat_prods g) ->
  opens_t g start input it l0 -> produces_t it ts it1 l -> iter_next_t f it1 = Ok ((None, it2), l2) ->
  List.length (l ++ l2) <= (10 + 3 * widest g) * linear_bound g input + list_sum (map (fun t => 6 * tree_size t + 3) ts) + 2.
Proof. exact linear_steps. Qed.
Print Assumptions C110_linear.
Theorem C110_quadratic : forall g start input it l0 ts it1 l f it2 l2, unambiguous g start -> fruitful g start -> NoDup (flat_prods g) ->
  opens_t g start input it l0 -> produces_t it ts it1 l -> iter_next_t f it1 = Ok ((None, it2), l2) ->
  List.length (l ++ l2) <= (10 + 3 * widest g) * quadratic_bound g input + list_sum (map (fun t => 6 * tree_size t + 3) ts) + 2.
Proof. exact quadratic_steps. Qed.
Print Assumptions C110_quadratic.

(** The ids in the completion map are kept in order without moving any: whenever a traversal is taken from the queue,
    its id goes to the end of the vector it is put in.  [later] are the states in and between the calls of [next]. *)
Theorem C110_append : forall g start input it st id rest k,
  opens g start input it -> later (gp_pg (it_parser it)) (it_state it) st -> q_queue (s_queue st) = id :: rest ->
  sorted_vec_insert (cm_lookup (cm_incomplete (s_comp st)) k) id = cm_lookup (cm_incomplete (s_comp st)) k ++ [id] /\
  sorted_vec_insert (cm_lookup (cm_complete (s_comp st)) k) id = cm_lookup (cm_complete (s_comp st)) k ++ [id].
Proof. exact inserts_append. Qed.
Print Assumptions C110_append.
Theorem C110_states : forall g start input it ts it1 f o it2, opens g start input it -> produces it ts it1 -> iter_next f it1 = Ok (o, it2) ->
  later (gp_pg (it_parser it)) (it_state it) (it_state it1) /\ later (gp_pg (it_parser it)) (it_state it) (it_state it2).
Proof. exact states_later. Qed.
Print Assumptions C110_states.

Example C110_example :
  opens_t twice_grammar (N_ "s") (lit "x") (fst opened) (snd opened) /\
  (exists t1 t2 it, produces_t (fst opened) [t1; t2] it (snd call1 ++ snd call2) /\ iter_next_t 100 it = Ok ((None, snd (fst call3)), snd call3)) /\
  matched (snd call1 ++ snd call2) = [3; 4; 5; 6; 7; 8; 11; 12] /\ results (tt_arena (s_tree (it_state (snd (fst call3))))) = [3; 4; 5; 6; 7; 8; 11; 12] /\
  predictions (snd call1 ++ snd call2) = [1; 2; 1; 2; 9; 10] /\ map (choices twice_grammar) (pops (snd call1 ++ snd call2)) = [2; 0; 0; 0; 0; 2; 2; 0; 0; 0; 0; 0; 0] /\
  widest twice_grammar = 2 /\ List.length (snd call1 ++ snd call2 ++ snd call3) = 169 /\
  cm_lookup (cm_complete (s_comp (it_state (snd (fst call2))))) (N_ "p", 0) = [3; 4].
Proof. exact C110_example_proof. Qed.

Example C110_bounds_example :
  (predictive polish_grammar /\ NoDup (flat_prods polish_grammar) /\ widest polish_grammar = 10 /\ linear_bound polish_grammar (lit "+1*23") = 204 /\
   exists it l0 t it1 l it2 l2, opens_t polish_grammar (N_ "product") (lit "+1*23") it l0 /\ produces_t it [t] it1 l /\
     iter_next_t 1000 it1 = Ok ((None, it2), l2) /\ List.length (l ++ l2) = 729 /\ tree_size t = 15) /\
  (unambiguous dna_grammar (N_ "dna") /\ fruitful dna_grammar (N_ "dna") /\ NoDup (flat_prods dna_grammar) /\ widest dna_grammar = 4 /\
   quadratic_bound dna_grammar (lit "GATTACA") = 832 /\
   exists it l0 t it1 l it2 l2, opens_t dna_grammar (N_ "dna") (lit "GATTACA") it l0 /\ produces_t it [t] it1 l /\
     iter_next_t 1000 it1 = Ok ((None, it2), l2) /\ List.length (l ++ l2) = 965 /\ tree_size t = 21).
Proof.
  split; (split; [first [exact polish_predictive|exact dna_unambiguous]|]).
  - split; [exact polish_nodup|]. split; [vm_compute; reflexivity|]. split; [vm_compute; reflexivity|exact polish_steps].
  - split; [exact dna_fruitful|]. split; [exact dna_nodup|]. split; [vm_compute; reflexivity|]. split; [vm_compute; reflexivity|exact dna_steps].
Qed.
