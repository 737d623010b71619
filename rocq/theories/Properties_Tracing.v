(** C105.  The functions with [_t] (Tracing.v) return also what is reported to [tracing]; [unlogged] forgets it.
    What a log should be is in TracingSpec.v: [opening_log], [calls_log], [call_log], [steps_log], [step_log],
    [tree_log], [nested], and the events [pops], [announced] and [shown] in a log. *)
From Verif Require Import ParseExamples StructSpec WorkNumbered Facts_Tracing.
From Coq Require Import String List.
Import ListNotations.

(** ** C105 The log of a parse *)

(** Reporting changes nothing. *)
Theorem C105_transparent :
  (forall p input start, unlogged (iter_new_t p input start) = iter_new p input start) /\
  (forall fuel it, unlogged (iter_next_t fuel it) = iter_next fuel it) /\
  (forall p input start, unlogged (parse_input_starting_with_t p input start) = parse_input_starting_with p input start) /\
  (forall p input, unlogged (parse_input_t p input) = parse_input p input) /\
  (forall g input, unlogged (grammar_parse_input_t g input) = grammar_parse_input g input) /\
  (forall g input start, unlogged (grammar_parse_input_starting_with_t g input start) = grammar_parse_input_starting_with g input start).
Proof. exact (conj iter_new_unlogged (conj iter_next_unlogged entry_points_unlogged)). Qed.
Print Assumptions C105_transparent.
Theorem C105_every_parse : forall g start input it ts it1,
  (opens g start input it <-> exists l, opens_t g start input it l) /\ (produces it ts it1 <-> exists l, produces_t it ts it1 l).
Proof. exact every_parse. Qed.
Print Assumptions C105_every_parse.

(** What is reported: the opening, then the traversals taken from the queue one after the other in the order of
    the arena, each with what it leads to. *)
Theorem C105_story : forall g start input it l0 ts it1 l, opens_t g start input it l0 -> produces_t it ts it1 l ->
  let n := List.length (alternatives_of g start) in let A := tt_arena (s_tree (it_state it1)) in
  opening_log n l0 /\ exists d, d <= List.length A /\ q_queue (s_queue (it_state it1)) = seq d (List.length A - d) /\ calls_log g A 0 ts d l.
Proof. exact story. Qed.
Print Assumptions C105_story.
Theorem C105_story_end : forall g start input it l0 ts it1 l f it2 l2,
  opens_t g start input it l0 -> produces_t it ts it1 l -> iter_next_t f it1 = Ok ((None, it2), l2) ->
  let A := tt_arena (s_tree (it_state it2)) in exists d, calls_log g A 0 ts d l /\ call_log g A d (List.length A) None l2.
Proof. exact story_end. Qed.
Print Assumptions C105_story_end.

(** Every span that is entered is left, the inner ones first. *)
Theorem C105_nested : forall g start input it l0 ts it1 l f o it2 l2,
  opens_t g start input it l0 -> produces_t it ts it1 l -> iter_next_t f it1 = Ok ((o, it2), l2) -> nested l0 /\ nested l /\ nested l2.
Proof. exact log_nested. Qed.
Print Assumptions C105_nested.

(** The traversals reported as taken are the first of the arena, each once and in its order. *)
Theorem C105_pops : forall g start input it l0 ts it1 l, opens_t g start input it l0 -> produces_t it ts it1 l ->
  exists d, d <= List.length (tt_arena (s_tree (it_state it1))) /\ pops l = firstn d (tt_arena (s_tree (it_state it1))) /\ map t_id (pops l) = seq 0 d.
Proof. exact log_pops. Qed.
Print Assumptions C105_pops.

(** All traversals but the first ones are announced, and for the first time in the order of their ids. *)
Theorem C105_announced : forall g start input it l0 ts it1 l, opens_t g start input it l0 -> produces_t it ts it1 l ->
  firsts Nat.eqb (seq 0 (List.length (alternatives_of g start)) ++ announced l) = seq 0 (List.length (tt_arena (s_tree (it_state it1)))).
Proof. exact log_announced. Qed.
Print Assumptions C105_announced.

(** The trees reported are those returned. *)
Theorem C105_trees : forall g start input it l0 ts it1 l, opens_t g start input it l0 -> produces_t it ts it1 l ->
  shown l0 = [] /\ shown l = map (fun t => 10%N :: display_tree t) ts.
Proof. exact log_trees. Qed.
Print Assumptions C105_trees.

(** When the trees have come to an end, as many traversals were reported as taken as there are partial parses
    (C64). *)
Theorem C105_work : forall g start input it l0 ts it1 l f it2 l2,
  opens_t g start input it l0 -> produces_t it ts it1 l -> iter_next_t f it1 = Ok ((None, it2), l2) ->
  exists F, NoDup F /\ (forall x, In x F <-> numbered_parse g start input x) /\ List.length (pops (l ++ l2)) = List.length F.
Proof. exact log_work. Qed.
Print Assumptions C105_work.

Example C105_example :
  opens_t twice_grammar (N_ "s") (lit "x") (fst opened) (snd opened) /\
  (exists t1 t2 it, produces_t (fst opened) [t1; t2] it (snd call1 ++ snd call2) /\ iter_next_t 100 it = Ok ((None, snd (fst call3)), snd call3)) /\
  map short (snd opened) = map lit
    ["> GrammarParser::new_unchecked"; "> ParseGrammar_new_unchecked"; "< ParseGrammar_new_unchecked"; "< GrammarParser::new_unchecked";
     "> earley::parse_with_parser_rc"; "> ParseTreeIter::new"; "> traversal_tree_predict_is_starting"; "< traversal_tree_predict_is_starting";
     "< ParseTreeIter::new"; "< earley::parse_with_parser_rc"]%string /\
  map short (filter is_event (snd call1)) = map lit
    ["pop 0"; "predicted 1"; "predicted 2"; "pop 1"; "scanned 3"; "pop 2"; "scanned 4"; "pop 3"; "completed 5"; "pop 4"; "completed 6";
     "pop 5"; "predicted 1"; "predicted 2"; "prior 7"; "prior 8"; "pop 6"; "predicted 9"; "predicted 10"; "pop 7"; "pop 8"; "tree"]%string /\
  map short (snd call2) = map lit
    ["> earley"; "pop 9"; "> Scan"; "> match_term"; "< match_term"; "scanned 11"; "< Scan"; "pop 10"; "> Scan"; "< Scan";
     "pop 11"; "> Complete"; "> insert"; "< insert"; "> get_incomplete"; "< get_incomplete"; "> match_term"; "< match_term"; "completed 12"; "< Complete";
     "pop 12"; "> Complete"; "> insert"; "< insert"; "> get_incomplete"; "< get_incomplete"; "< Complete"; "< earley";
     "> next_parse_tree"; "> match_iter_new"; "< match_iter_new";
     "> match_iter_next"; "< match_iter_next"; "> match_iter_new"; "< match_iter_new"; "> match_iter_next"; "< match_iter_next"; "> match_iter_next"; "< match_iter_next";
     "> match_iter_next"; "< match_iter_next"; "> match_iter_new"; "< match_iter_new"; "> match_iter_next"; "< match_iter_next"; "> match_iter_next"; "< match_iter_next";
     "> match_iter_next"; "< match_iter_next"; "tree"; "< next_parse_tree"]%string /\
  map short (snd call3) = map lit ["> earley"; "< earley"]%string /\
  shown (snd call2) = [newline ++ lit "<s> ::= <p> <p>" ++ newline ++ child_prefix ++ lit "<p> ::= ""x""" ++ newline ++
    grandchild_prefix ++ last_child_prefix ++ lit """x""" ++ newline ++ last_child_prefix ++ lit "<p> ::= """"" ++ newline ++
    last_grandchild_prefix ++ last_child_prefix ++ lit """""" ++ newline].
Proof. exact C105_example_proof. Qed.
