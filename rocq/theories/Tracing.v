(** What the optional feature [tracing] reports during a parse (src/tracing.rs and the [span!]/[event!] calls of
    src/earley/mod.rs, src/earley/traversal.rs, src/parser/mod.rs and src/parser/grammar.rs).

    Each function below is the function of the same name in Earley.v, returning the list of what a subscriber that
    takes everything is told, in order.  A span is entered where it is created ([.entered()]) and left at the end of
    its block, also at the [return] of src/earley/mod.rs:173 (the inner span first).

    Simplifications: the events are kept as data (the [Debug] forms of a traversal and of an id are determined by it);
    of a call that panics nothing is kept; without the feature the macros expand to nothing (src/tracing.rs:31-83),
    which is the model of Earley.v.  The spans of the text parsers are in TextTracing.v. *)
From Verif Require Export Earley TreeFormat.
From Coq Require Import String.

(** The [event!] calls: src/earley/mod.rs:116-120, 135, 142, 151, 168 and 234. *)
Inductive tevent : Type :=
| QueuePop (t : traversal)
| Predicted (id : nat)
| PriorCompleted (id : nat)
| Scanned (id : nat)
| Completed (id : nat)
| FoundTree (text : str).

Inductive entry : Type :=
| Enter (name : str)
| Leave (name : str)
| Said (e : tevent).
Definition log : Type := list entry.

Definition span (name : string) (l : log) : log := Enter (lit name) :: l ++ [Leave (lit name)].
Definition blank (name : string) : log := span name [].

Definition logged (A : Type) : Type := res (A * log).
Definition unlogged {A} (r : logged A) : res A := let* (a, _) := r in Ok a.

(** src/earley/mod.rs:76-79 (nothing said) and 133-137; src/earley/traversal.rs:146. *)
Fixpoint predict_all_t (say : nat -> log) (pg : parse_grammar) (range : irange) (starting : bool) (pids : list nat)
    (tr : ttree) (q : tqueue) : logged (ttree * tqueue) :=
  match pids with
  | nil => Ok ((tr, q), [])
  | pid :: r =>
      let* prod := get_production_by_id pg pid in
      let '(id, tr) := tt_predict tr range pid (snd prod) starting in
      let* (out, l) := predict_all_t say pg range starting r tr (q_push q id) in
      Ok (out, blank "traversal_tree_predict_is_starting" ++ say id ++ l)
  end.

(** src/earley/mod.rs:139-144, 149-152 and 164-170; src/earley/traversal.rs:184. *)
Fixpoint match_all_t (say : nat -> log) (ms : list (nat * tmatch)) (tr : ttree) (q : tqueue) : logged (ttree * tqueue) :=
  match ms with
  | nil => Ok ((tr, q), [])
  | (parent, m) :: r =>
      let* (id, tr) := tt_match_term tr parent m in
      let* (out, l) := match_all_t say r tr (q_push q id) in
      Ok (out, blank "match_term" ++ say id ++ l)
  end.

(** src/earley/mod.rs:116-176; the spans of lines 294, 303 and 308 are left before the loops start. *)
Definition process_t (pg : parse_grammar) (tr : ttree) (q : tqueue) (cm : cmap) (id : nat) : logged (option nat * pstate) :=
  let* t := tt_get tr id in
  match next_unmatched t with
  | Some (Nonterminal n) =>
      let* prod := get_production_by_id pg (t_pid t) in
      let cm := cm_insert cm t (fst prod) in
      let* (out, l1) := predict_all_t (fun i => [Said (Predicted i)]) pg (t_range t) false
                          (get_productions_by_lhs pg (Nonterminal n)) tr q in
      let '(tr, q) := out in
      let* (out, l2) := match_all_t (fun i => [Said (PriorCompleted i)])
                          (map (fun c => (id, MNonterminal c)) (get_complete cm (Nonterminal n) (t_range t))) tr q in
      let '(tr, q) := out in
      Ok ((None, mkS tr q cm), Said (QueuePop t) :: span "Predict" (blank "insert" ++ l1 ++ blank "get_complete" ++ l2))
  | Some (Terminal s) =>
      if starts_with (range_next (t_range t)) s then
        let* (out, l) := match_all_t (fun i => [Said (Scanned i)]) [(id, MTerminal s)] tr q in
        let '(tr, q) := out in
        Ok ((None, mkS tr q cm), Said (QueuePop t) :: span "Scan" l)
      else Ok ((None, mkS tr q cm), Said (QueuePop t) :: blank "Scan")
  | None =>
      let full := t_starting t && is_complete (t_range t) in
      let* prod := get_production_by_id pg (t_pid t) in
      let lhs := fst prod in
      let cm := cm_insert cm t lhs in
      let* (out, l) := match_all_t (fun i => [Said (Completed i)])
                         (map (fun i => (i, MNonterminal id)) (get_incomplete cm lhs t)) tr q in
      let '(tr, q) := out in
      Ok ((if full then Some id else None, mkS tr q cm),
          Said (QueuePop t) :: span "Complete" (blank "insert" ++ blank "get_incomplete" ++ l))
  end.

(** src/earley/mod.rs:115-179: the loop, inside the span of line 114. *)
Fixpoint earley_loop_t (fuel : nat) (pg : parse_grammar) (st : pstate) : logged (option nat * pstate) :=
  match fuel with
  | 0 => OutOfFuel
  | S fuel =>
      match q_queue (s_queue st) with
      | nil => Ok ((None, st), [])
      | id :: rest =>
          let* (out, l) := process_t pg (s_tree st) (mkQ (q_processed (s_queue st)) rest) (s_comp st) id in
          let '(found, st) := out in
          match found with
          | Some id => Ok ((Some id, st), l)
          | None => let* (out, l') := earley_loop_t fuel pg st in Ok (out, l ++ l')
          end
      end
  end.
Definition earley_t (fuel : nat) (pg : parse_grammar) (st : pstate) : logged (option nat * pstate) :=
  let* (out, l) := earley_loop_t fuel pg st in Ok (out, span "earley" l).

(** src/earley/mod.rs:84-104; src/earley/traversal.rs:78 and 96.  The matches are fetched one by one: every call of
    [next] comes before the work on the match it returns, and a last call returns [None]. *)
Fixpoint parse_tree_t (fuel : nat) (tr : ttree) (pg : parse_grammar) (id : nat) : logged ptree :=
  match fuel with
  | 0 => OutOfFuel
  | S fuel =>
      let* t := tt_get tr id in
      let* prod := get_production_by_id pg (t_pid t) in
      let* ms := get_matched tr id in
      let* kids := res_map (fun m =>
                     match m with
                     | MTerminal s => Ok (Leaf s, [])
                     | MNonterminal i => let* (st, l) := parse_tree_t fuel tr pg i in Ok (Sub st, l)
                     end) ms in
      Ok (Node (fst prod) (map fst kids),
          blank "match_iter_new" ++ flat_map (fun k => blank "match_iter_next" ++ snd k) kids ++ blank "match_iter_next")
  end.

(** src/earley/mod.rs:191-217. *)
Definition iter_new_t (p : grammar_parser) (input : str) (start : option term) : logged piter :=
  let st := match start with Some t => t | None => gp_start p end in
  let* (out, l) := predict_all_t (fun _ => []) (gp_pg p) (range_new input) true
                     (get_productions_by_lhs (gp_pg p) st) (mkTT [] [] []) (mkQ [] []) in
  let '(tr, q) := out in
  Ok (mkI p (mkS tr q (mkCM [] [])), span "ParseTreeIter::new" l).

(** src/earley/mod.rs:222-237. *)
Definition iter_next_t (fuel : nat) (it : piter) : logged (option ptree * piter) :=
  let pg := gp_pg (it_parser it) in
  let* (out, l) := earley_t fuel pg (it_state it) in
  let '(found, st) := out in
  match found with
  | None => Ok ((None, mkI (it_parser it) st), l)
  | Some id =>
      let* (t, l') := parse_tree_t (S (List.length (tt_arena (s_tree st)))) (s_tree st) pg id in
      Ok ((Some t, mkI (it_parser it) st), l ++ span "next_parse_tree" (l' ++ [Said (FoundTree (10%N :: display_tree t))]))
  end.

(** src/parser/mod.rs:82-89 and src/earley/mod.rs:13-20. *)
Definition parse_input_starting_with_t (p : grammar_parser) (input : str) (start : term) : logged piter :=
  let* (it, l) := iter_new_t p input (Some start) in
  Ok (it, span "GrammarParser::parse_input_starting_with" (span "earley::parse" l)).
(** src/parser/mod.rs:71-77. *)
Definition parse_input_t (p : grammar_parser) (input : str) : logged piter :=
  let* (it, l) := parse_input_starting_with_t p input (gp_start p) in Ok (it, span "GrammarParser::parse_input" l).
(** src/parser/mod.rs:56-66 and src/parser/grammar.rs:77 (line 60 panics before anything else is reported). *)
Definition parser_new_unchecked_t (g : grammar) : logged grammar_parser :=
  let* p := parser_new_unchecked g in Ok (p, span "GrammarParser::new_unchecked" (blank "ParseGrammar_new_unchecked")).
(** src/grammar.rs:450-456, 478-485 and src/earley/mod.rs:24-31. *)
Definition grammar_parse_input_t (g : grammar) (input : str) : logged piter :=
  let* (p, l) := parser_new_unchecked_t g in
  let* (it, l') := iter_new_t p input None in Ok (it, l ++ span "earley::parse_with_parser_rc" l').
Definition grammar_parse_input_starting_with_t (g : grammar) (input : str) (start : term) : logged piter :=
  let* (p, l) := parser_new_unchecked_t g in
  let* (it, l') := iter_new_t p input (Some start) in Ok (it, l ++ span "earley::parse_with_parser_rc" l').
