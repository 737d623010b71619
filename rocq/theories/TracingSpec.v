(** What the log of a parse should be. *)
From Verif Require Import Tracing StructSpec.
From Coq Require Import String.

(** Spans are left in the opposite order in which they are entered, and all are left. *)
Inductive nested : log -> Prop :=
| nested_nil : nested []
| nested_said e l : nested l -> nested (Said e :: l)
| nested_span name a b : nested a -> nested b -> nested (Enter name :: a ++ Leave name :: b).

(** The events of the three kinds. *)
Definition pops (l : log) : list traversal :=
  flat_map (fun x => match x with Said (QueuePop t) => [t] | _ => [] end) l.
Definition announced (l : log) : list nat :=
  flat_map (fun x => match x with Said (Predicted i) | Said (PriorCompleted i) | Said (Scanned i) | Said (Completed i) => [i] | _ => [] end) l.
Definition shown (l : log) : list str :=
  flat_map (fun x => match x with Said (FoundTree s) => [s] | _ => [] end) l.

(** The numbers of the alternatives of a left-hand side. *)
Definition alternatives_of (g : grammar) (l : term) : list nat :=
  filter (fun id => match nth_error (numbered g) id with Some x => term_eqb (fst x) l | None => false end) (seq 0 (List.length (numbered g))).

(** In the arena [A], [id] is the traversal with nothing matched of the alternative [pid] at [pos]; the traversal
    that results from [par] by matching [m]. *)
Definition root_of (A : list traversal) (pos id pid : nat) : Prop :=
  exists x, nth_error A id = Some x /\ t_from x = None /\ t_pid x = pid /\ r_start (t_range x) = pos.
Definition child_of (A : list traversal) (id : nat) (m : tmatch) (par : nat) : Prop :=
  exists x, nth_error A id = Some x /\ t_from x = Some (m, par).

(** [c] is finished, an alternative of [l], and starts at [pos]; [c] has come to [pos] and waits for [l]. *)
Definition finished_at (g : grammar) (l : term) (pos : nat) (c : traversal) : bool :=
  match t_unmatched c, nth_error (numbered g) (t_pid c) with
  | [], Some x => term_eqb (fst x) l && Nat.eqb (r_start (t_range c)) pos
  | _, _ => false
  end.
Definition waiting_at (l : term) (pos : nat) (c : traversal) : bool :=
  match next_unmatched c with
  | Some (Nonterminal n) => term_eqb (Nonterminal n) l && Nat.eqb (r_start (t_range c) + r_len (t_range c)) pos
  | _ => false
  end.

(** What is reported when [t] is taken from the queue; the traversals before [t] in the arena [A] are those taken
    before. *)
Inductive step_log (g : grammar) (A : list traversal) (t : traversal) : log -> Prop :=
| step_predict n new old : next_unmatched t = Some (Nonterminal n) ->
    Forall2 (root_of A (r_start (t_range t) + r_len (t_range t))) new (alternatives_of g (Nonterminal n)) ->
    Forall2 (fun i c => child_of A i (MNonterminal (t_id c)) (t_id t)) old
      (filter (finished_at g (Nonterminal n) (r_start (t_range t) + r_len (t_range t))) (firstn (t_id t) A)) ->
    step_log g A t (Said (QueuePop t) :: span "Predict"
      (blank "insert" ++ flat_map (fun i => blank "traversal_tree_predict_is_starting" ++ [Said (Predicted i)]) new ++
       blank "get_complete" ++ flat_map (fun i => blank "match_term" ++ [Said (PriorCompleted i)]) old))
| step_scan s i : next_unmatched t = Some (Terminal s) -> starts_with (range_next (t_range t)) s = true ->
    child_of A i (MTerminal s) (t_id t) ->
    step_log g A t (Said (QueuePop t) :: span "Scan" (blank "match_term" ++ [Said (Scanned i)]))
| step_no_scan s : next_unmatched t = Some (Terminal s) -> starts_with (range_next (t_range t)) s = false ->
    step_log g A t (Said (QueuePop t) :: span "Scan" [])
| step_complete lhs rhs next : next_unmatched t = None -> nth_error (numbered g) (t_pid t) = Some (lhs, rhs) ->
    Forall2 (fun i w => child_of A i (MNonterminal (t_id t)) (t_id w)) next
      (filter (waiting_at lhs (r_start (t_range t))) (firstn (t_id t) A)) ->
    step_log g A t (Said (QueuePop t) :: span "Complete"
      (blank "insert" ++ blank "get_incomplete" ++ flat_map (fun i => blank "match_term" ++ [Said (Completed i)]) next)).

(** The traversals [d], ..., [d' - 1] are taken one after the other. *)
Inductive steps_log (g : grammar) (A : list traversal) : nat -> nat -> log -> Prop :=
| steps_none d : steps_log g A d d []
| steps_more d d' t l l' : nth_error A d = Some t -> step_log g A t l -> steps_log g A (S d) d' l' -> steps_log g A d d' (l ++ l').

(** Building a tree: one iterator for each node, asked once for each child and once more. *)
Fixpoint tree_log (t : ptree) : log :=
  match t with
  | Node _ kids =>
      blank "match_iter_new" ++
      flat_map (fun k => blank "match_iter_next" ++ match k with Leaf _ => [] | Sub t => tree_log t end) kids ++
      blank "match_iter_next"
  end.

(** One call of [next]. *)
Inductive call_log (g : grammar) (A : list traversal) (d d' : nat) : option ptree -> log -> Prop :=
| call_none l : steps_log g A d d' l -> call_log g A d d' None (span "earley" l)
| call_some l t : steps_log g A d d' l ->
    call_log g A d d' (Some t) (span "earley" l ++ span "next_parse_tree" (tree_log t ++ [Said (FoundTree (10%N :: display_tree t))])).

(** Several calls. *)
Inductive calls_log (g : grammar) (A : list traversal) : nat -> list ptree -> nat -> log -> Prop :=
| calls_none d : calls_log g A d [] d []
| calls_more d d1 d2 t ts l l' : call_log g A d d1 (Some t) l -> calls_log g A d1 ts d2 l' -> calls_log g A d (t :: ts) d2 (l ++ l').

(** Opening an iterator when the start has [n] alternatives: nothing is said of the [n] first traversals. *)
Definition starting_log (n : nat) : log := List.concat (repeat (blank "traversal_tree_predict_is_starting") n).
Inductive opening_log (n : nat) : log -> Prop :=
| opening_with : opening_log n (span "GrammarParser::parse_input_starting_with" (span "earley::parse" (span "ParseTreeIter::new" (starting_log n))))
| opening_default : opening_log n (span "GrammarParser::parse_input"
    (span "GrammarParser::parse_input_starting_with" (span "earley::parse" (span "ParseTreeIter::new" (starting_log n)))))
| opening_deprecated : opening_log n (span "GrammarParser::new_unchecked" (blank "ParseGrammar_new_unchecked") ++
    span "earley::parse_with_parser_rc" (span "ParseTreeIter::new" (starting_log n))).

(** The four ways of starting a parse, and taking trees, with what is reported. *)
Inductive opens_t (g : grammar) (start : term) (input : str) : piter -> log -> Prop :=
| opens_t_with ho p it l : build_parser ho g = ROk p ->
    parse_input_starting_with_t p input start = Ok (it, l) -> opens_t g start input it l
| opens_t_default ho p it l : build_parser ho g = ROk p -> starting_term g = Some start ->
    parse_input_t p input = Ok (it, l) -> opens_t g start input it l
| opens_t_deprecated_with it l :
    grammar_parse_input_starting_with_t g input start = Ok (it, l) -> opens_t g start input it l
| opens_t_deprecated_default it l : starting_term g = Some start ->
    grammar_parse_input_t g input = Ok (it, l) -> opens_t g start input it l.

Inductive produces_t : piter -> list ptree -> piter -> log -> Prop :=
| produces_t_nil it : produces_t it [] it []
| produces_t_next it t it1 ts it2 fuel l l' :
    iter_next_t fuel it = Ok ((Some t, it1), l) -> produces_t it1 ts it2 l' -> produces_t it (t :: ts) it2 (l ++ l').
