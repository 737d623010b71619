(** C96-C98: the data structures of the parser, under arbitrary sequences of operations.  The sequences and
    the notions used are in StructSpec.v. *)
From Verif Require Import StructSpec EarleySpec ParseExamples StructProofs.
From Coq Require Import Lia Sorting.Sorted.
From Coq Require String.
Import String.StringSyntax.
Open Scope list_scope.

(** ** C96: the table of productions and the window on the input *)

(** Production number k is the k-th alternative of the grammar; the productions of a left-hand side are its
    alternatives, in order; the validating constructor builds the same table. *)
Theorem C96_table : forall g,
  (forall id x, get_production_by_id (pg_new_unchecked g) id = Ok x <-> nth_error (numbered g) id = Some x) /\
  (forall id, length (numbered g) <= id -> get_production_by_id (pg_new_unchecked g) id = Panic) /\
  (forall l, get_productions_by_lhs (pg_new_unchecked g) l =
     filter (fun id => match nth_error (numbered g) id with Some x => term_eqb (fst x) l | None => false end) (seq 0 (length (numbered g)))) /\
  (forall ho pg, pg_new ho g = ROk pg -> pg = pg_new_unchecked g).
Proof. exact table_full. Qed.
Print Assumptions C96_table.

(** A window between [a] and [c] shows [c] next, moves behind what it covers, grows by what it reads, and
    covers everything when nothing is before and after it. *)
Theorem C96_window : forall r a b c, shows r a b c ->
  range_next r = c /\ shows (range_after r) (a ++ b) [] c /\
  (forall s c', c = s ++ c' -> exists r', advance_by r (byte_len s) = Ok r' /\ shows r' a (b ++ s) c') /\
  (forall step, byte_len c <= step -> exists r', advance_by r step = Ok r' /\ shows r' a (b ++ c) []) /\
  (is_complete r = true <-> a = [] /\ c = []).
Proof. exact window_full. Qed.
Print Assumptions C96_window.

Theorem C96_new_window : forall s, shows (range_new s) [] [] s.
Proof. exact shows_new. Qed.
Print Assumptions C96_new_window.

(** A step into the middle of a character leaves nothing to be read. *)
Theorem C96_torn : forall r a b c step, shows r a b c -> step <= byte_len c -> (forall s t, c = s ++ t -> byte_len s <> step) ->
  exists r', advance_by r step = Ok r' /\ range_next r' = [].
Proof. exact window_torn. Qed.
Print Assumptions C96_torn.

(** In "ab" the window after the first character grows by one byte only; a step of one byte into a character of
    three bytes. *)
Example C96_example :
  shows (mkR (lit "GATTACA") 3 2) (lit "GAT") (lit "TA") (lit "CA") /\
  (let* r := advance_by (range_new (lit "ab")) 1 in advance_by (range_after r) 2) = Ok (mkR (lit "ab") 1 1) /\
  byte_len [8364%N] = 3 /\ advance_by (range_new [8364%N; 97%N]) 1 = Ok (mkR [8364%N; 97%N] 0 1) /\
  range_next (mkR [8364%N; 97%N] 0 1) = [] /\
  get_productions_by_lhs (pg_new_unchecked sum_grammar) (N_ "e") = [0; 1].
Proof. repeat split. Qed.

(** ** C97: the tree of traversals *)

(** The ids are the positions of the keys in the order of their first use: asking for the same production at the
    same place, or for the same match below the same parent, gives the same traversal, and nothing else does. *)
Theorem C97_ids : forall ops ids tr, tree_run ops empty_tree = Ok (ids, tr) ->
  length (tt_arena tr) = length (firsts tree_key_eqb (map key_of ops)) /\
  Forall2 (fun o id => nth_error (firsts tree_key_eqb (map key_of ops)) id = Some (key_of o)) ops ids.
Proof. exact tree_ids. Qed.
Print Assumptions C97_ids.

Theorem C97_same : forall ops ids tr i j o o' a b, tree_run ops empty_tree = Ok (ids, tr) ->
  nth_error ops i = Some o -> nth_error ids i = Some a -> nth_error ops j = Some o' -> nth_error ids j = Some b ->
  (a = b <-> key_of o = key_of o').
Proof. exact tree_same. Qed.
Print Assumptions C97_same.

(** What is stored: for a root what the first request said, for a child one term less than for its parent and the
    window grown by what was matched. *)
Theorem C97_contents : forall ops ids tr id t, tree_run ops empty_tree = Ok (ids, tr) -> tt_get tr id = Ok t ->
  exists k, nth_error (firsts tree_key_eqb (map key_of ops)) id = Some k /\ stored ops (tt_arena tr) id t k.
Proof. exact tree_contents. Qed.
Print Assumptions C97_contents.

(** [get_matched] lists the matches from the root down, one for every term of the production that is gone. *)
Theorem C97_matched : forall ops ids tr id t, tree_run ops empty_tree = Ok (ids, tr) -> tt_get tr id = Ok t ->
  exists ms, get_matched tr id = Ok ms /\
    match t_from t with
    | None => ms = []
    | Some (m, par) => exists ms', get_matched tr par = Ok ms' /\ ms = ms' ++ [m]
    end /\
    exists range rhs0 starting, length rhs0 = length ms /\ In (Predict range (t_pid t) (rhs0 ++ t_unmatched t) starting) ops.
Proof. exact tree_matched. Qed.
Print Assumptions C97_matched.

(** Later operations change nothing that was there. *)
Theorem C97_append_only : forall ops1 ops2 ids tr, tree_run (ops1 ++ ops2) empty_tree = Ok (ids, tr) ->
  exists ids1 tr1, tree_run ops1 empty_tree = Ok (ids1, tr1) /\ firstn (length ids1) ids = ids1 /\
  forall id t, tt_get tr1 id = Ok t -> tt_get tr id = Ok t /\ get_matched tr id = get_matched tr1 id.
Proof. exact tree_append_only. Qed.
Print Assumptions C97_append_only.

(** When an operation succeeds and when it panics. *)
Theorem C97_panics : forall tr,
  (forall range pid rhs starting, exists r, tree_step tr (Predict range pid rhs starting) = Ok r) /\
  forall parent m, ((exists r, tree_step tr (Match parent m) = Ok r) <->
     exists t, tt_get tr parent = Ok t /\ t_unmatched t <> [] /\ r_start (t_range t) <= byte_len (r_input (t_range t)) /\
       match m with MTerminal _ => True | MNonterminal c => c < length (tt_arena tr) end) /\
    tree_step tr (Match parent m) <> OutOfFuel.
Proof. exact tree_panics. Qed.
Print Assumptions C97_panics.

(** The tests of src/earley/traversal.rs:249-316 in one sequence; the flag of the first request counts. *)
Example C97_example : exists tr,
  tree_run [Predict (range_new (lit "AB")) 0 [T_ "A"; N_ "b"] true; Predict (range_new (lit "AB")) 0 [T_ "A"; N_ "b"] false;
            Match 0 (MTerminal (lit "A")); Predict (mkR (lit "AB") 0 1) 1 [T_ "B"] false; Match 2 (MTerminal (lit "B"));
            Match 1 (MNonterminal 3); Match 1 (MNonterminal 3)] empty_tree = Ok ([0; 0; 1; 2; 3; 4; 4], tr) /\
  tt_get tr 4 = Ok (mkT 4 [] (mkR (lit "AB") 0 2) 0 true (Some (MNonterminal 3, 1))) /\
  get_matched tr 4 = Ok [MTerminal (lit "A"); MNonterminal 3].
Proof. eexists. split; [vm_compute; reflexivity|]. split; vm_compute; reflexivity. Qed.

(** ** C98: the queue and the completion map *)

(** The queue returns every id once, in the order of the first pushes, *)
Theorem C98_queue : forall ops out q, queue_run ops (mkQ [] []) = (out, q) -> popped out ++ q_queue q = firsts Nat.eqb (pushes ops).
Proof. exact queue_order. Qed.
Print Assumptions C98_queue.

(** and nothing only when all are returned. *)
Theorem C98_pop : forall ops out q, queue_run ops (mkQ [] []) = (out, q) ->
  fst (queue_run (ops ++ [Pop]) (mkQ [] [])) = out ++ [nth_error (firsts Nat.eqb (pushes ops)) (length (popped out))].
Proof. exact queue_pop. Qed.
Print Assumptions C98_pop.

(** First occurrences. *)
Theorem C98_firsts : forall l : list nat, NoDup (firsts Nat.eqb l) /\ (forall x, In x (firsts Nat.eqb l) <-> In x l) /\
  (forall m, exists r, firsts Nat.eqb (l ++ m) = firsts Nat.eqb l ++ r) /\
  forall x, firsts Nat.eqb (l ++ [x]) = if in_dec Nat.eq_dec x l then firsts Nat.eqb l else firsts Nat.eqb l ++ [x].
Proof. exact firsts_full. Qed.
Print Assumptions C98_firsts.

(** The traversals that wait for [t] where a complete one starts, and the complete ones for [t] that start where
    a window ends: exactly those inserted, without repetition and in increasing order. *)
Theorem C98_incomplete : forall l t c,
  StronglySorted lt (get_incomplete (completions l) t c) /\
  forall i, In i (get_incomplete (completions l) t c) <->
    exists x lhs n, In (x, lhs) l /\ t_id x = i /\ t = Nonterminal n /\ next_unmatched x = Some t /\
      r_start (t_range x) + r_len (t_range x) = r_start (t_range c).
Proof. exact incomplete_full. Qed.
Print Assumptions C98_incomplete.

Theorem C98_complete : forall l t r,
  StronglySorted lt (get_complete (completions l) t r) /\
  forall i, In i (get_complete (completions l) t r) <->
    exists x, In (x, t) l /\ t_id x = i /\ t_unmatched x = [] /\ r_start (t_range x) = r_start r + r_len r.
Proof. exact complete_full. Qed.
Print Assumptions C98_complete.

(** A parse: the tree is built by operations whose results are queued, so that traversals are processed once
    each in the order of their creation, and those processed that wait for a nonterminal or are complete are the
    ones in the completion map. *)
Theorem C98_parse : forall g start input it ts it1, opens g start input it -> produces it ts it1 ->
  let st := it_state it1 in let n := length (tt_arena (s_tree st)) in
  exists ops ids d l, tree_run ops empty_tree = Ok (ids, s_tree st) /\ firsts Nat.eqb ids = seq 0 n /\
    d <= n /\ q_queue (s_queue st) = seq d (n - d) /\ s_comp st = completions l /\
    forall x lhs, In (x, lhs) l <-> t_id x < d /\ recorded (pg_new_unchecked g) (s_tree st) x lhs.
Proof. exact parse_history. Qed.
Print Assumptions C98_parse.

Example C98_example :
  queue_run [Push 4; Push 2; Pop; Push 4; Push 2; Push 7; Pop; Pop; Pop; Push 2; Pop] (mkQ [] []) =
    ([Some 4; Some 2; Some 7; None; None], mkQ [7; 2; 4] []) /\
  get_incomplete (completions [(mkT 5 [N_ "a"] (mkR (lit "xyz") 0 2) 1 false None, N_ "s"); (mkT 3 [N_ "a"; T_ "q"] (mkR (lit "xyz") 1 1) 2 false None, N_ "s");
                               (mkT 4 [N_ "a"] (mkR (lit "xyz") 0 1) 1 false None, N_ "s"); (mkT 6 [T_ "a"] (mkR (lit "xyz") 0 2) 1 false None, N_ "s")])
    (N_ "a") (mkT 9 [] (mkR (lit "xyz") 2 1) 7 false None) = [3; 5] /\
  exists it ts it1, opens sum_grammar (N_ "e") (lit sum_input) it /\ produces it ts it1 /\ List.length ts = 1 /\
    List.length (tt_arena (s_tree (it_state it1))) = 22 /\ q_queue (s_queue (it_state it1)) = [18; 19; 20; 21].
Proof.
  split; [reflexivity|]. split; [reflexivity|].
  destruct (run_facts sum_grammar (N_ "e") sum_input 1) as (H1 & H2 & _); [vm_compute; reflexivity..|].
  eexists _, _, _. split; [exact H1|]. split; [exact H2|]. vm_compute. repeat split.
Qed.
