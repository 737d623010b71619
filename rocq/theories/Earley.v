(** src/earley/input_range.rs, src/earley/traversal.rs, src/earley/mod.rs, and the parsing
    entry points of src/parser/mod.rs and src/grammar.rs.

    Simplifications: [tracing] spans are dropped; [usize] is [nat] (offsets do not exceed the
    byte length of the input and ids the number of live traversals, so nothing overflows: C108); [hashbrown] maps are association lists with the same [get]/[entry] behaviour. *)
From Verif Require Export ParseGrammar.

(** ** src/earley/input_range.rs *)

(** lines 2-5, 15-18 [InputRange] with its [InputRangeOffset]. *)
Record irange : Type := mkR { r_input : str; r_start : nat; r_len : nat }.
(** lines 8-10 *)
Definition total_len (r : irange) : nat := r_start r + r_len r.
(** lines 21-26 *)
Definition range_new (input : str) : irange := mkR input 0 0.
(** lines 29-32: [self.input.get(next_idx..).unwrap_or("")] *)
Definition range_next (r : irange) : str :=
  match str_get_from (r_start r + r_len r) (r_input r) with Some s => s | None => [] end.
(** lines 33-41 *)
Definition range_after (r : irange) : irange := mkR (r_input r) (r_start r + r_len r) 0.
(** lines 43-51; line 45 underflows (panic) if [start] exceeds the input length. *)
Definition advance_by (r : irange) (step : nat) : res irange :=
  if Nat.ltb (byte_len (r_input r)) (r_start r) then Panic
  else Ok (mkR (r_input r) (r_start r)
             (Nat.min (r_len r + step) (byte_len (r_input r) - r_start r))).
(** lines 52-54 *)
Definition is_complete (r : irange) : bool :=
  Nat.eqb (r_start r) 0 && Nat.eqb (r_len r) (byte_len (r_input r)).

(** ** src/earley/traversal.rs *)

(** lines 13-18 [TermMatch]. *)
Inductive tmatch : Type :=
| MTerminal (s : str)
| MNonterminal (id : nat).
Definition tmatch_eqb (a b : tmatch) : bool :=
  match a, b with
  | MTerminal x, MTerminal y => str_eqb x y
  | MNonterminal x, MNonterminal y => Nat.eqb x y
  | _, _ => false
  end.

(** lines 46-49 [TraversalEdge { term, parent_id }]. *)
Definition tedge : Type := tmatch * nat.
Definition tedge_eqb (a b : tedge) : bool :=
  tmatch_eqb (fst a) (fst b) && Nat.eqb (snd a) (snd b).

(** lines 53-56 [TraversalRoot { production_id, input_start }]. *)
Definition troot : Type := nat * nat.
Definition troot_eqb (a b : troot) : bool :=
  Nat.eqb (fst a) (fst b) && Nat.eqb (snd a) (snd b).

(** lines 23-36 [Traversal]. *)
Record traversal : Type := mkT {
  t_id : nat;
  t_unmatched : list term;
  t_range : irange;
  t_pid : nat;
  t_starting : bool;
  t_from : option tedge
}.

(** lines 124-128 [TraversalTree]; ids are indices of the arena. *)
Record ttree : Type := mkTT {
  tt_arena : list traversal;
  tt_roots : hmap troot nat;
  tt_edges : hmap tedge nat
}.

(** lines 131-133 *)
Definition tt_get (tr : ttree) (id : nat) : res traversal := expect (nth_error (tt_arena tr) id).
(** lines 39-41, 134-136 *)
Definition next_unmatched (t : traversal) : option term := hd_error (t_unmatched t).

(** lines 140-167 [_predict]: look the root up, or push a new root traversal. *)
Definition tt_predict (tr : ttree) (range : irange) (pid : nat) (rhs : expression)
    (is_starting : bool) : nat * ttree :=
  let key := (pid, total_len range) in
  match hm_get troot_eqb (tt_roots tr) key with
  | Some id => (id, tr)
  | None =>
      let id := length (tt_arena tr) in
      (id, mkTT (tt_arena tr ++ [mkT id rhs (range_after range) pid is_starting None])
                (hm_insert (tt_roots tr) key id)
                (tt_edges tr))
  end.

(** lines 183-220 [match_term]. *)
Definition tt_match_term (tr : ttree) (parent_ix : nat) (m : tmatch) : res (nat * ttree) :=
  let* parent := expect (nth_error (tt_arena tr) parent_ix) in
  let* range :=
    match m with
    | MTerminal s => advance_by (t_range parent) (byte_len s)
    | MNonterminal nid =>
        let* nt := expect (nth_error (tt_arena tr) nid) in
        advance_by (t_range parent) (r_len (t_range nt))
    end in
  let* unmatched :=
    match t_unmatched parent with nil => Panic | _ :: r => Ok r end in
  let from : tedge := (m, t_id parent) in
  match hm_get tedge_eqb (tt_edges tr) from with
  | Some id => Ok (id, tr)
  | None =>
      let id := length (tt_arena tr) in
      Ok (id, mkTT (tt_arena tr ++
                      [mkT id unmatched range (t_pid parent) (t_starting parent) (Some from)])
                   (tt_roots tr)
                   (hm_insert (tt_edges tr) from id))
  end.

(** lines 76-91 [TraversalMatchIter::new]: walk up to the root. *)
Fixpoint match_iter_root (fuel : nat) (tr : ttree) (current : nat) : res nat :=
  match fuel with
  | 0 => OutOfFuel
  | S fuel =>
      let* t := tt_get tr current in
      match t_from t with
      | Some e => match_iter_root fuel tr (snd e)
      | None => Ok current
      end
  end.

(** lines 101-112: walk up from [scan] until the child of [current] is met. *)
Fixpoint match_iter_scan (fuel : nat) (tr : ttree) (current scan : nat) : res (option (nat * tmatch)) :=
  match fuel with
  | 0 => OutOfFuel
  | S fuel =>
      let* t := tt_get tr scan in
      match t_from t with
      | Some e => if Nat.eqb current (snd e) then Ok (Some (scan, fst e))
                  else match_iter_scan fuel tr current (snd e)
      | None => Ok None
      end
  end.

(** lines 95-113 [TraversalMatchIter::next]: the new [current] and the yielded match. *)
Definition match_iter_next (fuel : nat) (tr : ttree) (current last : nat) : res (option (nat * tmatch)) :=
  if Nat.eqb current last then Ok None else match_iter_scan fuel tr current last.

(** Draining the iterator ([for term_match in traversal_tree.get_matched(id)]). *)
Fixpoint match_iter_all (fuel : nat) (walk : nat) (tr : ttree) (current last : nat) : res (list tmatch) :=
  match fuel with
  | 0 => OutOfFuel
  | S fuel =>
      let* o := match_iter_next walk tr current last in
      match o with
      | None => Ok []
      | Some (current', m) =>
          let* r := match_iter_all fuel walk tr current' last in
          Ok (m :: r)
      end
  end.

(** lines 137-139 [get_matched], drained. *)
Definition get_matched (tr : ttree) (id : nat) : res (list tmatch) :=
  let n := S (length (tt_arena tr)) in
  let* root := match_iter_root n tr id in
  match_iter_all n n tr root id.

(** ** Parse trees *)

(** src/grammar.rs:51-64 [ParseTree { lhs, rhs }] and [ParseTreeNode].  The label type is a
    parameter: [ptree] (labels are terms) is the public type; proofs also use trees labelled
    with production ids. *)
Inductive tree (L : Type) : Type :=
| Node (l : L) (kids : list (node L))
with node (L : Type) : Type :=
| Leaf (s : str)
| Sub (t : tree L).
Arguments Node {L} l kids.
Arguments Leaf {L} s.
Arguments Sub {L} t.

Definition ptree := tree term.
Definition pnode := node term.

(** ** src/earley/mod.rs *)

(** [rhs.push(match term_match {..})] over all matches, in order. *)
Fixpoint res_map {A B} (f : A -> res B) (l : list A) : res (list B) :=
  match l with
  | nil => Ok []
  | x :: r => let* y := f x in let* r' := res_map f r in Ok (y :: r')
  end.

(** lines 84-104 [parse_tree]. *)
Fixpoint parse_tree (fuel : nat) (tr : ttree) (pg : parse_grammar) (id : nat) : res ptree :=
  match fuel with
  | 0 => OutOfFuel
  | S fuel =>
      let* t := tt_get tr id in
      let* prod := get_production_by_id pg (t_pid t) in
      let* ms := get_matched tr id in
      let* rhs := res_map (fun m =>
                     match m with
                     | MTerminal s => Ok (Leaf s)
                     | MNonterminal i => let* st := parse_tree fuel tr pg i in Ok (Sub st)
                     end) ms in
      Ok (Node (fst prod) rhs)
  end.

(** lines 241-244 [CompletionKey { term, input_start }]. *)
Definition ckey : Type := term * nat.
Definition ckey_eqb (a b : ckey) : bool := term_eqb (fst a) (fst b) && Nat.eqb (snd a) (snd b).
(** lines 247-252 *)
Definition key_start (t : term) (r : irange) : ckey := (t, r_start r).
(** lines 253-258 *)
Definition key_total (t : term) (r : irange) : ckey := (t, total_len r).

(** lines 262-267: insert into a sorted vector, no-op if present.  ([binary_search] on a sorted
    vector finds the element or the position that keeps it sorted.) *)
Fixpoint sorted_vec_insert (v : list nat) (id : nat) : list nat :=
  match v with
  | nil => [id]
  | x :: r => if Nat.eqb id x then v
              else if Nat.ltb id x then id :: v
              else x :: sorted_vec_insert r id
  end.

(** lines 270-273 [CompletionMap]. *)
Record cmap : Type := mkCM { cm_incomplete : hmap ckey (list nat); cm_complete : hmap ckey (list nat) }.

Definition cm_lookup (m : hmap ckey (list nat)) (k : ckey) : list nat :=
  match hm_get ckey_eqb m k with Some v => v | None => [] end.
(** lines 289-297 *)
Definition get_incomplete (cm : cmap) (t : term) (complete_traversal : traversal) : list nat :=
  cm_lookup (cm_incomplete cm) (key_start t (t_range complete_traversal)).
(** lines 298-306 *)
Definition get_complete (cm : cmap) (t : term) (r : irange) : list nat :=
  cm_lookup (cm_complete cm) (key_total t r).
(** lines 307-322 *)
Definition cm_insert (cm : cmap) (t : traversal) (lhs : term) : cmap :=
  match next_unmatched t with
  | Some (Terminal _) => cm
  | Some (Nonterminal n) =>
      let k := key_total (Nonterminal n) (t_range t) in
      mkCM (hm_insert (cm_incomplete cm) k (sorted_vec_insert (cm_lookup (cm_incomplete cm) k) (t_id t)))
           (cm_complete cm)
  | None =>
      let k := key_start lhs (t_range t) in
      mkCM (cm_incomplete cm)
           (hm_insert (cm_complete cm) k (sorted_vec_insert (cm_lookup (cm_complete cm) k) (t_id t)))
  end.

(** lines 54-57 [TraversalQueue]. *)
Record tqueue : Type := mkQ { q_processed : list nat; q_queue : list nat }.
(** lines 63-67 *)
Definition q_push (q : tqueue) (id : nat) : tqueue :=
  if memb Nat.eqb id (q_processed q) then q
  else mkQ (id :: q_processed q) (q_queue q ++ [id]).

(** The mutable part of [ParseTreeIter] (lines 183-188). *)
Record pstate : Type := mkS { s_tree : ttree; s_queue : tqueue; s_comp : cmap }.

(** lines 76-79 and 133-137: predict each production, queueing the result. *)
Fixpoint predict_all (pg : parse_grammar) (range : irange) (starting : bool) (pids : list nat)
    (tr : ttree) (q : tqueue) : res (ttree * tqueue) :=
  match pids with
  | nil => Ok (tr, q)
  | pid :: r =>
      let* prod := get_production_by_id pg pid in
      let '(id, tr) := tt_predict tr range pid (snd prod) starting in
      predict_all pg range starting r tr (q_push q id)
  end.

(** lines 139-144 and 164-170: match each (parent, term) pair, queueing the result. *)
Fixpoint match_all (l : list (nat * tmatch)) (tr : ttree) (q : tqueue) : res (ttree * tqueue) :=
  match l with
  | nil => Ok (tr, q)
  | (parent, m) :: r =>
      let* (id, tr) := tt_match_term tr parent m in
      match_all r tr (q_push q id)
  end.

(** lines 121-176: the body of the [while] loop for a popped traversal.  [Some id] is the
    [return Some(traversal_id)] of line 173. *)
Definition process (pg : parse_grammar) (tr : ttree) (q : tqueue) (cm : cmap) (id : nat)
    : res (option nat * pstate) :=
  let* t := tt_get tr id in
  match next_unmatched t with
  | Some (Nonterminal n) =>
      let* prod := get_production_by_id pg (t_pid t) in
      let cm := cm_insert cm t (fst prod) in
      let* (tr, q) := predict_all pg (t_range t) false
                        (get_productions_by_lhs pg (Nonterminal n)) tr q in
      let* (tr, q) := match_all (map (fun c => (id, MNonterminal c))
                                     (get_complete cm (Nonterminal n) (t_range t))) tr q in
      Ok (None, mkS tr q cm)
  | Some (Terminal s) =>
      if starts_with (range_next (t_range t)) s then
        let* (tr, q) := match_all [(id, MTerminal s)] tr q in
        Ok (None, mkS tr q cm)
      else Ok (None, mkS tr q cm)
  | None =>
      let full := t_starting t && is_complete (t_range t) in
      let* prod := get_production_by_id pg (t_pid t) in
      let lhs := fst prod in
      let cm := cm_insert cm t lhs in
      let* (tr, q) := match_all (map (fun i => (i, MNonterminal id)) (get_incomplete cm lhs t)) tr q in
      Ok (if full then Some id else None, mkS tr q cm)
  end.

(** lines 108-180 [earley]; line 60-62 [pop_front].  One unit of fuel per popped traversal. *)
Fixpoint earley (fuel : nat) (pg : parse_grammar) (st : pstate) : res (option nat * pstate) :=
  match fuel with
  | 0 => OutOfFuel
  | S fuel =>
      match q_queue (s_queue st) with
      | nil => Ok (None, st)
      | id :: rest =>
          let* (found, st) := process pg (s_tree st) (mkQ (q_processed (s_queue st)) rest) (s_comp st) id in
          match found with
          | Some id => Ok (Some id, st)
          | None => earley fuel pg st
          end
      end
  end.

(** lines 183-188 [ParseTreeIter]. *)
Record piter : Type := mkI { it_parser : grammar_parser; it_state : pstate }.

(** lines 191-217 [ParseTreeIter::new]. *)
Definition iter_new (p : grammar_parser) (input : str) (start : option term) : res piter :=
  let st := match start with Some t => t | None => gp_start p end in
  let* (tr, q) := predict_all (gp_pg p) (range_new input) true
                    (get_productions_by_lhs (gp_pg p) st) (mkTT [] [] []) (mkQ [] []) in
  Ok (mkI p (mkS tr q (mkCM [] []))).

(** lines 222-237 [Iterator::next]. *)
Definition iter_next (fuel : nat) (it : piter) : res (option ptree * piter) :=
  let pg := gp_pg (it_parser it) in
  let* (found, st) := earley fuel pg (it_state it) in
  match found with
  | None => Ok (None, mkI (it_parser it) st)
  | Some id =>
      let* t := parse_tree (S (length (tt_arena (s_tree st)))) (s_tree st) pg id in
      Ok (Some t, mkI (it_parser it) st)
  end.

(** ** Entry points *)

(** src/parser/mod.rs:82-89 [GrammarParser::parse_input_starting_with]. *)
Definition parse_input_starting_with (p : grammar_parser) (input : str) (start : term) : res piter :=
  iter_new p input (Some start).
(** src/parser/mod.rs:71-77 [GrammarParser::parse_input]. *)
Definition parse_input (p : grammar_parser) (input : str) : res piter :=
  parse_input_starting_with p input (gp_start p).
(** src/grammar.rs:450-456 deprecated [Grammar::parse_input]. *)
Definition grammar_parse_input (g : grammar) (input : str) : res piter :=
  let* p := parser_new_unchecked g in iter_new p input None.
(** src/grammar.rs:478-485 deprecated [Grammar::parse_input_starting_with]. *)
Definition grammar_parse_input_starting_with (g : grammar) (input : str) (start : term) : res piter :=
  let* p := parser_new_unchecked g in iter_new p input (Some start).
