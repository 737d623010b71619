(** The functions that compute with [usize], with the arithmetic of the machine: a word holds the
    numbers up to [umax]; a sum or difference outside of it panics in a build with overflow checks
    ([checks], the debug profile) and wraps around otherwise.  The other models compute with [nat];
    that both agree is C108.

    Lengths of vectors and strings, and ids, which are lengths of a vector, are the machine's own and
    are not computed. *)
From Verif Require Export Earley Text Nesting TreeFormat.
From Coq Require String.
Import String.StringSyntax.

Section Machine.
  Variable checks : bool.
  Variable umax : nat.

  Definition word_add (a b : nat) : res nat :=
    if Nat.leb (a + b) umax then Ok (a + b) else if checks then Panic else Ok (a + b - S umax).
  Definition word_sub (a b : nat) : res nat :=
    if Nat.leb b a then Ok (a - b) else if checks then Panic else Ok (S umax + a - b).

  (** ** src/earley/input_range.rs *)

  (** lines 8-10 *)
  Definition total_len_w (r : irange) : res nat := word_add (r_start r) (r_len r).
  (** lines 29-32 *)
  Definition range_next_w (r : irange) : res str :=
    let* next_idx := word_add (r_start r) (r_len r) in
    Ok (match str_get_from next_idx (r_input r) with Some s => s | None => [] end).
  (** lines 33-41 *)
  Definition range_after_w (r : irange) : res irange :=
    let* start := word_add (r_start r) (r_len r) in Ok (mkR (r_input r) start 0).
  (** lines 43-51 *)
  Definition advance_by_w (r : irange) (step : nat) : res irange :=
    let* max_len := word_sub (byte_len (r_input r)) (r_start r) in
    let* len := word_add (r_len r) step in
    Ok (mkR (r_input r) (r_start r) (Nat.min len max_len)).

  (** ** src/earley/traversal.rs *)

  (** lines 140-167 *)
  Definition tt_predict_w (tr : ttree) (range : irange) (pid : nat) (rhs : expression) (is_starting : bool) : res (nat * ttree) :=
    let* total := total_len_w range in
    let key := (pid, total) in
    match hm_get troot_eqb (tt_roots tr) key with
    | Some id => Ok (id, tr)
    | None =>
        let id := length (tt_arena tr) in
        let* after := range_after_w range in
        Ok (id, mkTT (tt_arena tr ++ [mkT id rhs after pid is_starting None]) (hm_insert (tt_roots tr) key id) (tt_edges tr))
    end.
  (** lines 183-220 *)
  Definition tt_match_term_w (tr : ttree) (parent_ix : nat) (m : tmatch) : res (nat * ttree) :=
    let* parent := expect (nth_error (tt_arena tr) parent_ix) in
    let* range :=
      match m with
      | MTerminal s => advance_by_w (t_range parent) (byte_len s)
      | MNonterminal nid =>
          let* nt := expect (nth_error (tt_arena tr) nid) in
          advance_by_w (t_range parent) (r_len (t_range nt))
      end in
    let* unmatched := match t_unmatched parent with nil => Panic | _ :: r => Ok r end in
    let from : tedge := (m, t_id parent) in
    match hm_get tedge_eqb (tt_edges tr) from with
    | Some id => Ok (id, tr)
    | None =>
        let id := length (tt_arena tr) in
        Ok (id, mkTT (tt_arena tr ++ [mkT id unmatched range (t_pid parent) (t_starting parent) (Some from)])
                     (tt_roots tr) (hm_insert (tt_edges tr) from id))
    end.

  (** ** src/earley/mod.rs *)

  (** lines 253-258 *)
  Definition key_total_w (t : term) (r : irange) : res ckey := let* total := total_len_w r in Ok (t, total).
  (** lines 298-306 *)
  Definition get_complete_w (cm : cmap) (t : term) (r : irange) : res (list nat) :=
    let* k := key_total_w t r in Ok (cm_lookup (cm_complete cm) k).
  (** lines 307-322 *)
  Definition cm_insert_w (cm : cmap) (t : traversal) (lhs : term) : res cmap :=
    match next_unmatched t with
    | Some (Terminal _) => Ok cm
    | Some (Nonterminal n) =>
        let* k := key_total_w (Nonterminal n) (t_range t) in
        Ok (mkCM (hm_insert (cm_incomplete cm) k (sorted_vec_insert (cm_lookup (cm_incomplete cm) k) (t_id t))) (cm_complete cm))
    | None =>
        let k := key_start lhs (t_range t) in
        Ok (mkCM (cm_incomplete cm) (hm_insert (cm_complete cm) k (sorted_vec_insert (cm_lookup (cm_complete cm) k) (t_id t))))
    end.
  (** lines 76-79 and 133-137 *)
  Fixpoint predict_all_w (pg : parse_grammar) (range : irange) (starting : bool) (pids : list nat) (tr : ttree) (q : tqueue)
      : res (ttree * tqueue) :=
    match pids with
    | nil => Ok (tr, q)
    | pid :: r =>
        let* prod := get_production_by_id pg pid in
        let* (id, tr) := tt_predict_w tr range pid (snd prod) starting in
        predict_all_w pg range starting r tr (q_push q id)
    end.
  (** lines 139-144 and 164-170 *)
  Fixpoint match_all_w (l : list (nat * tmatch)) (tr : ttree) (q : tqueue) : res (ttree * tqueue) :=
    match l with
    | nil => Ok (tr, q)
    | (parent, m) :: r => let* (id, tr) := tt_match_term_w tr parent m in match_all_w r tr (q_push q id)
    end.
  (** lines 121-176 *)
  Definition process_w (pg : parse_grammar) (tr : ttree) (q : tqueue) (cm : cmap) (id : nat) : res (option nat * pstate) :=
    let* t := tt_get tr id in
    match next_unmatched t with
    | Some (Nonterminal n) =>
        let* prod := get_production_by_id pg (t_pid t) in
        let* cm := cm_insert_w cm t (fst prod) in
        let* (tr, q) := predict_all_w pg (t_range t) false (get_productions_by_lhs pg (Nonterminal n)) tr q in
        let* done := get_complete_w cm (Nonterminal n) (t_range t) in
        let* (tr, q) := match_all_w (map (fun c => (id, MNonterminal c)) done) tr q in
        Ok (None, mkS tr q cm)
    | Some (Terminal s) =>
        let* rest := range_next_w (t_range t) in
        if starts_with rest s then
          let* (tr, q) := match_all_w [(id, MTerminal s)] tr q in
          Ok (None, mkS tr q cm)
        else Ok (None, mkS tr q cm)
    | None =>
        let full := t_starting t && is_complete (t_range t) in
        let* prod := get_production_by_id pg (t_pid t) in
        let lhs := fst prod in
        let* cm := cm_insert_w cm t lhs in
        let* (tr, q) := match_all_w (map (fun i => (i, MNonterminal id)) (get_incomplete cm lhs t)) tr q in
        Ok (if full then Some id else None, mkS tr q cm)
    end.
  (** lines 108-180 *)
  Fixpoint earley_w (fuel : nat) (pg : parse_grammar) (st : pstate) : res (option nat * pstate) :=
    match fuel with
    | 0 => OutOfFuel
    | S fuel =>
        match q_queue (s_queue st) with
        | nil => Ok (None, st)
        | id :: rest =>
            let* (found, st) := process_w pg (s_tree st) (mkQ (q_processed (s_queue st)) rest) (s_comp st) id in
            match found with
            | Some id => Ok (Some id, st)
            | None => earley_w fuel pg st
            end
        end
    end.
  (** lines 191-217 *)
  Definition iter_new_w (p : grammar_parser) (input : str) (start : option term) : res piter :=
    let st := match start with Some t => t | None => gp_start p end in
    let* (tr, q) := predict_all_w (gp_pg p) (range_new input) true (get_productions_by_lhs (gp_pg p) st) (mkTT [] [] []) (mkQ [] []) in
    Ok (mkI p (mkS tr q (mkCM [] []))).
  (** lines 222-237 *)
  Definition iter_next_w (fuel : nat) (it : piter) : res (option ptree * piter) :=
    let pg := gp_pg (it_parser it) in
    let* (found, st) := earley_w fuel pg (it_state it) in
    match found with
    | None => Ok (None, mkI (it_parser it) st)
    | Some id =>
        let* t := parse_tree (S (length (tt_arena (s_tree st)))) (s_tree st) pg id in
        Ok (Some t, mkI (it_parser it) st)
    end.

  (** ** src/parsers/mod.rs: names for groups and optionals *)

  (** lines 412-421 *)
  Fixpoint fresh_anon_name_w (fuel : nat) (used : list str) (counter : nat) : res (str * list str * nat) :=
    match fuel with
    | 0 => OutOfFuel
    | S fuel =>
        let candidate := lit "__anon" ++ dec counter in
        let* counter := word_add counter 1 in
        if str_memb candidate used then fresh_anon_name_w fuel used counter
        else Ok (candidate, candidate :: used, counter)
    end.
  Definition fresh_w (st : lstate) : res (str * lstate) :=
    let* (n, used, counter) := fresh_anon_name_w (S (length (l_used st))) (l_used st) (l_counter st) in
    Ok (n, mkL used counter (l_anon st)).
  (** lines 437-475, 423-435 *)
  Fixpoint lower_term_w (t : parsed_term) (st : lstate) : res (term * lstate) :=
    match t with
    | Simple t => Ok (t, st)
    | Group es =>
        let* (n, st) := fresh_w st in
        let* (rhs, st) := map_st (map_st lower_term_w) es st in
        let rhs := match rhs with [] => [[Terminal []]] | _ => rhs end in
        Ok (Nonterminal n, push_anon (mkProd (Nonterminal n) rhs) st)
    | Optional es =>
        let* (n, st) := fresh_w st in
        let* (rhs, st) := map_st (map_st lower_term_w) es st in
        let rhs := rhs ++ [[Terminal []]] in
        Ok (Nonterminal n, push_anon (mkProd (Nonterminal n) rhs) st)
    end.
  Definition lower_expression_w : parsed_expression -> lstate -> res (expression * lstate) := map_st lower_term_w.
  (** lines 480-488 *)
  Definition lower_production_w (p : parsed_production) (st : lstate) : res (production * lstate) :=
    let* (rhs, st) := map_st lower_expression_w (pp_rhs p) st in
    Ok (mkProd (Nonterminal (pp_lhs p)) rhs, st).
  (** lines 401-492 *)
  Definition normalize_w (g : parsed_grammar) : res grammar :=
    let* (out, st) := map_st lower_production_w g (mkL (map pp_lhs g) 0 []) in
    Ok (out ++ l_anon st).
  (** lines 253-262 *)
  Definition grammar_complete_w (alphabetic : char -> bool) (F : format) (s : str) : res (option grammar) :=
    let extended :=
      let* o := parsed_grammar_complete alphabetic F s in
      match o with
      | Some pg => let* g := normalize_w pg in Ok (Some g)
      | None => Ok None
      end in
    if grammar_has_extended_syntax s then extended
    else match all_consuming (plain_grammar alphabetic F (fuel_for s) s) with
         | Ok (Some g) => Ok (Some g)
         | Ok None => extended
         | Panic => Panic
         | OutOfFuel => OutOfFuel
         end.

  (** ** src/grammar.rs: formatting of parse trees *)

  (** lines 125-154 *)
  Fixpoint prefix_w (set : format_set) (depth : nat) (is_last : bool) (idxs : list nat) : res str :=
    match idxs with
    | nil => Ok []
    | idx :: r =>
        let* next := word_add idx 1 in
        let here := if Nat.eqb next depth
                    then (if is_last then last_child_prefix else child_prefix)
                    else if fs_contains idx set then grandchild_prefix
                    else last_grandchild_prefix in
        let* rest := prefix_w set depth is_last r in
        Ok (here ++ rest)
    end.
  Definition fmt_node_prefix_w (set : format_set) (depth : nat) (is_last : bool) : res str :=
    prefix_w set depth is_last (seq 0 depth).
  (** lines 76-123 *)
  Fixpoint fmt_tree_w (t : ptree) (set : format_set) (depth : nat) (is_last : bool) {struct t} : res (str * format_set) :=
    match t with
    | Node lhs kids =>
        let set := fs_insert depth set in
        let* prefix := fmt_node_prefix_w set depth is_last in
        let head := prefix ++ fmt_header lhs kids ++ newline in
        let* child_depth := word_add depth 1 in
        let* (body, set) := (fix loop (ks : list (node term)) (set : format_set) {struct ks} : res (str * format_set) :=
          match ks with
          | nil => Ok ([], set)
          | k :: ks' =>
              let last := match ks' with nil => true | _ => false end in
              let set := if last then fs_remove depth set else set in
              let* (out, set) := match k with
                                 | Leaf s => let* prefix := fmt_node_prefix_w set child_depth last in
                                             Ok (prefix ++ TreeFormat.quoted s ++ newline, set)
                                 | Sub t => fmt_tree_w t set child_depth last
                                 end in
              let* (rest, set) := loop ks' set in
              Ok (out ++ rest, set)
          end) kids set in
        Ok (head ++ body, set)
    end.
  Definition display_tree_w (t : ptree) : res str := let* (out, _) := fmt_tree_w t [] 0 true in Ok out.

  (** lines 221-263 *)
  Fixpoint mermaid_fmt_w (t : ptree) (count : nat) {struct t} : res (str * nat) :=
    match t with
    | Node l kids =>
        let header := if Nat.eqb count 0 then lit "flowchart TD" ++ newline else [] in
        let* lhs := mermaid_lhs l in
        let lhs_escaped := escape_mermaid_label lhs in
        let lhs_count := count in
        let* (body, count) := (fix loop (ks : list (node term)) (count : nat) {struct ks} : res (str * nat) :=
          match ks with
          | nil => Ok ([], count)
          | k :: ks' =>
              let* count := word_add count 1 in
              let* (out, count) :=
                match k with
                | Leaf s => Ok (mermaid_line lhs_count lhs_escaped count (escape_mermaid_label s), count)
                | Sub t' =>
                    let* rhs := mermaid_lhs (match t' with Node l' _ => l' end) in
                    let line := mermaid_line lhs_count lhs_escaped count (escape_mermaid_label rhs) in
                    let* (out, count) := mermaid_fmt_w t' count in
                    Ok (line ++ out, count)
                end in
              let* (rest, count) := loop ks' count in
              Ok (out ++ rest, count)
          end) kids count in
        Ok (header ++ body, count)
    end.
  Definition display_mermaid_w (t : ptree) : res str := let* (out, _) := mermaid_fmt_w t 0 in Ok out.

  (** ** src/grammar.rs:492-560, 644-672: generation, which counts its nested calls ([Nesting.v]) *)
  Section Generate.
    Context {S : Type}.
    Variable choose : S -> nat -> production -> nat -> res (option expression * S).
    Variable accept : S -> str -> str -> bool * S.
    Variable g : grammar.
    Fixpoint traverse_w (tries levels : nat) (ident : str) (st : S) (depth : nat) : res (result str * S) :=
      match levels with
      | 0 => OutOfFuel
      | Datatypes.S levels =>
          traverse_loop choose accept g
            (fun nt st => let* depth := word_add depth 1 in traverse_w tries levels nt st depth) tries ident st depth
      end.
    Definition generate_w (tries levels fuel : nat) (st : S) : res (result str * S) :=
      let* t := terminates fuel g in
      if negb t then Ok (RErr (GenerateError msg_not_terminating), st)
      else match g with
           | nil => Ok (RErr (GenerateError msg_no_production), st)
           | p :: _ => match p_lhs p with
                       | Nonterminal nt => traverse_w tries levels nt st 0
                       | Terminal _ => Ok (RErr (GenerateError (msg_terminal_lhs p)), st)
                       end
           end.
  End Generate.
End Machine.
