(** What the iterator over parse trees keeps in memory (src/earley/mod.rs:54-57, 183-188, 270-273,
    src/earley/traversal.rs:22-36, 44-59, 124-128).  The terms that a traversal still has to match, its
    window on the input and the texts of matches are references, so that an entry of any of the tables has a
    fixed size. *)
From Verif Require Export StructSpec EarleySpec.

(** Any number of calls of [next], whatever they return. *)
Inductive visits (it : piter) : piter -> Prop :=
| visits_here : visits it it
| visits_next it1 fuel o it2 : visits it it1 -> iter_next fuel it1 = Ok (o, it2) -> visits it it2.

(** The values of a table, one for each key that is in it. *)
Definition values {K V} (eqb : K -> K -> bool) (m : hmap K V) : list V :=
  flat_map (fun k => match hm_get eqb m k with Some v => [v] | None => [] end) (firsts eqb (map fst m)).

(** The ids of the traversals with a property. *)
Definition ids_where (P : traversal -> bool) (l : list traversal) : list nat := map t_id (filter P l).

Definition is_root (t : traversal) : bool := match t_from t with None => true | Some _ => false end.
Definition is_child (t : traversal) : bool := match t_from t with None => false | Some _ => true end.
Definition is_waiting (t : traversal) : bool :=
  match next_unmatched t with Some (Nonterminal _) => true | _ => false end.
Definition is_finished (t : traversal) : bool := match next_unmatched t with None => true | Some _ => false end.

(** Traversals, entries of the two tables of the tree, ids in the set of processed traversals and in the queue,
    keys and ids of the two tables of the completion map. *)
Definition kept (st : pstate) : nat :=
  length (tt_arena (s_tree st)) +
  length (values troot_eqb (tt_roots (s_tree st))) + length (values tedge_eqb (tt_edges (s_tree st))) +
  length (q_processed (s_queue st)) + length (q_queue (s_queue st)) +
  length (values ckey_eqb (cm_incomplete (s_comp st))) + length (concat (values ckey_eqb (cm_incomplete (s_comp st)))) +
  length (values ckey_eqb (cm_complete (s_comp st))) + length (concat (values ckey_eqb (cm_complete (s_comp st)))).

(** All that the first state knows, the second knows. *)
Definition retains (st st' : pstate) : Prop :=
  (exists more, tt_arena (s_tree st') = tt_arena (s_tree st) ++ more) /\
  (forall k id, hm_get troot_eqb (tt_roots (s_tree st)) k = Some id -> hm_get troot_eqb (tt_roots (s_tree st')) k = Some id) /\
  (forall k id, hm_get tedge_eqb (tt_edges (s_tree st)) k = Some id -> hm_get tedge_eqb (tt_edges (s_tree st')) k = Some id) /\
  incl (q_processed (s_queue st)) (q_processed (s_queue st')) /\
  forall k, incl (cm_lookup (cm_incomplete (s_comp st)) k) (cm_lookup (cm_incomplete (s_comp st')) k) /\
            incl (cm_lookup (cm_complete (s_comp st)) k) (cm_lookup (cm_complete (s_comp st')) k).
