(** What a parse does for each traversal it takes from the queue (src/earley/mod.rs:106-180), counted with the
    events of its log (TracingSpec.v). *)
From Verif Require Import Tracing StructSpec TracingSpec.

(** The traversals that result from matching a term, as they are reported: one for each time [match_term] is
    called.  Likewise the traversals that are predicted. *)
Definition matched (l : log) : list nat :=
  flat_map (fun x => match x with Said (PriorCompleted i) | Said (Scanned i) | Said (Completed i) => [i] | _ => [] end) l.
Definition predictions (l : log) : list nat :=
  flat_map (fun x => match x with Said (Predicted i) => [i] | _ => [] end) l.

(** The traversals of an arena that result from others. *)
Definition results (A : list traversal) : list nat :=
  map t_id (filter (fun t => match t_from t with Some _ => true | None => false end) A).

(** The number of alternatives of the nonterminal [t] waits for; the largest such number. *)
Definition choices (g : grammar) (t : traversal) : nat :=
  match next_unmatched t with Some (Nonterminal n) => length (alternatives_of g (Nonterminal n)) | _ => 0 end.
Definition widest (g : grammar) : nat := list_max (map (fun x => length (alternatives_of g (fst x))) (numbered g)).

(** The states of a parse, after each traversal that is taken from the queue. *)
Inductive later (pg : parse_grammar) : pstate -> pstate -> Prop :=
| later_now st : later pg st st
| later_step st st1 st2 id rest found : q_queue (s_queue st) = id :: rest ->
    process pg (s_tree st) (mkQ (q_processed (s_queue st)) rest) (s_comp st) id = Ok (found, st1) ->
    later pg st1 st2 -> later pg st st2.
