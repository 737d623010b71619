(** C07, C12 and C50 for the states inside a call of [next], also one that does not return.  [later pg st st'] (StepsSpec.v):
    the parser comes from the state [st] to the state [st'] by taking traversals from the queue. *)
From Verif Require Import EarleySpec EarleyTerm StepsSpec ParseExamples Facts_Inside.
From Coq Require Import String List Sorted.
Import ListNotations.
Open Scope list_scope.

(** ** C07 Parsing input never panics *)

(** The next traversal in the queue, if any, can be taken and worked on. *)
Theorem C07_inside : forall g start input it st id rest,
  opens g start input it -> later (gp_pg (it_parser it)) (it_state it) st -> q_queue (s_queue st) = id :: rest ->
  exists found st1, process (gp_pg (it_parser it)) (s_tree st) (mkQ (q_processed (s_queue st)) rest) (s_comp st) id = Ok (found, st1).
Proof. exact inside_steps. Qed.
Print Assumptions C07_inside.

(** ** C12 Matched ranges stay inside the input on character boundaries *)

Theorem C12_inside : forall g start input it st t,
  opens g start input it -> later (gp_pg (it_parser it)) (it_state it) st -> In t (tt_arena (s_tree st)) ->
  exists before matched after, input = before ++ matched ++ after /\
    r_input (t_range t) = input /\ r_start (t_range t) = byte_len before /\ r_len (t_range t) = byte_len matched /\
    range_next (t_range t) = after.
Proof. exact inside_boundaries. Qed.
Print Assumptions C12_inside.

Theorem C12_inside_no_clamping : forall g start input it st i t m par,
  opens g start input it -> later (gp_pg (it_parser it)) (it_state it) st ->
  nth_error (tt_arena (s_tree st)) i = Some t -> t_from t = Some (m, par) ->
  exists tp, nth_error (tt_arena (s_tree st)) par = Some tp /\
    r_start (t_range t) = r_start (t_range tp) /\
    match m with
    | MTerminal s => r_len (t_range t) = r_len (t_range tp) + byte_len s
    | MNonterminal c => exists tc, nth_error (tt_arena (s_tree st)) c = Some tc /\
        r_start (t_range tc) = r_start (t_range tp) + r_len (t_range tp) /\
        r_len (t_range t) = r_len (t_range tp) + r_len (t_range tc)
    end.
Proof. exact inside_no_clamp. Qed.
Print Assumptions C12_inside_no_clamping.

(** ** C50 Completion vectors stay sorted *)

Theorem C50_inside : forall g start input it st k, opens g start input it -> later (gp_pg (it_parser it)) (it_state it) st ->
  StronglySorted lt (cm_lookup (cm_incomplete (s_comp st)) k) /\ StronglySorted lt (cm_lookup (cm_complete (s_comp st)) k).
Proof. exact inside_sorted. Qed.
Print Assumptions C50_inside.

(** The first call of [next] of C05_cyclic_refuted, which does not return: after it has taken six traversals. *)
Example C12_inside_example : exists it, opens loop_grammar (N_ "s") (lit "z") it /\ (forall fuel, iter_next fuel it = OutOfFuel) /\
  exists st, later (gp_pg (it_parser it)) (it_state it) st /\ List.length (tt_arena (s_tree st)) = 8 /\ q_queue (s_queue st) = [6; 7] /\
    option_map t_from (nth_error (tt_arena (s_tree st)) 7) = Some (Some (MNonterminal 5, 1)) /\
    cm_lookup (cm_complete (s_comp st)) (N_ "a", 0) = [3; 5].
Proof. exact inside_example. Qed.
