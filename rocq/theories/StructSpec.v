(** The data structures of the parser (src/parser/grammar.rs, src/append_vec.rs, src/earley) under arbitrary
    sequences of operations, not only those that parsing performs. *)
From Verif Require Export Earley.
From Coq Require Import Sorting.Sorted.

(** The elements of a list in the order of their first occurrences. *)
Definition firsts {A} (eqb : A -> A -> bool) (l : list A) : list A :=
  fold_left (fun seen x => if memb eqb x seen then seen else seen ++ [x]) l [].

(** ** ParseGrammar *)

(** The alternatives of a grammar with their left-hand sides, in order. *)
Definition numbered (g : grammar) : list (term * expression) :=
  flat_map (fun p => map (fun rhs => (p_lhs p, rhs)) (p_rhs p)) g.

(** ** InputRange *)

(** The window lies on [b], after [a] and before [c]. *)
Definition shows (r : irange) (a b c : str) : Prop := r = mkR (a ++ b ++ c) (byte_len a) (byte_len b).

(** ** TraversalTree *)

Inductive tree_op : Type :=
| Predict (range : irange) (pid : nat) (rhs : expression) (starting : bool)
| Match (parent : nat) (m : tmatch).

Definition tree_step (tr : ttree) (o : tree_op) : res (nat * ttree) :=
  match o with
  | Predict range pid rhs starting => Ok (tt_predict tr range pid rhs starting)
  | Match parent m => tt_match_term tr parent m
  end.

(** The results of the operations and the tree in the end. *)
Fixpoint tree_run (ops : list tree_op) (tr : ttree) : res (list nat * ttree) :=
  match ops with
  | [] => Ok ([], tr)
  | o :: ops =>
      let* (id, tr) := tree_step tr o in
      let* (ids, tr) := tree_run ops tr in
      Ok (id :: ids, tr)
  end.

Definition empty_tree : ttree := mkTT [] [] [].

(** What identifies a traversal: a production and a position, or a parent and what was matched. *)
Inductive tree_key : Type :=
| KRoot (pid pos : nat)
| KEdge (m : tmatch) (parent : nat).
Definition key_of (o : tree_op) : tree_key :=
  match o with
  | Predict range pid _ _ => KRoot pid (r_start range + r_len range)
  | Match parent m => KEdge m parent
  end.
Definition tree_key_eqb (a b : tree_key) : bool :=
  match a, b with
  | KRoot p x, KRoot q y => troot_eqb (p, x) (q, y)
  | KEdge m x, KEdge n y => tedge_eqb (m, x) (n, y)
  | _, _ => false
  end.

(** What is stored for a key after the operations [ops]. *)
Definition stored (ops : list tree_op) (arena : list traversal) (id : nat) (t : traversal) (k : tree_key) : Prop :=
  t_id t = id /\
  match k with
  | KRoot pid pos => exists ops1 range rhs starting ops2, ops = ops1 ++ Predict range pid rhs starting :: ops2 /\
      r_start range + r_len range = pos /\ ~ In (KRoot pid pos) (map key_of ops1) /\
      t = mkT id rhs (range_after range) pid starting None
  | KEdge m par => par < id /\ t_from t = Some (m, par) /\ exists tp x, nth_error arena par = Some tp /\
      t_unmatched tp = x :: t_unmatched t /\ t_pid t = t_pid tp /\ t_starting t = t_starting tp /\
      match m with
      | MTerminal s => advance_by (t_range tp) (byte_len s) = Ok (t_range t)
      | MNonterminal c => c < id /\ exists tc, nth_error arena c = Some tc /\ advance_by (t_range tp) (r_len (t_range tc)) = Ok (t_range t)
      end
  end.

(** ** TraversalQueue *)

Inductive queue_op : Type :=
| Push (id : nat)
| Pop.

(** src/earley/mod.rs:60-67: what the calls of [pop_front] return. *)
Fixpoint queue_run (ops : list queue_op) (q : tqueue) : list (option nat) * tqueue :=
  match ops with
  | [] => ([], q)
  | Push id :: ops => queue_run ops (q_push q id)
  | Pop :: ops =>
      match q_queue q with
      | [] => let (out, q) := queue_run ops q in (None :: out, q)
      | id :: rest => let (out, q) := queue_run ops (mkQ (q_processed q) rest) in (Some id :: out, q)
      end
  end.
Definition pushes (ops : list queue_op) : list nat := flat_map (fun o => match o with Push id => [id] | Pop => [] end) ops.
Definition popped (out : list (option nat)) : list nat := flat_map (fun o => match o with Some id => [id] | None => [] end) out.

(** ** CompletionMap *)

Definition completions (l : list (traversal * term)) : cmap :=
  fold_left (fun cm x => cm_insert cm (fst x) (snd x)) l (mkCM [] []).

(** A traversal that waits for a nonterminal or is complete, of a production for [lhs]. *)
Definition recorded (pg : parse_grammar) (tr : ttree) (x : traversal) (lhs : term) : Prop :=
  tt_get tr (t_id x) = Ok x /\ (forall s, next_unmatched x <> Some (Terminal s)) /\
  exists rhs, get_production_by_id pg (t_pid x) = Ok (lhs, rhs).
