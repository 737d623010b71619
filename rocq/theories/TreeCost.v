(** How many traversals are looked up to build a parse tree.  The functions of Earley.v from
    src/earley/traversal.rs:76-139 and src/earley/mod.rs:83-104, with the calls of
    [TraversalTree::get] counted. *)
From Verif Require Export EarleySpec.

(** src/earley/traversal.rs:76-91 [TraversalMatchIter::new] *)
Fixpoint root_counted (fuel : nat) (tr : ttree) (current : nat) : res (nat * nat) :=
  match fuel with
  | 0 => OutOfFuel
  | S fuel =>
      let* t := tt_get tr current in
      match t_from t with
      | Some e => let* (r, n) := root_counted fuel tr (snd e) in Ok (r, S n)
      | None => Ok (current, 1)
      end
  end.

(** src/earley/traversal.rs:101-112 *)
Fixpoint scan_counted (fuel : nat) (tr : ttree) (current scan : nat) : res (option (nat * tmatch) * nat) :=
  match fuel with
  | 0 => OutOfFuel
  | S fuel =>
      let* t := tt_get tr scan in
      match t_from t with
      | Some e => if Nat.eqb current (snd e) then Ok (Some (scan, fst e), 1)
                  else let* (r, n) := scan_counted fuel tr current (snd e) in Ok (r, S n)
      | None => Ok (None, 1)
      end
  end.

(** src/earley/traversal.rs:95-113 [TraversalMatchIter::next] *)
Definition next_counted (fuel : nat) (tr : ttree) (current last : nat) : res (option (nat * tmatch) * nat) :=
  if Nat.eqb current last then Ok (None, 0) else scan_counted fuel tr current last.

Fixpoint all_counted (fuel : nat) (walk : nat) (tr : ttree) (current last : nat) : res (list tmatch * nat) :=
  match fuel with
  | 0 => OutOfFuel
  | S fuel =>
      let* (o, n) := next_counted walk tr current last in
      match o with
      | None => Ok ([], n)
      | Some (current', m) =>
          let* (r, n') := all_counted fuel walk tr current' last in
          Ok (m :: r, n + n')
      end
  end.

(** src/earley/traversal.rs:137-139 [get_matched], drained *)
Definition matched_counted (tr : ttree) (id : nat) : res (list tmatch * nat) :=
  let f := S (length (tt_arena tr)) in
  let* (root, n) := root_counted f tr id in
  let* (ms, n') := all_counted f f tr root id in
  Ok (ms, n + n').

Fixpoint map_counted {A B} (f : A -> res (B * nat)) (l : list A) : res (list B * nat) :=
  match l with
  | nil => Ok ([], 0)
  | x :: r => let* (y, n) := f x in let* (r', n') := map_counted f r in Ok (y :: r', n + n')
  end.

(** src/earley/mod.rs:83-104 [parse_tree] *)
Fixpoint tree_counted (fuel : nat) (tr : ttree) (pg : parse_grammar) (id : nat) : res (ptree * nat) :=
  match fuel with
  | 0 => OutOfFuel
  | S fuel =>
      let* t := tt_get tr id in
      let* prod := get_production_by_id pg (t_pid t) in
      let* (ms, n) := matched_counted tr id in
      let* (rhs, n') := map_counted (fun m =>
                     match m with
                     | MTerminal s => Ok (Leaf s, 0)
                     | MNonterminal i => let* (st, k) := tree_counted fuel tr pg i in Ok (Sub st, k)
                     end) ms in
      Ok (Node (fst prod) rhs, S (n + n'))
  end.

(** src/earley/mod.rs:222-237 [Iterator::next]: the lookups of building the tree. *)
Definition next_tree_counted (fuel : nat) (it : piter) : res (option ptree * piter * nat) :=
  let pg := gp_pg (it_parser it) in
  let* (found, st) := earley fuel pg (it_state it) in
  match found with
  | None => Ok (None, mkI (it_parser it) st, 0)
  | Some id =>
      let* (t, n) := tree_counted (S (length (tt_arena (s_tree st)))) (s_tree st) pg id in
      Ok (Some t, mkI (it_parser it) st, n)
  end.

(** ** Specification *)

(** Two and, for the children, one for the first, two for the second and so on, and one more each. *)
Fixpoint lookups {L} (t : tree L) : nat :=
  match t with Node _ ks => 2 + length ks + list_sum (seq 1 (length ks)) + list_sum (map node_lookups ks) end
with node_lookups {L} (k : node L) : nat := match k with Leaf _ => 0 | Sub t => lookups t end.

(** Nodes with a label. *)
Fixpoint nodes {L} (t : tree L) : nat := match t with Node _ ks => S (list_sum (map node_nodes ks)) end
with node_nodes {L} (k : node L) : nat := match k with Leaf _ => 0 | Sub t => nodes t end.

(** The most children of any node. *)
Fixpoint width {L} (t : tree L) : nat := match t with Node _ ks => Nat.max (length ks) (list_max (map node_width ks)) end
with node_width {L} (k : node L) : nat := match k with Leaf _ => 0 | Sub t => width t end.

(** A grammar whose only tree doubles with every rule: [d_n ::= d_(n-1) d_(n-1)], ..., [d_0 ::= ""]. *)
Definition doubling_name (n : nat) : str := repeat 100%N (S n).
Fixpoint doubling (n : nat) : grammar :=
  match n with
  | 0 => [mkProd (Nonterminal (doubling_name 0)) [[Terminal []]]]
  | S m => mkProd (Nonterminal (doubling_name n)) [[Nonterminal (doubling_name m); Nonterminal (doubling_name m)]] :: doubling m
  end.
