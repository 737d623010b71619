(** Specification of what rewriting the terminals of a grammar does to parsing and generation. *)
From Verif Require Export Iterate GenSpec Strategies.

(** A tree with its leaves rewritten. *)
Fixpoint map_leaves (h : str -> str) (t : ptree) : ptree :=
  match t with Node l ks => Node l (map (map_leaves_node h) ks) end
with map_leaves_node (h : str -> str) (k : pnode) : pnode :=
  match k with Leaf s => Leaf (h s) | Sub t => Sub (map_leaves h t) end.

(** A strategy whose choice does not depend on the texts of the terminals: from the rewritten
    production it chooses the rewritten alternative. *)
Definition map_choice {S} (h : str -> str) (x : res (option expression * S)) : res (option expression * S) :=
  match x with
  | Ok (o, st) => Ok (option_map (map (on_terminal h)) o, st)
  | Panic => Panic
  | OutOfFuel => OutOfFuel
  end.
Definition blind_to_terminals {S} (choose : S -> nat -> production -> nat -> res (option expression * S)) : Prop :=
  forall h st addr p n depth, p_lhs p = Nonterminal n ->
    choose st addr (map_production h p) depth = map_choice h (choose st addr p depth).

(** The outcome [x'] of generating from the rewritten grammar belongs to the outcome [x]: the same
    expansion, error or panic, after the same time, with the same state left. *)
Definition same_expansion {S} (h : str -> str) (g : grammar) (n : str) (x x' : res (result str * S)) : Prop :=
  match x with
  | Ok (ROk w, st) => exists t, parses g (Nonterminal n) w t /\ x' = Ok (ROk (yield (map_leaves h t)), st)
  | _ => x' = x
  end.
