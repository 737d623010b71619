(** Specification of "the same rules under other names": what of a grammar the parser can
    see from a starting term. *)
From Verif Require Export EarleySpec.

(** All alternatives of a left-hand side, in the order of the grammar; the splitting into
    productions is forgotten. *)
Definition alternatives (g : grammar) (l : term) : list expression :=
  flat_map (fun p => if term_eqb (p_lhs p) l then p_rhs p else []) g.

(** The terms the parser may have to expand, starting from [start]. *)
Inductive reachable (g : grammar) (start : term) : term -> Prop :=
| reachable_start : reachable g start start
| reachable_in l e n : reachable g start l -> In e (alternatives g l) -> In (Nonterminal n) e ->
    reachable g start (Nonterminal n).

(** Renaming of nonterminals; terminals stay. *)
Definition rename (h : str -> str) (t : term) : term :=
  match t with Terminal s => Terminal s | Nonterminal n => Nonterminal (h n) end.

Fixpoint rename_tree (h : str -> str) (t : ptree) : ptree :=
  match t with Node l ks => Node (rename h l) (map (rename_node h) ks) end
with rename_node (h : str -> str) (k : pnode) : pnode :=
  match k with Leaf s => Leaf s | Sub t => Sub (rename_tree h t) end.

(** [g'] gives to the renamed reachable nonterminals of [g] exactly the renamed alternatives,
    in the same order.  Nothing is said about the rest of [g'], about the order of its
    productions, or about how alternatives are grouped into productions. *)
Definition presents (h : str -> str) (g : grammar) (start : term) (g' : grammar) : Prop :=
  (forall a b, reachable g start (Nonterminal a) -> reachable g start (Nonterminal b) ->
               h a = h b -> a = b) /\
  (forall l, reachable g start l ->
     alternatives g' (rename h l) = map (map (rename h)) (alternatives g l)).

(** What a call of [next] returned, renamed. *)
Definition rename_outcome (h : str -> str) (o : res (option ptree)) : res (option ptree) :=
  match o with
  | Ok (Some t) => Ok (Some (rename_tree h t))
  | Ok None => Ok None
  | Panic => Panic
  | OutOfFuel => OutOfFuel
  end.

(** Number of traversals the iterator has created so far. *)
Definition traversals (it : piter) : nat := length (tt_arena (s_tree (it_state it))).
