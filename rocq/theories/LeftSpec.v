(** Specification of rules without left recursion. *)
From Verif Require Export CombineSpec RenameSpec.

(** The rule for [a] has the alternatives [<a> x] for each [x] of [xs], and the ones of [ys]. *)
Definition left_rules (g1 : grammar) (a : str) (xs ys : list expression) (g2 : grammar) : grammar :=
  g1 ++ mkProd (Nonterminal a) (map (cons (Nonterminal a)) xs ++ ys) :: g2.

(** The same with a name [b] for what follows: [a ::= y <b>] and [b ::= x <b> | ""]. *)
Definition right_rules (g1 : grammar) (a b : str) (xs ys : list expression) (g2 : grammar) : grammar :=
  g1 ++ mkProd (Nonterminal a) (map (fun y => y ++ [Nonterminal b]) ys) ::
        mkProd (Nonterminal b) (map (fun x => x ++ [Nonterminal b]) xs ++ [[Terminal []]]) :: g2.

(** The trees for the new rules: what is added on the right of a tree for [a] comes below a node for [b] each.
    [tail] is what follows [t], if [t] is a tree for [a]. *)
Definition no_more (b : str) : ptree := Node (Nonterminal b) [Leaf []].
Fixpoint turn (a b : str) (t : ptree) (tail : ptree) {struct t} : ptree :=
  match t with
  | Node l ks =>
      if term_eqb l (Nonterminal a) then
        match ks with
        | Sub t0 :: rest =>
            if term_eqb (root t0) (Nonterminal a) then turn a b t0 (Node (Nonterminal b) (map (turn_node a b) rest ++ [Sub tail]))
            else Node l (map (turn_node a b) ks ++ [Sub tail])
        | _ => Node l (map (turn_node a b) ks ++ [Sub tail])
        end
      else Node l (map (turn_node a b) ks)
  end
with turn_node (a b : str) (k : pnode) : pnode :=
  match k with Leaf s => Leaf s | Sub t => Sub (turn a b t (no_more b)) end.
Definition turn_tree (a b : str) (t : ptree) : ptree := turn a b t (no_more b).

(** No other alternative begins with the name. *)
Definition begins_with (a : str) (e : expression) : Prop := exists r, e = Nonterminal a :: r.
