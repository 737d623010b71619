(** What the tree formats should look like, independently of how they are printed. *)
From Verif Require Export EarleySpec Display Decimals.
From Coq Require String.
Import String.StringSyntax.

(** ** The canonical drawing *)

(** The nodes of a tree in pre-order.  Each comes with its [lasts]: for the node and each of
    its ancestors except the root, from the top down, whether it is the last child of its
    parent. *)
Fixpoint with_last {A} (l : list A) : list (bool * A) :=
  match l with
  | nil => []
  | x :: r => (match r with nil => true | _ => false end, x) :: with_last r
  end.

Definition node_line (k : pnode) : str :=
  match k with
  | Leaf s => [34%N] ++ s ++ [34%N]
  | Sub (Node l kids) =>
      display_term l ++ lit " ::=" ++
      concat (map (fun k => lit " " ++ match k with Leaf s => [34%N] ++ s ++ [34%N] | Sub t => display_term (root t) end) kids)
  end.

Inductive drawing : list bool -> pnode -> list (list bool * str) -> Prop :=
| draw_leaf lasts s : drawing lasts (Leaf s) [(lasts, node_line (Leaf s))]
| draw_node lasts l kids out : drawings lasts (with_last kids) out ->
    drawing lasts (Sub (Node l kids)) ((lasts, node_line (Sub (Node l kids))) :: out)
with drawings : list bool -> list (bool * pnode) -> list (list bool * str) -> Prop :=
| draw_nil lasts : drawings lasts [] []
| draw_cons lasts b k ks out outs : drawing (lasts ++ [b]) k out -> drawings lasts ks outs ->
    drawings lasts ((b, k) :: ks) (out ++ outs).

Scheme drawing_mind := Induction for drawing Sort Prop
  with drawings_mind := Induction for drawings Sort Prop.
Combined Scheme drawing_mutind from drawing_mind, drawings_mind.

(** The glyphs before a line: a bar below each ancestor that has further siblings, and a tee or
    a corner for the node itself. *)
Fixpoint glyphs (lasts : list bool) : str :=
  match lasts with
  | nil => []
  | [own] => (if own then [9492; 9472; 9472; 32] else [9500; 9472; 9472; 32])%N
  | anc :: r => (if anc then [32; 32; 32; 32] else [9474; 32; 32; 32])%N ++ glyphs r
  end.

Definition render (lines : list (list bool * str)) : str :=
  concat (map (fun x => glyphs (fst x) ++ snd x ++ [10%N]) lines).

(** ** The numbered edges of a tree *)

Fixpoint tree_size (t : ptree) : nat :=
  match t with
  | Node _ kids => S (list_sum (map (fun k => match k with Leaf _ => 1 | Sub t => tree_size t end) kids))
  end.
Definition node_size (k : pnode) : nat := match k with Leaf _ => 1 | Sub t => tree_size t end.

(** The text of a node: the name of its nonterminal, or the terminal. *)
Definition label (k : pnode) : str :=
  match k with
  | Leaf s => s
  | Sub t => match root t with Nonterminal s => s | Terminal s => s end
  end.

(** [edges n t es]: with the root of [t] numbered [n] and the others numbered consecutively in
    pre-order, [es] are the edges (number and label of parent and child) in the order of the
    child's number.  A child's number follows those of its parent and of the subtrees of its
    elder siblings. *)
Inductive edges : nat -> ptree -> list ((nat * str) * (nat * str)) -> Prop :=
| edges_node n l kids es : edges_from n (label (Sub (Node l kids))) (n + 1) kids es -> edges n (Node l kids) es
with edges_from : nat -> str -> nat -> list pnode -> list ((nat * str) * (nat * str)) -> Prop :=
| ef_nil n a m : edges_from n a m [] []
| ef_leaf n a m s ks es : edges_from n a (m + 1) ks es ->
    edges_from n a m (Leaf s :: ks) (((n, a), (m, s)) :: es)
| ef_sub n a m t ks es1 es2 : edges m t es1 -> edges_from n a (m + tree_size t) ks es2 ->
    edges_from n a m (Sub t :: ks) (((n, a), (m, label (Sub t))) :: es1 ++ es2).

Scheme edges_mind := Induction for edges Sort Prop
  with edges_from_mind := Induction for edges_from Sort Prop.
Combined Scheme edges_mutind from edges_mind, edges_from_mind.

(** Every label of the tree is a nonterminal. *)
Inductive all_nonterminal : ptree -> Prop :=
| an_node n kids : (forall t, In (Sub t) kids -> all_nonterminal t) -> all_nonterminal (Node (Nonterminal n) kids).

(** ** Decimal numbers *)

(** The value of a sequence of digits without superfluous zeros. *)
Inductive decimal : str -> N -> Prop :=
| decimal_digit c : (48 <= c <= 57)%N -> decimal [c] (c - 48)
| decimal_more s v c : decimal s v -> (0 < v)%N -> (48 <= c <= 57)%N -> decimal (s ++ [c]) (10 * v + (c - 48)).

(** ** Decoding of Mermaid entity codes *)

(** The characters that have a meaning in Mermaid labels. *)
Definition mermaid_special (c : char) : Prop :=
  In c [34; 38; 35; 60; 62; 91; 92; 93; 59; 10; 13]%N.

(** A relation: [decodes s t] - [s] with each entity code "#<decimal>;" replaced by the
    character with that code point is [t]. *)
Inductive decodes : str -> str -> Prop :=
| dc_nil : decodes [] []
| dc_plain c s t : c <> 35%N -> decodes s t -> decodes (c :: s) (c :: t)
| dc_entity d c s t : decimal d c -> decodes s t -> decodes ([35%N] ++ d ++ [59%N] ++ s) (c :: t).
