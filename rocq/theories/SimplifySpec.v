(** Specification of grammars written in another way: terminals cut up, nonterminals replaced by their alternatives,
    alternatives that cannot be used left out. *)
From Verif Require Export CombineSpec RenameSpec.

(** Terminals cut into characters; an empty terminal vanishes. *)
Definition cut_term (t : term) : expression :=
  match t with Terminal s => map (fun c => Terminal [c]) s | Nonterminal n => [Nonterminal n] end.
Definition cut_expression (e : expression) : expression := flat_map cut_term e.
Fixpoint cut_tree (t : ptree) : ptree := match t with Node l ks => Node l (flat_map cut_node ks) end
with cut_node (k : pnode) : list pnode := match k with Leaf s => map (fun c => Leaf [c]) s | Sub t => [Sub (cut_tree t)] end.

(** The two grammars have the same alternatives for the same names, up to the cuts between terminals. *)
Definition same_up_to_cuts (g g' : grammar) : Prop :=
  forall l c, In c (map cut_expression (alternatives g l)) <-> In c (map cut_expression (alternatives g' l)).

(** No name has two alternatives that differ in the cuts only, or not at all. *)
Definition told_apart (g : grammar) : Prop := NoDup (map (fun x => (fst x, cut_expression (snd x))) (flat_prods g)).

(** A grammar with the alternative [x <b> y] for [l], and with the alternatives of [b] put in the place of [b]. *)
Definition folded (g1 : grammar) (l : term) (r1 : list expression) (x : expression) (b : str) (y : expression)
  (r2 : list expression) (g2 : grammar) : grammar :=
  g1 ++ mkProd l (r1 ++ (x ++ Nonterminal b :: y) :: r2) :: g2.
Definition unfolded (g1 : grammar) (l : term) (r1 : list expression) (x : expression) (b : str) (y : expression)
  (r2 : list expression) (g2 : grammar) : grammar :=
  g1 ++ mkProd l (r1 ++ map (fun e => x ++ e ++ y) (alternatives (folded g1 l r1 x b y r2 g2) (Nonterminal b)) ++ r2) :: g2.

(** The term that a child of a node is for. *)
Definition shape (k : pnode) : term := match k with Leaf s => Terminal s | Sub t => root t end.

(** In every node for [x <b> y] the node for [b] is taken out: its children are now children of the node. *)
Inductive unfolds (l : term) (x : expression) (b : str) (y : expression) : ptree -> ptree -> Prop :=
| unfolds_here kx ku ky kx' ku' ky' : map shape kx = x -> map shape ky = y ->
    unfolds_kids l x b y kx kx' -> unfolds_kids l x b y ku ku' -> unfolds_kids l x b y ky ky' ->
    unfolds l x b y (Node l (kx ++ Sub (Node (Nonterminal b) ku) :: ky)) (Node l (kx' ++ ku' ++ ky'))
| unfolds_other m ks ks' : (m, map shape ks) <> (l, x ++ Nonterminal b :: y) -> unfolds_kids l x b y ks ks' ->
    unfolds l x b y (Node m ks) (Node m ks')
with unfolds_kids (l : term) (x : expression) (b : str) (y : expression) : list pnode -> list pnode -> Prop :=
| unfolds_nil : unfolds_kids l x b y [] []
| unfolds_leaf s ks ks' : unfolds_kids l x b y ks ks' -> unfolds_kids l x b y (Leaf s :: ks) (Leaf s :: ks')
| unfolds_sub t t' ks ks' : unfolds l x b y t t' -> unfolds_kids l x b y ks ks' ->
    unfolds_kids l x b y (Sub t :: ks) (Sub t' :: ks').

(** No part of the input is generated by the alternative. *)
Definition idle (g : grammar) (input : str) (e : expression) : Prop :=
  forall a v b, input = a ++ v ++ b -> ~ seq_generates g e v.
