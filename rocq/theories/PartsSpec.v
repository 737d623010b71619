(** Specification of parts of parse trees: a tree with a place left open, and repeating what is around a part. *)
From Verif Require Export CombineSpec.

(** A tree with one place left open, from the root to the place. *)
Inductive context : Type :=
| Here
| Inside (l : term) (ls : list pnode) (c : context) (rs : list pnode).

(** The tree with [s] at the place. *)
Fixpoint plug (c : context) (s : ptree) : ptree :=
  match c with Here => s | Inside l ls c rs => Node l (ls ++ Sub (plug c s) :: rs) end.

(** The text to the left and to the right of the place. *)
Fixpoint before (c : context) : str :=
  match c with Here => [] | Inside _ ls c _ => flat_map yield_node ls ++ before c end.
Fixpoint after (c : context) : str :=
  match c with Here => [] | Inside _ _ c rs => after c ++ flat_map yield_node rs end.

(** [v] [k] times. *)
Definition times (k : nat) (v : str) : str := List.concat (repeat v k).

(** The length of an alternative, in which a name counts as one character. *)
Definition breadth (e : expression) : nat := list_sum (map (fun t => match t with Terminal s => List.length s | Nonterminal _ => 1 end) e).
Definition widest (g : grammar) : nat := list_max (1 :: flat_map (fun p => map breadth (p_rhs p)) g).
(** Texts of trees of a given height are not longer than this. *)
Definition longest (g : grammar) (h : nat) : nat := widest g ^ h.
