(** The size of the texts of a parse tree (C112). *)
From Verif Require Export TreeSpec.

(** The nodes of a tree in pre-order, each with its depth. *)
Fixpoint levels (d : nat) (t : ptree) {struct t} : list (nat * pnode) :=
  match t with
  | Node l kids => (d, Sub (Node l kids)) :: flat_map (fun k => match k with Leaf s => [(S d, Leaf s)] | Sub t => levels (S d) t end) kids
  end.
