(** Trees node by node: which alternatives a tree uses. *)
From Verif Require Export GenSpec.

(** The children of a node spell an alternative. *)
Definition spells_alternative (e : expression) (ks : list pnode) : Prop :=
  Forall2 (fun x k => match x, k with
                      | Terminal s, Leaf s' => s' = s
                      | Nonterminal n, Sub t => root t = Nonterminal n
                      | _, _ => False
                      end) e ks.

(** The top node of [t] is a use of a rule of [g]. *)
Definition licensed (g : grammar) (t : ptree) : Prop :=
  match t with Node l ks => exists p e, In p g /\ p_lhs p = l /\ In e (p_rhs p) /\ spells_alternative e ks end.

(** [t] is returned by the iterator at some point. *)
Definition returns (it : piter) (t : ptree) : Prop := exists ts it', produces it ts it' /\ In t ts.
