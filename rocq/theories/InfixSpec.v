(** Expressions with infix operators and no precedence. *)
From Verif Require Export PreferSpec.

(** The alternatives of [n] are [n o n] for an operator [o] and the operands, all of one character. *)
Definition infix (g : grammar) (n : str) (ops operands : list char) : Prop :=
  forall e, (exists p, In p g /\ p_lhs p = Nonterminal n /\ In e (p_rhs p)) <->
    (exists o, In o ops /\ e = [Nonterminal n; Terminal [o]; Nonterminal n]) \/ (exists a, In a operands /\ e = [Terminal [a]]).

Definition operand (n : str) (a : char) : ptree := Node (Nonterminal n) [Leaf [a]].
Definition operation (n : str) (x : ptree) (o : char) (y : ptree) : ptree := Node (Nonterminal n) [Sub x; Leaf [o]; Sub y].

(** [a o1 b1 o2 b2 ...], bracketed to the left. *)
Definition leftmost (n : str) (a : char) (rest : list (char * char)) : ptree :=
  fold_left (fun x ob => operation n x (fst ob) (operand n (snd ob))) rest (operand n a).

(** The number of rounds from where an expression is first expected to where it is first found: an
    operation is found one round after its right operand, but not earlier than three after its left. *)
Fixpoint rounds (t : ptree) : nat :=
  match t with
  | Node _ [Sub x; Leaf _; Sub y] => S (Nat.max (2 + rounds x) (2 * S (List.length (yield x)) + rounds y))
  | _ => 1
  end.
