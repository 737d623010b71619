(** Specification of the number of parse trees, counted without a parser. *)
From Verif Require Export CombineSpec RenameSpec TreeDepth.

(** What is left of [w] behind [s], if it begins with [s]. *)
Fixpoint behind (s w : str) : option str :=
  match s, w with
  | [], _ => Some w
  | c :: s, d :: w => if (c =? d)%N then behind s w else None
  | _ :: _, [] => None
  end.

(** The number of ways to read [w] as an alternative, if [f n v] is the number of ways to read [v] as [n]. *)
Fixpoint ways (f : str -> str -> nat) (e : expression) (w : str) : nat :=
  match e with
  | [] => match w with [] => 1 | _ => 0 end
  | Terminal s :: e => match behind s w with Some r => ways f e r | None => 0 end
  | Nonterminal n :: e => list_sum (map (fun i => f n (firstn i w) * ways f e (skipn i w)) (seq 0 (S (List.length w))))
  end.

(** The number of trees for [n] and [w] that are at most [h] high. *)
Fixpoint count (h : nat) (g : grammar) (n w : str) : nat :=
  match h with
  | 0 => 0
  | S h => list_sum (map (fun e => ways (count h g) e w) (alternatives g (Nonterminal n)))
  end.

(** A name with one character less each time it comes again: no path need be longer. *)
Definition enough (g : grammar) (w : str) : nat := List.length g * S (List.length w).
