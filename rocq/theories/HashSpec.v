(** What is asked of the bytes fed to a hasher. *)
From Verif Require Export Hashing.

(** [f] is a prefix code on the values satisfying [P]: values can be read off the bytes, one after the other. *)
Definition code_on {A} (P : A -> Prop) (f : A -> list N) : Prop :=
  forall x y a b, P x -> P y -> f x ++ a = f y ++ b -> x = y /\ a = b.

(** The numbers fit into a machine word, and the strings are strings of characters. *)
Definition fits (w : nat) (n : nat) : Prop := (N.of_nat n < 256 ^ N.of_nat w)%N.
Definition term_ok (t : term) : Prop := match t with Terminal s => text s | Nonterminal s => text s end.
Definition expression_ok (w : nat) (e : expression) : Prop := fits w (length e) /\ Forall term_ok e.
Definition production_ok (w : nat) (p : production) : Prop :=
  term_ok (p_lhs p) /\ fits w (length (p_rhs p)) /\ Forall (expression_ok w) (p_rhs p).
Definition grammar_ok (w : nat) (g : grammar) : Prop := fits w (length g) /\ Forall (production_ok w) g.
Definition tmatch_ok (w : nat) (m : tmatch) : Prop := match m with MTerminal s => text s | MNonterminal id => fits w id end.
Definition tedge_ok (w : nat) (e : tedge) : Prop := tmatch_ok w (fst e) /\ fits w (snd e).
Definition troot_ok (w : nat) (r : troot) : Prop := fits w (fst r) /\ fits w (snd r).
Definition ckey_ok (w : nat) (k : ckey) : Prop := term_ok (fst k) /\ fits w (snd k).
