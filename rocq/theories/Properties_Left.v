(** C117: rules without left recursion. *)
From Verif Require Import Facts_Left.
From Coq Require Import Permutation.
From Coq Require Import String.
Import String.StringSyntax.
Open Scope string_scope.
Open Scope list_scope.

(** [a ::= <a> x | y] written as [a ::= y <b>], [b ::= x <b> | ""] with a new name [b]: the same inputs are accepted for each name. *)
Theorem C117_accepts : forall g1 a b xs ys g2 n w, ~ has_lhs (g1 ++ g2) a -> ~ has_lhs (left_rules g1 a xs ys g2) b -> ~ refers (left_rules g1 a xs ys g2) b -> n <> b ->
  (accepts (left_rules g1 a xs ys g2) n w <-> accepts (right_rules g1 a b xs ys g2) n w).
Proof. exact left_accepts. Qed.
Print Assumptions C117_accepts.

(** The same texts can be generated. *)
Theorem C117_generated : forall g1 a b xs ys g2 s w, tidy s (left_rules g1 a xs ys g2) -> ~ has_lhs (left_rules g1 a xs ys g2) b ->
  (makes (left_rules g1 a xs ys g2) w <-> makes (right_rules g1 a b xs ys g2) w).
Proof. exact left_makes. Qed.
Print Assumptions C117_generated.

(** The trees returned are the turned ones, even if the enumeration does not end. *)
Theorem C117_returned : forall g1 a b xs ys g2 n w it it' t, ~ has_lhs (g1 ++ g2) a -> ~ has_lhs (left_rules g1 a xs ys g2) b -> ~ refers (left_rules g1 a xs ys g2) b -> n <> b ->
  (forall y, In y ys -> ~ begins_with a y) ->
  opens (left_rules g1 a xs ys g2) (Nonterminal n) w it -> opens (right_rules g1 a b xs ys g2) (Nonterminal n) w it' ->
  (returns it' t <-> exists t0, returns it t0 /\ turn_tree a b t0 = t).
Proof. exact left_returns. Qed.
Print Assumptions C117_returned.

(** One for one, also if alternatives are listed more than once, so an input is as ambiguous as before. *)
Theorem C117_all : forall g1 a b xs ys g2 n w ts ts', ~ has_lhs (g1 ++ g2) a -> ~ has_lhs (left_rules g1 a xs ys g2) b -> ~ refers (left_rules g1 a xs ys g2) b -> n <> b ->
  (forall y, In y ys -> ~ begins_with a y) ->
  all_trees (left_rules g1 a xs ys g2) n w ts -> all_trees (right_rules g1 a b xs ys g2) n w ts' -> Permutation (map (turn_tree a b) ts) ts'.
Proof. exact left_all_copies. Qed.
Print Assumptions C117_all.

(** The enumeration ends for one exactly if it ends for the other. *)
Theorem C117_end : forall g1 a b xs ys g2 n w it it', ~ has_lhs (g1 ++ g2) a -> ~ has_lhs (left_rules g1 a xs ys g2) b -> ~ refers (left_rules g1 a xs ys g2) b -> n <> b ->
  (forall y, In y ys -> ~ begins_with a y) ->
  opens (left_rules g1 a xs ys g2) (Nonterminal n) w it -> opens (right_rules g1 a b xs ys g2) (Nonterminal n) w it' ->
  ((exists ts itf, produces it ts itf /\ exhausted itf) <-> (exists ts itf, produces it' ts itf /\ exhausted itf)).
Proof. exact left_ends. Qed.
Print Assumptions C117_end.

Example C117_end_example :
  loop_left = [mkProd (N_ "s") [[N_ "s"]; [T_ "x"]]] /\ loop_right = [mkProd (N_ "s") [[T_ "x"; N_ "r"]]; mkProd (N_ "r") [[N_ "r"]; [T_ ""]]] /\
  ~ has_lhs loop_left (lit "r") /\ ~ refers loop_left (lit "r") /\ ~ begins_with (lit "s") [T_ "x"] /\
  (exists it it', opens loop_left (N_ "s") (lit "x") it /\ opens loop_right (N_ "s") (lit "x") it' /\
     ~ (exists ts itf, produces it ts itf /\ exhausted itf) /\ ~ (exists ts itf, produces it' ts itf /\ exhausted itf)) /\
  (exists it it', opens loop_left (N_ "s") (lit "z") it /\ opens loop_right (N_ "s") (lit "z") it' /\
     (exists ts itf, produces it ts itf /\ exhausted itf) /\ (exists ts itf, produces it' ts itf /\ exhausted itf)).
Proof. exact left_end_example. Qed.

(** False if the name for the rest is used already. *)
Theorem C117_used_refuted : exists g1 a b xs ys g2 n w, ~ has_lhs (g1 ++ g2) a /\ n <> b /\
  ~ accepts (left_rules g1 a xs ys g2) n w /\ accepts (right_rules g1 a b xs ys g2) n w.
Proof. exact left_used. Qed.
Print Assumptions C117_used_refuted.

(** False if the left-recursive name has alternatives in another rule as well. *)
Theorem C117_elsewhere_refuted : exists g1 a b xs ys g2 n w, ~ has_lhs (left_rules g1 a xs ys g2) b /\ ~ refers (left_rules g1 a xs ys g2) b /\ n <> b /\
  accepts (left_rules g1 a xs ys g2) n w /\ ~ accepts (right_rules g1 a b xs ys g2) n w.
Proof. exact left_elsewhere. Qed.
Print Assumptions C117_elsewhere_refuted.

(** The trees are others if one of the other alternatives begins with the name. *)
Theorem C117_begins_refuted : exists g1 a b xs ys g2 n w ts ts', ~ has_lhs (g1 ++ g2) a /\ ~ has_lhs (left_rules g1 a xs ys g2) b /\ ~ refers (left_rules g1 a xs ys g2) b /\ n <> b /\
  NoDup (flat_prods (left_rules g1 a xs ys g2)) /\ all_trees (left_rules g1 a xs ys g2) n w ts /\ all_trees (right_rules g1 a b xs ys g2) n w ts' /\
  ~ Permutation (map (turn_tree a b) ts) ts'.
Proof. exact left_begins. Qed.
Print Assumptions C117_begins_refuted.

Example C117_shape :
  sum_left = [mkProd (N_ "e") [[N_ "e"; T_ "+"; N_ "e"]; [N_ "e"; T_ "!"]; [N_ "n"]]; mkProd (N_ "n") [[T_ "a"]; [T_ "b"]]] /\
  sum_right = [mkProd (N_ "e") [[N_ "n"; N_ "r"]]; mkProd (N_ "r") [[T_ "+"; N_ "e"; N_ "r"]; [T_ "!"; N_ "r"]; [T_ ""]]; mkProd (N_ "n") [[T_ "a"]; [T_ "b"]]].
Proof. exact left_shape. Qed.
Example C117_conditions : ~ has_lhs [mkProd (N_ "n") [[T_ "a"]; [T_ "b"]]] (lit "e") /\ ~ has_lhs sum_left (lit "r") /\ ~ refers sum_left (lit "r") /\
  (forall y, In y [[N_ "n"]] -> ~ begins_with (lit "e") y) /\ NoDup (flat_prods sum_left).
Proof. exact left_conditions. Qed.
Example C117_example :
  (exists ts ts', all_trees sum_left (lit "e") (lit "a+b!+a") ts /\ all_trees sum_right (lit "e") (lit "a+b!+a") ts' /\ List.length ts = 3 /\ List.length ts' = 3) /\
  turn_tree (lit "e") (lit "r") (Node (N_ "e") [Sub (Node (N_ "e") [Sub (Node (N_ "n") [Leaf (lit "a")])]); Leaf (lit "!")]) =
  Node (N_ "e") [Sub (Node (N_ "n") [Leaf (lit "a")]); Sub (Node (N_ "r") [Leaf (lit "!"); Sub (Node (N_ "r") [Leaf []])])].
Proof. exact left_example. Qed.
Example C117_twice_example : exists ts ts', all_trees (left_rules [] (lit "e") [[T_ "+"]; [T_ "+"]] [[T_ "a"]] []) (lit "e") (lit "a++") ts /\
  all_trees (right_rules [] (lit "e") (lit "r") [[T_ "+"]; [T_ "+"]] [[T_ "a"]] []) (lit "e") (lit "a++") ts' /\ List.length ts = 4 /\ List.length ts' = 4.
Proof. exact left_twice. Qed.
