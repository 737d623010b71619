(** C115: parts of parse trees, and long inputs. *)
From Verif Require Import Facts_Parts.
From Coq Require Import String.
Import String.StringSyntax.
Open Scope string_scope.
Open Scope list_scope.

(** A part of a returned tree is returned for its own text, with its label as start. *)
Theorem C115_part : forall g start w it c s it', opens g start w it -> returns it (plug c s) ->
  opens g (root s) (yield s) it' -> w = before c ++ yield s ++ after c /\ returns it' s.
Proof. exact part_returned. Qed.
Print Assumptions C115_part.

(** At the place of a part exactly the trees returned for its label can stand. *)
Theorem C115_exchange : forall g start w it c s w' it' s' it'', opens g start w it -> returns it (plug c s) ->
  opens g (root s) w' it' -> opens g start (before c ++ w' ++ after c) it'' ->
  (returns it' s' <-> returns it'' (plug c s') /\ root s' = root s /\ yield s' = w').
Proof. exact part_exchanged. Qed.
Print Assumptions C115_exchange.

Example C115_part_example :
  (exists it, opens pairs (N_ "s") (lit "aabb") it /\ returns it (plug in_pair (pair_tree 1))) /\
  (exists it, opens pairs (root (pair_tree 1)) (lit "aabb") it /\ returns it (pair_tree 2)) /\
  (exists it, opens pairs (N_ "s") (before in_pair ++ lit "aabb" ++ after in_pair) it /\ returns it (plug in_pair (pair_tree 2))) /\
  before in_pair ++ lit "aabb" ++ after in_pair = lit "aaabbb".
Proof. exact part_example. Qed.

(** Texts of trees of a given height are bounded in length. *)
Theorem C115_height : forall g t h, derives g t -> TreeDepth.height t <= h -> List.length (yield t) <= longest g h.
Proof. exact longest_le. Qed.
Print Assumptions C115_height.

(** In a long accepted input two pieces, not both empty, can be repeated or left out. *)
Theorem C115_long : forall g s w, accepts g s w -> List.length w > longest g (List.length g) ->
  exists u v x y z, w = u ++ v ++ x ++ y ++ z /\ v ++ y <> [] /\ List.length (v ++ x ++ y) <= longest g (S (List.length g)) /\
    forall k, accepts g s (u ++ times k v ++ x ++ times k y ++ z).
Proof. exact long_accepted. Qed.
Print Assumptions C115_long.

(** A grammar that accepts anything accepts something short. *)
Theorem C115_short : forall g s, (exists w, accepts g s w) <-> exists w, accepts g s w /\ List.length w <= longest g (List.length g).
Proof. exact some_short. Qed.
Print Assumptions C115_short.

(** Inputs of every length are accepted exactly if one of a certain length is. *)
Theorem C115_unbounded : forall g s, (forall m, exists w, accepts g s w /\ List.length w > m) <->
  exists w, accepts g s w /\ longest g (List.length g) < List.length w <= longest g (List.length g) + longest g (S (List.length g)).
Proof. exact unbounded_short. Qed.
Print Assumptions C115_unbounded.

(** No grammar accepts exactly the texts of three characters, each as often as the others, in order. *)
Theorem C115_counting : forall a b c : char, a <> b -> b <> c -> a <> c ->
  forall g s, ~ forall w, accepts g s w <-> exists n, w = repeat a n ++ repeat b n ++ repeat c n.
Proof. exact no_counting. Qed.
Print Assumptions C115_counting.

(** With two characters there is one. *)
Example C115_long_example :
  accepts pairs (lit "s") (lit "aabb") /\ longest pairs (List.length pairs) = 3 /\ longest pairs (S (List.length pairs)) = 9 /\
  (forall k, accepts pairs (lit "s") ([] ++ times k (lit "a") ++ lit "ab" ++ times k (lit "b") ++ [])) /\
  (forall w, accepts pairs (lit "s") w <-> exists n, w = repeat 97%N n ++ repeat 98%N n).
Proof. exact long_example. Qed.
