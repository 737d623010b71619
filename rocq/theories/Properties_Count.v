(** C116: the number of parse trees. *)
From Verif Require Import Facts_Count.
From Coq Require Import String.
Import String.StringSyntax.
Open Scope string_scope.
Open Scope list_scope.

(** Never more trees of a height are returned than are counted. *)
Theorem C116_most : forall g n w it ts it' h, opens g (Nonterminal n) w it -> produces it ts it' ->
  List.length (filter (fun t : ptree => (height t <=? h)%nat) ts) <= count h g n w.
Proof. exact low_most. Qed.
Print Assumptions C116_most.

(** As many are returned at some point. *)
Theorem C116_reached : forall g n w it h, opens g (Nonterminal n) w it ->
  exists ts it', produces it ts it' /\ List.length (filter (fun t : ptree => (height t <=? h)%nat) ts) = count h g n w.
Proof. exact low_reached. Qed.
Print Assumptions C116_reached.

(** If the enumeration ends, the number of all trees is the one counted for a height known beforehand. *)
Theorem C116_all : forall g n w ts h, all_trees g n w ts -> enough g w <= h -> List.length ts = count h g n w.
Proof. exact count_all. Qed.
Print Assumptions C116_all.

(** An input is accepted exactly if something is counted. *)
Theorem C116_accepts : forall g n w, accepts g n w <-> 0 < count (enough g w) g n w.
Proof. exact count_accepts. Qed.
Print Assumptions C116_accepts.

(** Finitely many different trees are returned exactly if none is higher. *)
Theorem C116_finite : forall g n w it, opens g (Nonterminal n) w it ->
  (exists ts : list ptree, forall t, returns it t -> In t ts) <-> (forall t, returns it t -> height t <= enough g w).
Proof. exact finite_returned. Qed.
Print Assumptions C116_finite.

(** The height cannot be made smaller for all. *)
Theorem C116_height_attained : exists g n w t, all_trees g n w [t] /\ height t = enough g w /\ List.length g = 2 /\ List.length w = 3.
Proof. exact enough_needed. Qed.
Print Assumptions C116_height_attained.

Example C116_example :
  (exists ts, all_trees any_sums (lit "e") (lit "a+a+a+a") ts /\ List.length ts = 5) /\
  enough any_sums (lit "a+a+a+a") = 8 /\ count 8 any_sums (lit "e") (lit "a+a+a+a") = 5 /\ count 3 any_sums (lit "e") (lit "a+a+a+a") = 1 /\
  (exists ts, all_trees said_twice (lit "s") (lit "aa") ts /\ List.length ts = 4) /\ count (enough said_twice (lit "aa")) said_twice (lit "s") (lit "aa") = 4 /\
  count (enough any_sums (lit "a++a")) any_sums (lit "e") (lit "a++a") = 0 /\
  map (fun h => count h own_name (lit "s") (lit "a")) [0; 1; 2; 3; 10] = [0; 1; 2; 3; 10].
Proof. exact count_example. Qed.
