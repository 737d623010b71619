(** Examples for the number of parse trees. *)
From Verif Require Export CountProofs CombineProofs ParseExamples PrefixSpec.
From Verif Require Import ExtendProofs.
From Coq Require Import String.
Import String.StringSyntax.
Open Scope string_scope.
Open Scope list_scope.

(** Sums without brackets, a name that derives itself, and an alternative listed twice. *)
Definition any_sums : grammar := [mkProd (N_ "e") [[N_ "e"; T_ "+"; N_ "e"]; [T_ "a"]]].
Definition own_name : grammar := [mkProd (N_ "s") [[N_ "s"]; [T_ "a"]]].
Definition said_twice : grammar := [mkProd (N_ "s") [[N_ "x"; N_ "x"]]; mkProd (N_ "x") [[T_ "a"]; [T_ "a"]]].

Lemma count_example :
  (exists ts, all_trees any_sums (lit "e") (lit "a+a+a+a") ts /\ List.length ts = 5) /\
  enough any_sums (lit "a+a+a+a") = 8 /\ count 8 any_sums (lit "e") (lit "a+a+a+a") = 5 /\ count 3 any_sums (lit "e") (lit "a+a+a+a") = 1 /\
  (exists ts, all_trees said_twice (lit "s") (lit "aa") ts /\ List.length ts = 4) /\ count (enough said_twice (lit "aa")) said_twice (lit "s") (lit "aa") = 4 /\
  count (enough any_sums (lit "a++a")) any_sums (lit "e") (lit "a++a") = 0 /\
  map (fun h => count h own_name (lit "s") (lit "a")) [0; 1; 2; 3; 10] = [0; 1; 2; 3; 10].
Proof.
  split; [|split; [reflexivity|split; [vm_compute; reflexivity|split; [vm_compute; reflexivity|split; [|split; [vm_compute; reflexivity|split; vm_compute; reflexivity]]]]]].
  - exists (trees_of any_sums (N_ "e") "a+a+a+a" 10). split; [apply (ran any_sums (lit "e") "a+a+a+a" 10); vm_compute; reflexivity|vm_compute; reflexivity].
  - exists (trees_of said_twice (N_ "s") "aa" 10). split; [apply (ran said_twice (lit "s") "aa" 10); vm_compute; reflexivity|vm_compute; reflexivity].
Qed.

(** The height can be needed. *)
Lemma enough_needed : exists g n w t, all_trees g n w [t] /\ height t = enough g w /\ List.length g = 2 /\ List.length w = 3.
Proof.
  set (g := [mkProd (N_ "s") [[N_ "t"]]; mkProd (N_ "t") [[T_ "a"; N_ "s"]; [T_ ""]]]).
  assert (R : all_trees g (lit "s") (lit "aaa") (trees_of g (N_ "s") "aaa" 3)) by (apply (ran g (lit "s") "aaa" 3); vm_compute; reflexivity).
  exists g, (lit "s"), (lit "aaa"), (hd (Node (N_ "s") []) (trees_of g (N_ "s") "aaa" 3)). split; [|split; [vm_compute; reflexivity|split; reflexivity]].
  assert (E : trees_of g (N_ "s") "aaa" 3 = [hd (Node (N_ "s") []) (trees_of g (N_ "s") "aaa" 3)]) by (vm_compute; reflexivity).
  exact (eq_ind _ (all_trees g (lit "s") (lit "aaa")) R _ E).
Qed.
