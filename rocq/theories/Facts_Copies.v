(** The example of C04 about repeated alternatives. *)
From Verif Require Export CopiesProofs ParseExamples.
From Coq Require Import String.
Import String.StringSyntax.
Open Scope list_scope.

Definition twice_grammar : grammar := [mkProd (N_ "s") [[T_ "a"; N_ "s"]; [T_ "b"]]; mkProd (N_ "s") [[T_ "a"; N_ "s"]]].

Lemma C04_copies_example_proof :
  let t := Node (N_ "s") [Leaf (lit "a"); Sub (Node (N_ "s") [Leaf (lit "a"); Sub (Node (N_ "s") [Leaf (lit "b")])])] in
  parses twice_grammar (N_ "s") (lit "aab") t /\ copies twice_grammar t = 4 /\
  exists it', produces (start_of twice_grammar (N_ "s") "aab") [t; t; t; t] it' /\ exhausted it'.
Proof.
  intro t. destruct (run_facts twice_grammar (N_ "s") "aab" 9) as (Ho & Hp & He); [vm_compute; reflexivity|vm_compute; reflexivity|].
  assert (E : trees_of twice_grammar (N_ "s") "aab" 9 = [t; t; t; t]) by (vm_compute; reflexivity). rewrite E in Hp.
  split; [exact (soundness _ _ _ _ _ _ t Ho Hp (or_introl eq_refl))|]. split; [vm_compute; reflexivity|].
  eexists. split; [exact Hp|]. apply He. vm_compute. reflexivity.
Qed.
