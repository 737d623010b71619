(** Proof of the example of C92. *)
From Verif Require Export TreeCostProofs Facts_Prefer.
From Coq Require Import String.
Import String.StringSyntax.
Open Scope list_scope.

Lemma C92_example_proof : exists it it1, opens sum_grammar (N_ "e") (lit "a+a") it /\
  next_tree_counted 30 it = Ok (Some (plus atom atom), it1, 19) /\ lookups (plus atom atom) = 19 /\
  nodes (plus atom atom) = 3 /\ lookups (doubled 5) = 345.
Proof.
  destruct (opens_deprecated_ok sum_grammar (lit "a+a") (N_ "e")) as [_ H]. destruct H as [_ (it & Hit)]; [discriminate|].
  pose proof (opens_deprecated_with _ _ _ _ Hit) as Ho. vm_compute in Hit. injection Hit as Hit.
  destruct (next_tree_counted 30 it) as [[[o it1] n]| |] eqn:E; [|exfalso|exfalso]; (subst it; vm_compute in E; try discriminate).
  eexists. exists it1. split; [exact Ho|]. injection E as <- <- <-. split; [vm_compute; reflexivity|]. repeat split; reflexivity.
Qed.
