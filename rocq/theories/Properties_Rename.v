(** Property C66: the parser sees of a grammar only the list of alternatives of each nonterminal
    reachable from the start, and of the nonterminal names only which are equal. *)
From Verif Require Import Facts_Rename.
Open Scope list_scope.

(** Call by call, with the same number of loop iterations. *)
Theorem C66_same_calls : forall h g start g' input it it' fuels,
  presents h g start g' -> opens g start input it -> opens g' (rename h start) input it' ->
  solo it' fuels = map (rename_outcome h) (solo it fuels).
Proof. exact C66_same_calls_proof. Qed.
Print Assumptions C66_same_calls.

(** The same trees in the same order, ending, or not, at the same place, with the same work. *)
Theorem C66_same_trees : forall h g start g' input it it' ts itf,
  presents h g start g' -> opens g start input it -> opens g' (rename h start) input it' ->
  produces it ts itf ->
  exists itf', produces it' (map (rename_tree h) ts) itf' /\
    (exhausted itf <-> exhausted itf') /\ (diverges itf <-> diverges itf') /\
    traversals itf' = traversals itf.
Proof. exact C66_same_trees_proof. Qed.
Print Assumptions C66_same_trees.

Theorem C66_reachable_rules_only : forall g start g' input it it' fuels,
  (forall l, reachable g start l -> alternatives g' l = alternatives g l) ->
  opens g start input it -> opens g' start input it' ->
  solo it' fuels = solo it fuels.
Proof. exact C66_reachable_rules_only_proof. Qed.
Print Assumptions C66_reachable_rules_only.

Theorem C66_unreachable_rules : forall g1 extra g2 start input it it' fuels,
  (forall p, In p extra -> ~ reachable (g1 ++ g2) start (p_lhs p)) ->
  opens (g1 ++ g2) start input it -> opens (g1 ++ extra ++ g2) start input it' ->
  solo it' fuels = solo it fuels.
Proof. exact C66_unreachable_rules_proof. Qed.
Print Assumptions C66_unreachable_rules.

Theorem C66_exchange_rules : forall g1 p q g2 start input it it' fuels, p_lhs p <> p_lhs q ->
  opens (g1 ++ p :: q :: g2) start input it -> opens (g1 ++ q :: p :: g2) start input it' ->
  solo it' fuels = solo it fuels.
Proof. exact C66_exchange_rules_proof. Qed.
Print Assumptions C66_exchange_rules.

Theorem C66_renaming : forall h g start input it it' fuels, (forall a b, h a = h b -> a = b) ->
  opens g start input it -> opens (map (rename_production h) g) (rename h start) input it' ->
  solo it' fuels = map (rename_outcome h) (solo it fuels).
Proof. exact C66_renaming_proof. Qed.
Print Assumptions C66_renaming.

(** [eps_rewritten] is [eps_grammar] under other names, with the rules in another order, one of
    them split, and unused rules added: the two parses of "x" come in the same order. *)
Example C66_example : presents new_name eps_grammar (N_ "s") eps_rewritten /\
  List.length (trees_of eps_grammar (N_ "s") "x" 5) = 2 /\
  trees_of eps_rewritten (N_ "sentence") "x" 5 = map (rename_tree new_name) (trees_of eps_grammar (N_ "s") "x" 5) /\
  snd (fst (run_of eps_rewritten (N_ "sentence") "x" 5)) = true.
Proof. split; [exact eps_presents|]. repeat split; vm_compute; reflexivity. Qed.

(** The order of the alternatives of one nonterminal, however, can be observed. *)
Example C66_alternatives_order :
  let g := [mkProd (N_ "s") [[N_ "p"]; [N_ "q"]]; mkProd (N_ "p") [[T_ "x"]]; mkProd (N_ "q") [[T_ "x"]]] in
  let g' := [mkProd (N_ "s") [[N_ "q"]; [N_ "p"]]; mkProd (N_ "p") [[T_ "x"]]; mkProd (N_ "q") [[T_ "x"]]] in
  List.length (trees_of g (N_ "s") "x" 5) = 2 /\
  trees_of g' (N_ "s") "x" 5 = rev (trees_of g (N_ "s") "x" 5) /\
  trees_of g' (N_ "s") "x" 5 <> trees_of g (N_ "s") "x" 5.
Proof. split; [|split]; vm_compute; [reflexivity|reflexivity|discriminate]. Qed.
