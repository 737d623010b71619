(** A concrete run for property C64. *)
From Verif Require Export EarleyWork WorkNumbered TerminationExamples.
Open Scope list_scope.

Lemma work_example : NoDup (flat_prods list_grammar) /\
  (exists it f it2, opens list_grammar (N_ "s") (lit "xb") it /\ iter_next f it = Ok (None, it2) /\
     List.length (tt_arena (s_tree (it_state it2))) = 2) /\
  (exists it t it1 f it2, opens list_grammar (N_ "s") (lit "ab") it /\ produces it [t] it1 /\ iter_next f it1 = Ok (None, it2) /\
     List.length (tt_arena (s_tree (it_state it2))) = 7) /\
  partial_parse list_grammar (N_ "s") (lit "ab") ((N_ "s", [T_ "b"]), lit "a", []) /\
  partial_parse list_grammar (N_ "s") (lit "ab") ((N_ "s", [T_ "a"; N_ "s"]), [], [Leaf (lit "a")]) /\
  ~ partial_parse list_grammar (N_ "s") (lit "xb") ((N_ "s", [T_ "a"; N_ "s"]), [], [Leaf (lit "a")]).
Proof.
  split; [exact (proj1 list_unique)|]. split.
  { destruct (run_facts list_grammar (N_ "s") "xb" 1) as (H1 & H2 & H3); [vm_compute; reflexivity..|].
    eexists _, 1000, _. split; [exact H1|]. split; [vm_compute; reflexivity|vm_compute; reflexivity]. }
  split.
  { destruct (run_facts list_grammar (N_ "s") "ab" 1) as (H1 & H2 & H3); [vm_compute; reflexivity..|].
    eexists _, _, _, 1000, _. split; [exact H1|]. split; [exact H2|]. split; [vm_compute; reflexivity|vm_compute; reflexivity]. }
  assert (Hp : predicted list_grammar (N_ "s") (N_ "s") (lit "a")).
  { apply (predicted_in list_grammar (N_ "s") (N_ "s") [] (mkProd (N_ "s") [[T_ "a"; N_ "s"]; [T_ "b"]]) [T_ "a"] (lit "s") [] (lit "a"));
      [constructor|left; reflexivity|reflexivity|left; reflexivity|].
    exists [lit "a"]. split; [constructor|reflexivity]. }
  split; [|split].
  - split; [cbn; tauto|]. split; [exact Hp|]. exists [], [T_ "b"], (lit "b"). repeat split. constructor.
  - split; [cbn; tauto|]. split; [constructor|]. exists [T_ "a"], [N_ "s"], (lit "b"). repeat split. repeat constructor.
  - intros (_ & _ & d & t & w & _ & _ & E). discriminate.
Qed.

Lemma numbered_example :
  let g := [mkProd (N_ "s") [[T_ "a"]; [T_ "a"]]] in
  ~ NoDup (flat_prods g) /\
  (exists it ts it1 f it2, opens g (N_ "s") (lit "a") it /\ produces it ts it1 /\ iter_next f it1 = Ok (None, it2) /\
     List.length ts = 2 /\ List.length (tt_arena (s_tree (it_state it2))) = 4) /\
  numbered_parse g (N_ "s") (lit "a") (1, [], [Leaf (lit "a")]).
Proof.
  intro g. split; [|split].
  - intro H. cbn in H. inversion H as [|x l Hx _]. apply Hx. left. reflexivity.
  - destruct (run_facts g (N_ "s") "a" 2) as (H1 & H2 & H3); [vm_compute; reflexivity..|].
    eexists _, _, _, 1000, _. split; [exact H1|]. split; [exact H2|]. split; [vm_compute; reflexivity|]. split; vm_compute; reflexivity.
  - exists (N_ "s"), [T_ "a"], [], []. split; [reflexivity|]. split; [constructor|]. split; [repeat constructor|reflexivity].
Qed.
