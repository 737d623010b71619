(** Properties C47-C50: when the enumeration ends, how much it costs, and the order in which
    the completion map keeps its entries. *)
From Verif Require Import TerminationExamples.
From Coq Require Import Relation_Operators.
Open Scope list_scope.

(** ** C47: exactly when the enumeration ends *)

Theorem C47_ends_iff : forall g start input it, opens g start input it ->
  ((exists ts it', produces it ts it' /\ exhausted it') <-> ~ live_cycle g start input).
Proof. exact ends_iff. Qed.
Print Assumptions C47_ends_iff.

Theorem C47_every_next_returns : forall g start input it ts it1,
  ~ live_cycle g start input -> opens g start input it -> produces it ts it1 ->
  exists fuel r, iter_next fuel it1 = Ok r.
Proof. exact every_next_returns_live. Qed.
Print Assumptions C47_every_next_returns.

(** A cycle inside a parse: the stream of trees is infinite and every call returns. *)
Theorem C47_endless : forall g start input it ts it1,
  cycle_in_parse g start input -> opens g start input it -> produces it ts it1 ->
  exists fuel t it2, iter_next fuel it1 = Ok (Some t, it2).
Proof. exact endless. Qed.
Print Assumptions C47_endless.

(** A live cycle outside all parses: all parses are returned, and then [next] hangs. *)
Theorem C47_stuck : forall g start input it,
  live_cycle g start input -> ~ cycle_in_parse g start input -> opens g start input it ->
  exists ts it1, produces it ts it1 /\ (forall t, In t ts <-> parses g start input t) /\ diverges it1.
Proof. exact stuck. Qed.
Print Assumptions C47_stuck.

Theorem C47_cycle_in_parse_is_live : forall g start input,
  cycle_in_parse g start input -> live_cycle g start input.
Proof. exact cycle_in_parse_live. Qed.
Print Assumptions C47_cycle_in_parse_is_live.

(** All three cases occur; a cyclic grammar may well terminate. *)
Example C47_example :
  (cyclic loop_grammar /\ ~ live_cycle loop_grammar (N_ "s") (lit "q") /\
     exists it, opens loop_grammar (N_ "s") (lit "q") it) /\
  (cycle_in_parse inf_grammar (N_ "s") (lit "x") /\ exists it, opens inf_grammar (N_ "s") (lit "x") it) /\
  (live_cycle loop_grammar (N_ "s") (lit "z") /\ ~ cycle_in_parse loop_grammar (N_ "s") (lit "z") /\
     exists it, opens loop_grammar (N_ "s") (lit "z") it).
Proof.
  split; [|split].
  - split; [exact loop_cyclic|].
    destruct (run_facts loop_grammar (N_ "s") "q" 3) as (H1 & H2 & H3); [vm_compute; reflexivity..|].
    split; [|eexists; exact H1]. apply (ends_iff _ _ _ _ H1). eexists _, _. split; [exact H2|].
    apply H3. vm_compute. reflexivity.
  - split; [|eexists; apply opens_deprecated_with; reflexivity].
    assert (Hd : derives inf_grammar (Node (N_ "s") [Leaf (lit "x")])).
    { apply (derives_node inf_grammar (mkProd (N_ "s") [[N_ "s"]; [T_ "x"]]) [T_ "x"]); cbn; auto. repeat constructor. }
    exists (Node (N_ "s") [Leaf (lit "x")]), (Node (N_ "s") [Leaf (lit "x")]), (lit "s").
    split; [split; [exact Hd|split; reflexivity]|]. split; [constructor|]. split; [reflexivity|].
    apply t_step. exists (mkProd (N_ "s") [[N_ "s"]; [T_ "x"]]), [], [].
    repeat split; try (cbn; auto; fail); exists []; (split; [constructor|reflexivity]).
  - assert (Ho : exists it, opens loop_grammar (N_ "s") (lit "z") it) by (eexists; apply opens_deprecated_with; reflexivity).
    split; [|split; [|exact Ho]].
    + exists (lit "a"), [], (lit "z"), []. split; [reflexivity|]. split; [|split; [|exact loop_self]].
      * apply (predicted_in loop_grammar (N_ "s") (N_ "s") [] (mkProd (N_ "s") [[N_ "a"; T_ "y"]]) [] (lit "a") [T_ "y"] []);
          [constructor|cbn; auto|reflexivity|cbn; auto|]. exists []. split; [constructor|reflexivity].
      * exists [lit "z"]. split; [|reflexivity]. eapply rewrites_step; [|constructor].
        apply (rewrite_at loop_grammar [] (lit "a") [] (mkProd (N_ "a") [[N_ "a"]; [T_ "z"]]) [T_ "z"]); cbn; auto.
    + intros (t & s & a & Ht & _). destruct Ho as [it Ho].
      destruct (completeness _ _ _ _ _ Ho Ht) as (ts & it' & Hp & Hin).
      inversion Hp as [|? t0 it1 ts' ? f Hn]; subst; [destruct Hin|].
      rewrite (loop_diverges _ Ho f) in Hn. discriminate.
Qed.

(** ** C48: quadratically many traversals when alternatives match uniquely *)

Theorem C48_quadratic : forall g start input it ts it1,
  uniquely_matching g -> opens g start input it -> produces it ts it1 ->
  List.length (tt_arena (s_tree (it_state it1))) <= grammar_size g * ((byte_len input + 1) * (byte_len input + 1)) /\
  exists r, iter_next (S (grammar_size g * ((byte_len input + 1) * (byte_len input + 1)))) it1 = Ok r.
Proof. exact quadratic. Qed.
Print Assumptions C48_quadratic.

Example C48_example : uniquely_matching list_grammar /\
  (exists it, opens list_grammar (N_ "s") (lit "aab") it) /\ grammar_size list_grammar = 5 /\
  List.length (trees_of list_grammar (N_ "s") "aab" 3) = 1.
Proof.
  split; [exact list_unique|]. split; [eexists; apply opens_deprecated_with; reflexivity|].
  split; [reflexivity|vm_compute; reflexivity].
Qed.

(** ** C49: no polynomial bound in general, even for rejecting *)

(** For <t> ::= <t> <a> | <t> <b> | '' with <a> ::= 'x' and <b> ::= 'x': rejecting the input of
    n letters x followed by y takes more than 2^n iterations and 2^n traversals. *)
Theorem C49_polynomial_refuted : exists g start, ~ cyclic g /\ NoDup (flat_prods g) /\ forall n,
  let input := repeat 120%N n ++ lit "y" in
  (exists it, opens g start input it) /\
  forall it, opens g start input it ->
    (exists f it', iter_next f it = Ok (None, it')) /\
    forall f o it', iter_next f it = Ok (o, it') ->
      o = None /\ 2 ^ n < f /\ 2 ^ n <= List.length (tt_arena (s_tree (it_state it'))).
Proof. exact polynomial_refuted. Qed.
Print Assumptions C49_polynomial_refuted.

Example C49_example :
  List.length (tt_arena (s_tree (it_state (snd (out (iter_next 1000 (start_of fork_grammar (N_ "t") "xxxxy")) (None, dummy_iter)))))) = 114.
Proof. vm_compute. reflexivity. Qed.

(** ** C50: the completion vectors *)

Theorem C50_vectors_sorted : forall g start input it ts it1 k,
  opens g start input it -> produces it ts it1 ->
  StronglySorted lt (cm_lookup (cm_incomplete (s_comp (it_state it1))) k) /\
  StronglySorted lt (cm_lookup (cm_complete (s_comp (it_state it1))) k).
Proof. exact vectors_sorted. Qed.
Print Assumptions C50_vectors_sorted.

(** On such vectors, insertion by any binary search that keeps its documented promise is the
    insertion of the model. *)
Theorem C50_binary_search : forall v x r, StronglySorted lt v -> bsearch_contract v x r ->
  apply_bsearch v x r = sorted_vec_insert v x /\ StronglySorted lt (apply_bsearch v x r).
Proof.
  exact (fun v x r Hs Hr => conj (eq_sym (sorted_vec_insert_contract v x r Hs Hr))
    (eq_ind _ (fun l => StronglySorted lt l) (sorted_vec_insert_sorted v x Hs) _ (sorted_vec_insert_contract v x r Hs Hr))).
Qed.
Print Assumptions C50_binary_search.

Example C50_example : StronglySorted lt [2; 5; 9] /\ bsearch_contract [2; 5; 9] 7 (Insert 2) /\
  bsearch_contract [2; 5; 9] 5 (Found 1) /\ apply_bsearch [2; 5; 9] 7 (Insert 2) = [2; 5; 7; 9].
Proof.
  split; [repeat constructor; lia|]. split; [|split; reflexivity].
  split; [intros [H|[H|[H|[]]]]; discriminate|]. split; [cbn; lia|].
  intros [|[|[|j]]] y H; cbn in H; try (injection H as <-; split; lia). destruct j; discriminate.
Qed.
