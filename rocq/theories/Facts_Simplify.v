(** Examples and counterexamples for grammars written in another way. *)
From Verif Require Export SimplifyProofs CombineProofs ParseExamples PrefixSpec.
From Verif Require Export SimplifyEnds.
From Verif Require Import ExtendProofs EarleyExact.
From Coq Require Import Permutation.
From Coq Require Import String.
Import String.StringSyntax.
Open Scope string_scope.
Open Scope list_scope.

(** One or more "ab", and the same with other cuts. *)
Definition ab_grammar : grammar := [mkProd (N_ "s") [[T_ "ab"; N_ "s"]; [T_ "ab"]]].
Definition ab_cut : grammar := [mkProd (N_ "s") [[T_ "a"; T_ "b"; N_ "s"; T_ ""]; [T_ "ab"; T_ ""]]].

(** Sums of "a" and "b", and the summands in front of "+" written out. *)
Definition sums : grammar := folded [] (N_ "s") [[N_ "x"]] [] (lit "x") [T_ "+"; N_ "s"] [] [mkProd (N_ "x") [[T_ "a"]; [T_ "b"]]].
Definition sums_unfolded : grammar := unfolded [] (N_ "s") [[N_ "x"]] [] (lit "x") [T_ "+"; N_ "s"] [] [mkProd (N_ "x") [[T_ "a"]; [T_ "b"]]].
Definition sums_of_a : grammar := [mkProd (N_ "s") [[N_ "x"]; [N_ "x"; T_ "+"; N_ "s"]]; mkProd (N_ "x") [[T_ "a"]]].

(** [ran] with the trees known. *)
Lemma ran_is g start input k ts : is_Ok (grammar_parse_input_starting_with g (lit input) (Nonterminal start)) = true ->
  is_Ok (drive k 1000 (start_of g (Nonterminal start) input)) = true -> run_of g (Nonterminal start) input k = (ts, true, final_of g (Nonterminal start) input k) ->
  all_trees g start (lit input) ts.
Proof.
  intros H1 H2 H3. assert (E : trees_of g (Nonterminal start) input k = ts) by (unfold trees_of; rewrite H3; reflexivity).
  rewrite <- E. apply ran; [exact H1|exact H2|]. rewrite H3. reflexivity.
Qed.
Arguments ran_is g start input%string_scope k ts.

Lemma ab_same : same_up_to_cuts ab_grammar ab_cut.
Proof.
  intros l c. unfold alternatives, ab_grammar, ab_cut. cbn [flat_map p_lhs p_rhs]. destruct (term_eqb (N_ "s") l); cbn [map app]; [|tauto].
  cbn. tauto.
Qed.

Lemma cuts_example :
  same_up_to_cuts ab_grammar ab_cut /\ told_apart ab_grammar /\ told_apart ab_cut /\
  (exists t t', all_trees ab_grammar (lit "s") (lit "abab") [t] /\ all_trees ab_cut (lit "s") (lit "abab") [t'] /\
     leaves t = [lit "ab"; lit "ab"] /\ leaves t' = [lit "a"; lit "b"; lit "ab"; lit ""; lit ""] /\
     leaves (cut_tree t') = [lit "a"; lit "b"; lit "a"; lit "b"]).
Proof.
  split; [exact ab_same|]. split; [repeat constructor; cbn; intuition discriminate|]. split; [repeat constructor; cbn; intuition discriminate|].
  exists (Node (N_ "s") [Leaf (lit "ab"); Sub (Node (N_ "s") [Leaf (lit "ab")])]),
    (Node (N_ "s") [Leaf (lit "a"); Leaf (lit "b"); Sub (Node (N_ "s") [Leaf (lit "ab"); Leaf (lit "")]); Leaf (lit "")]).
  split; [apply (ran_is ab_grammar (lit "s") "abab" 3); vm_compute; reflexivity|].
  split; [apply (ran_is ab_cut (lit "s") "abab" 3); vm_compute; reflexivity|]. repeat split.
Qed.

Lemma cuts_number : exists g g' s w ts ts', same_up_to_cuts g g' /\ NoDup (flat_prods g) /\ told_apart g' /\
  all_trees g s w ts /\ all_trees g' s w ts' /\ List.length ts = 2 /\ List.length ts' = 1.
Proof.
  set (g := [mkProd (N_ "s") [[T_ "ab"]; [T_ "a"; T_ "b"]]]). set (g' := [mkProd (N_ "s") [[T_ "ab"]]]).
  exists g, g', (lit "s"), (lit "ab"), (trees_of g (N_ "s") "ab" 3), (trees_of g' (N_ "s") "ab" 3). split.
  - intros l c. unfold alternatives, g, g'. cbn [flat_map p_lhs p_rhs]. destruct (term_eqb (N_ "s") l); cbn; tauto.
  - split; [repeat constructor; cbn; intuition discriminate|]. split; [repeat constructor; cbn; intuition discriminate|].
    split; [apply (ran g (lit "s") "ab" 3); vm_compute; reflexivity|]. split; [apply (ran g' (lit "s") "ab" 3); vm_compute; reflexivity|].
    split; reflexivity.
Qed.


Lemma unfold_number : exists g1 l r1 x b y r2 g2 s w it it' t1 t2,
  NoDup (flat_prods (folded g1 l r1 x b y r2 g2)) /\
  opens (folded g1 l r1 x b y r2 g2) (Nonterminal s) w it /\ returns it t1 /\ returns it t2 /\ t1 <> t2 /\
  opens (unfolded g1 l r1 x b y r2 g2) (Nonterminal s) w it' /\
  forall t t', returns it' t -> returns it' t' -> t = t'.
Proof.
  exists [], (N_ "s"), [], [], (lit "a"), [], [[T_ "x"]], [mkProd (N_ "a") [[T_ "x"]]], (lit "s"), (lit "x").
  set (g := folded _ _ _ _ _ _ _ _). set (g' := unfolded _ _ _ _ _ _ _ _).
  exists (start_of g (N_ "s") "x"), (start_of g' (N_ "s") "x").
  exists (Node (N_ "s") [Sub (Node (N_ "a") [Leaf (lit "x")])]), (Node (N_ "s") [Leaf (lit "x")]).
  split; [repeat constructor; cbn; intuition discriminate|].
  destruct (run_facts g (N_ "s") "x" 3) as (Ho & Hp & _); [vm_compute; reflexivity|vm_compute; reflexivity|].
  destruct (run_facts g' (N_ "s") "x" 3) as (Ho' & _ & _); [vm_compute; reflexivity|vm_compute; reflexivity|].
  split; [exact Ho|]. split; [|split; [|split; [discriminate|split; [exact Ho'|]]]].
  - eexists _, _. split; [exact Hp|]. vm_compute. tauto.
  - eexists _, _. split; [exact Hp|]. vm_compute. tauto.
  - assert (A : forall t, returns (start_of g' (N_ "s") "x") t -> t = Node (N_ "s") [Leaf (lit "x")]).
    { intros t Ht. apply (returns_iff _ _ _ _ _ Ho') in Ht. destruct Ht as (D & R & _). destruct t as [l ks]. cbn [root] in R. subst l.
      apply derives_alternative in D. destruct D as (e & He & Hk). vm_compute in He.
      assert (e = [T_ "x"]) by (destruct He as [<-|[<-|[]]]; reflexivity). subst e.
      inversion Hk as [|s r k1 Hk1|]; subst. inversion Hk1; subst. reflexivity. }
    intros t t' Ht Ht'. rewrite (A t Ht), (A t' Ht'). reflexivity.
Qed.

Lemma unfold_example :
  tidy (lit "s") sums /\ has_alt sums (lit "x") /\
  sums_unfolded = [mkProd (N_ "s") [[N_ "x"]; [T_ "a"; T_ "+"; N_ "s"]; [T_ "b"; T_ "+"; N_ "s"]]; mkProd (N_ "x") [[T_ "a"]; [T_ "b"]]] /\
  accepts sums (lit "s") (lit "a+b+a") /\ accepts sums_unfolded (lit "s") (lit "a+b+a") /\
  (exists ts, all_trees sums (lit "s") (lit "a+b+") ts /\ ts = []) /\
  NoDup (flat_prods sums) /\ NoDup (flat_prods sums_unfolded) /\
  (exists t t', all_trees sums (lit "s") (lit "b+a") [t] /\ all_trees sums_unfolded (lit "s") (lit "b+a") [t'] /\
     t = Node (N_ "s") [Sub (Node (N_ "x") [Leaf (lit "b")]); Leaf (lit "+"); Sub (Node (N_ "s") [Sub (Node (N_ "x") [Leaf (lit "a")])])] /\
     t' = Node (N_ "s") [Leaf (lit "b"); Leaf (lit "+"); Sub (Node (N_ "s") [Sub (Node (N_ "x") [Leaf (lit "a")])])]) /\
  generate_random script_rng (fun _ _ => true) sums_unfolded 20 [2; 0; 0] = Ok (ROk (lit "b+a"), []).
Proof.
  split; [|split; [|split; [reflexivity|split; [|split; [|split]]]]].
  - split; [eexists _, _; split; reflexivity|]. split; [repeat constructor; cbn; intuition discriminate|].
    split; [intros p [<-|[<-|[]]]; discriminate|].
    intros n (p & e & Hp & He & Hn). destruct Hp as [<-|[<-|[]]]; cbn in He; destruct He as [<-|[<-|[]]]; cbn in Hn;
      repeat destruct Hn as [Hn|Hn]; try discriminate; try contradiction; injection Hn as <-;
      first [solve [eexists; split; [left; reflexivity|reflexivity]]|eexists; split; [right; left; reflexivity|reflexivity]].
  - eexists _, _. split; [right; left; reflexivity|]. split; [reflexivity|left; reflexivity].
  - destruct (run_facts sums (N_ "s") "a+b+a" 3) as (Ho & Hp & _); [vm_compute; reflexivity|vm_compute; reflexivity|].
    destruct (fst (fst (run_of sums (N_ "s") "a+b+a" 3))) as [|t ts] eqn:E; [vm_compute in E; discriminate E|].
    exists (start_of sums (N_ "s") "a+b+a"), t. split; [exact Ho|]. eexists _, _. split; [exact Hp|]. unfold trees_of. rewrite E. left. reflexivity.
  - destruct (run_facts sums_unfolded (N_ "s") "a+b+a" 3) as (Ho & Hp & _); [vm_compute; reflexivity|vm_compute; reflexivity|].
    destruct (fst (fst (run_of sums_unfolded (N_ "s") "a+b+a" 3))) as [|t ts] eqn:E; [vm_compute in E; discriminate E|].
    exists (start_of sums_unfolded (N_ "s") "a+b+a"), t. split; [exact Ho|]. eexists _, _. split; [exact Hp|]. unfold trees_of. rewrite E. left. reflexivity.
  - exists []. split; [apply (ran_is sums (lit "s") "a+b+" 3); vm_compute; reflexivity|reflexivity].
  - split; [repeat constructor; cbn; intuition discriminate|]. split; [repeat constructor; cbn; intuition discriminate|]. split.
    { eexists _, _. split; [|split; [|split; reflexivity]].
      - apply (ran_is sums (lit "s") "b+a" 3); vm_compute; reflexivity.
      - apply (ran_is sums_unfolded (lit "s") "b+a" 3); vm_compute; reflexivity. }
    vm_compute. reflexivity.
Qed.

Lemma idle_example :
  (forall l e, In e (alternatives sums_of_a l) -> In e (alternatives sums l)) /\
  (forall l e, In e (alternatives sums l) -> In e (alternatives sums_of_a l) \/ idle sums (lit "a+a") e) /\
  trees_of sums (N_ "s") "a+a" 3 = trees_of sums_of_a (N_ "s") "a+a" 3 /\ List.length (trees_of sums (N_ "s") "a+a" 3) = 1.
Proof.
  split; [|split; [|split; vm_compute; reflexivity]].
  - intros l e. rewrite !in_alternatives_iff. intros (p & [<-|[<-|[]]] & Hl & He); cbn in Hl; subst l;
      first [solve [eexists; split; [left; reflexivity|split; [reflexivity|cbn in He |- *; tauto]]]
            |eexists; split; [right; left; reflexivity|split; [reflexivity|cbn in He |- *; tauto]]].
  - intros l e. rewrite !in_alternatives_iff. intros (p & [<-|[<-|[]]] & Hl & He); cbn in Hl; subst l.
    + left. exists (mkProd (N_ "s") [[N_ "x"]; [N_ "x"; T_ "+"; N_ "s"]]). split; [left; reflexivity|]. split; [reflexivity|exact He].
    + destruct He as [<-|[<-|[]]].
      * left. eexists. split; [right; left; reflexivity|]. split; [reflexivity|left; reflexivity].
      * right. apply (idle_terminal _ _ _ (lit "b")); [left; reflexivity|]. intros a b E.
        assert (Hin : In 98%N (lit "a+a")) by (rewrite E; apply in_app_iff; right; left; reflexivity).
        cbn in Hin. intuition discriminate.
Qed.

(** Whether the enumeration ends. *)
Lemma cuts_end_all g g' start input it it' : same_up_to_cuts g g' ->
  opens g start input it -> opens g' start input it' ->
  ((exists ts itf, produces it ts itf /\ exhausted itf) <-> (exists ts itf, produces it' ts itf /\ exhausted itf)).
Proof. intros. eapply cuts_end; eassumption. Qed.

(** A name without alternatives, behind a name that derives itself. *)
Definition loop_rule : production := mkProd (N_ "l") [[N_ "l"]; [T_ "x"]].

Lemma x_generated g : seq_generates g [T_ "x"] (lit "x").
Proof. apply seq_kids. exists [Leaf (lit "x")]. split; [repeat constructor|reflexivity]. Qed.

Lemma loop_live g : alternatives g (N_ "l") = [[N_ "l"]; [T_ "x"]] -> forall e, In (N_ "l" :: e) (alternatives g (N_ "s")) ->
  live_cycle g (N_ "s") (lit "x").
Proof.
  intros Hl e He. change (alternatives g (Nonterminal (lit "l")) = [[N_ "l"]; [T_ "x"]]) in Hl. exists (lit "l"), [], (lit "x"), []. split; [reflexivity|]. split; [|split].
  - apply (predicted_alternative g (N_ "s") (N_ "s") [] [] (lit "l") e []); [apply predicted_start|exact He|apply seq_nil].
  - apply generates_seq, seq_name. exists [T_ "x"]. split; [rewrite Hl; right; left; reflexivity|apply x_generated].
  - apply Relation_Operators.t_step, step_alternative. exists [], []. split; [rewrite Hl; left; reflexivity|split; apply seq_nil].
Qed.

Lemma unfold_end_refuted : exists g1 l r1 x b y r2 g2 s w it it',
  opens (folded g1 l r1 x b y r2 g2) s w it /\ opens (unfolded g1 l r1 x b y r2 g2) s w it' /\
  ~ (exists ts itf, produces it ts itf /\ exhausted itf) /\ (exists ts itf, produces it' ts itf /\ exhausted itf).
Proof.
  exists [], (N_ "s"), [[T_ "x"]], [N_ "l"], (lit "b"), [], [], [loop_rule], (N_ "s"), (lit "x").
  set (g := folded _ _ _ _ _ _ _ _). set (g' := unfolded _ _ _ _ _ _ _ _).
  destruct (run_facts g (N_ "s") "x" 0) as (Ho & _ & _); [vm_compute; reflexivity|vm_compute; reflexivity|].
  destruct (run_facts g' (N_ "s") "x" 3) as (Ho' & Hp & He); [vm_compute; reflexivity|vm_compute; reflexivity|].
  exists (start_of g (N_ "s") "x"), (start_of g' (N_ "s") "x"). split; [exact Ho|]. split; [exact Ho'|]. split.
  - intro H. apply (proj1 (ends_iff _ _ _ _ Ho) H). apply (loop_live g eq_refl [N_ "b"]). right. left. reflexivity.
  - eexists _, _. split; [exact Hp|]. apply He. vm_compute. reflexivity.
Qed.

Lemma idle_end_refuted : exists g g' start input it it',
  (forall l e, In e (alternatives g' l) -> In e (alternatives g l)) /\
  (forall l e, In e (alternatives g l) -> In e (alternatives g' l) \/ idle g input e) /\
  opens g start input it /\ opens g' start input it' /\
  ~ (exists ts itf, produces it ts itf /\ exhausted itf) /\ (exists ts itf, produces it' ts itf /\ exhausted itf).
Proof.
  set (g := [mkProd (N_ "s") [[T_ "x"]; [N_ "l"; T_ "z"]]; loop_rule]). set (g' := [mkProd (N_ "s") [[T_ "x"]]; loop_rule]).
  destruct (run_facts g (N_ "s") "x" 0) as (Ho & _ & _); [vm_compute; reflexivity|vm_compute; reflexivity|].
  destruct (run_facts g' (N_ "s") "x" 3) as (Ho' & Hp & He); [vm_compute; reflexivity|vm_compute; reflexivity|].
  exists g, g', (N_ "s"), (lit "x"), (start_of g (N_ "s") "x"), (start_of g' (N_ "s") "x").
  split; [|split; [|split; [exact Ho|split; [exact Ho'|split]]]].
  - intros l e. rewrite !in_alternatives_iff. intros (p & [<-|[<-|[]]] & Hl & H); cbn in Hl; subst l;
      first [solve [eexists; split; [left; reflexivity|split; [reflexivity|cbn in H |- *; tauto]]]
            |eexists; split; [right; left; reflexivity|split; [reflexivity|cbn in H |- *; tauto]]].
  - intros l e. rewrite !in_alternatives_iff. intros (p & [<-|[<-|[]]] & Hl & H); cbn in Hl; subst l.
    + destruct H as [<-|[<-|[]]].
      * left. exists (mkProd (N_ "s") [[T_ "x"]]). split; [left; reflexivity|]. split; [reflexivity|left; reflexivity].
      * right. apply (idle_terminal _ _ _ (lit "z")); [right; left; reflexivity|]. intros a b E.
        assert (Hin : In 122%N (lit "x")) by (rewrite E; apply in_app_iff; right; left; reflexivity).
        cbn in Hin. intuition discriminate.
    + left. exists loop_rule. split; [right; left; reflexivity|]. split; [reflexivity|exact H].
  - intro H. apply (proj1 (ends_iff _ _ _ _ Ho) H). apply (loop_live g eq_refl [T_ "z"]). right. left. reflexivity.
  - eexists _, _. split; [exact Hp|]. apply He. vm_compute. reflexivity.
Qed.

(** A cycle of two rules, which becomes a cycle of one. *)
Definition cycle_folded : grammar := folded [] (N_ "s") [[T_ "x"]] [] (lit "t") [] [] [mkProd (N_ "t") [[N_ "s"]; [T_ "y"]]].
Definition cycle_unfolded : grammar := unfolded [] (N_ "s") [[T_ "x"]] [] (lit "t") [] [] [mkProd (N_ "t") [[N_ "s"]; [T_ "y"]]].
Lemma end_example :
  cycle_unfolded = [mkProd (N_ "s") [[T_ "x"]; [N_ "s"]; [T_ "y"]]; mkProd (N_ "t") [[N_ "s"]; [T_ "y"]]] /\
  has_alt cycle_folded (lit "t") /\
  (exists it it', opens cycle_folded (N_ "s") (lit "x") it /\ opens cycle_unfolded (N_ "s") (lit "x") it' /\
     ~ (exists ts itf, produces it ts itf /\ exhausted itf) /\ ~ (exists ts itf, produces it' ts itf /\ exhausted itf)) /\
  (exists it it', opens cycle_folded (N_ "s") (lit "z") it /\ opens cycle_unfolded (N_ "s") (lit "z") it' /\
     (exists ts itf, produces it ts itf /\ exhausted itf) /\ (exists ts itf, produces it' ts itf /\ exhausted itf)).
Proof.
  assert (Hb : has_alt cycle_folded (lit "t")) by (eexists _, _; split; [right; left; reflexivity|]; split; [reflexivity|left; reflexivity]).
  split; [reflexivity|]. split; [exact Hb|]. split.
  - destruct (run_facts cycle_folded (N_ "s") "x" 0) as (Ho & _ & _); [vm_compute; reflexivity|vm_compute; reflexivity|].
    destruct (run_facts cycle_unfolded (N_ "s") "x" 0) as (Ho' & _ & _); [vm_compute; reflexivity|vm_compute; reflexivity|].
    exists (start_of cycle_folded (N_ "s") "x"), (start_of cycle_unfolded (N_ "s") "x"). split; [exact Ho|]. split; [exact Ho'|].
    assert (L : ~ (exists ts itf, produces (start_of cycle_unfolded (N_ "s") "x") ts itf /\ exhausted itf)).
    { intro H. apply (proj1 (ends_iff _ _ _ _ Ho') H). exists (lit "s"), [], (lit "x"), []. split; [reflexivity|]. split; [apply predicted_start|]. split.
      - apply generates_seq, seq_name. exists [T_ "x"]. split; [left; reflexivity|apply x_generated].
      - apply Relation_Operators.t_step, step_alternative. exists [], []. split; [right; left; reflexivity|split; apply seq_nil]. }
    split; [|exact L]. intro H. apply L. apply (proj1 (unfold_ends _ _ _ _ _ _ _ _ _ _ _ _ Hb Ho Ho')). exact H.
  - destruct (run_facts cycle_folded (N_ "s") "z" 3) as (Ho & Hp & He); [vm_compute; reflexivity|vm_compute; reflexivity|].
    destruct (run_facts cycle_unfolded (N_ "s") "z" 3) as (Ho' & Hp' & He'); [vm_compute; reflexivity|vm_compute; reflexivity|].
    exists (start_of cycle_folded (N_ "s") "z"), (start_of cycle_unfolded (N_ "s") "z"). split; [exact Ho|]. split; [exact Ho'|].
    split; eexists _, _; (split; [eassumption|]); [apply He|apply He']; vm_compute; reflexivity.
Qed.
