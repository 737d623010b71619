(** Adding and removing rules: the trees gained and lost. *)
From Verif Require Export ExtendSpec Strategies.
From Verif Require Import EarleyMain GenProofs EditProofs StrategyProofs Facts_Api Facts_Parsing Facts_Generation Facts_Ends GenSameCases.
From Coq Require Import Permutation.

Lemma kids_match_spells g e ks : kids_match g e ks <-> spells_alternative e ks /\ forall t, In (Sub t) ks -> derives g t.
Proof.
  split.
  - intro H. induction H as [|s r ks H IH|n t r ks Hr Hd H IH].
    + split; [constructor|intros t []].
    + destruct IH as [I1 I2]. split; [constructor; [reflexivity|exact I1]|]. intros t [E|Ht]; [discriminate|auto].
    + destruct IH as [I1 I2]. split; [constructor; [exact Hr|exact I1]|]. intros u [E|Hu]; [injection E as <-; exact Hd|auto].
  - intros [H Hd]. induction H as [|x k e ks Hx H IH]; [constructor|].
    assert (Hks : kids_match g e ks) by (apply IH; intros t Ht; apply Hd; right; exact Ht).
    destruct x as [s|n], k as [s'|t]; try contradiction.
    + subst s'. constructor. exact Hks.
    + constructor; [exact Hx|apply Hd; left; reflexivity|exact Hks].
Qed.

Lemma derives_local g t : derives g t <-> forall s, subtree s t -> licensed g s.
Proof.
  split.
  - intros H s Hs. induction Hs as [t|s l ks t Ht Hs IH].
    + destruct H as [p e ks Hp He Hk]. apply kids_match_spells in Hk. exists p, e. tauto.
    + apply IH. inversion H as [p e ks' Hp He Hk]; subst. apply kids_match_spells in Hk. apply Hk, Ht.
  - induction t as [l ks IH] using tree_ind'. intro H. destruct (H _ (subtree_here _)) as (p & e & Hp & <- & He & Hs).
    apply (derives_node _ p e); [exact Hp|exact He|]. apply kids_match_spells. split; [exact Hs|].
    intros t Ht. apply (IH t Ht). intros s Hst. apply H. eapply subtree_below; eassumption.
Qed.

Lemma licensed_app g g' t : licensed (g ++ g') t <-> licensed g t \/ licensed g' t.
Proof.
  destruct t as [l ks]. cbn [licensed]. split.
  - intros (p & e & Hp & H). apply in_app_iff in Hp. destruct Hp; [left|right]; exists p, e; auto.
  - intros [(p & e & Hp & H)|(p & e & Hp & H)]; exists p, e; (split; [apply in_app_iff; auto|exact H]).
Qed.
Lemma licensed_perm g g' t : Permutation g g' -> licensed g t -> licensed g' t.
Proof.
  intros Hp. destruct t as [l ks]. intros (p & e & Hi & H). exists p, e. split; [eapply Permutation_in; eassumption|exact H].
Qed.

Lemma returns_iff g start input it t : opens g start input it -> (returns it t <-> parses g start input t).
Proof.
  intro Ho. split.
  - intros (ts & it' & Hp & Ht). exact (soundness _ _ _ _ _ _ _ Ho Hp Ht).
  - intro Hp. exact (completeness _ _ _ _ _ Ho Hp).
Qed.

Lemma returns_local g start input it t : opens g start input it ->
  (returns it t <-> root t = start /\ yield t = input /\ forall s, subtree s t -> licensed g s).
Proof.
  intro Ho. rewrite (returns_iff _ _ _ _ _ Ho). unfold parses. rewrite derives_local. tauto.
Qed.

(** [g'] licenses what [g] and [h] license together. *)
Lemma returns_union g h g' start input it it' t :
  (forall s, licensed g' s <-> licensed g s \/ licensed h s) ->
  opens g start input it -> opens g' start input it' ->
  (returns it t -> returns it' t) /\
  (returns it' t -> (returns it t <-> forall s, subtree s t -> licensed h s -> licensed g s)).
Proof.
  intros Hu Ho Ho'. rewrite (returns_local _ _ _ _ _ Ho), (returns_local _ _ _ _ _ Ho'). split.
  - intros (H1 & H2 & H3). repeat split; auto. intros s Hs. apply Hu. left. auto.
  - intros (H1 & H2 & H3). split; [intros (_ & _ & H) s Hs _; auto|].
    intro H. repeat split; auto. intros s Hs. destruct (proj1 (Hu s) (H3 s Hs)) as [Hg|Hh]; auto.
Qed.

Lemma add_production_trees g q start input it it' t :
  opens g start input it -> opens (add_production g q) start input it' ->
  (returns it t -> returns it' t) /\
  (returns it' t -> (returns it t <-> forall s, subtree s t -> licensed [q] s -> licensed g s)).
Proof. apply returns_union. intro s. apply licensed_app. Qed.

Lemma licensed_add_to_rhs g1 p a g2 s :
  licensed (g1 ++ add_to_rhs p a :: g2) s <-> licensed (g1 ++ p :: g2) s \/ licensed [mkProd (p_lhs p) [a]] s.
Proof.
  change (g1 ++ add_to_rhs p a :: g2) with (g1 ++ [add_to_rhs p a] ++ g2). change (g1 ++ p :: g2) with (g1 ++ [p] ++ g2).
  rewrite !licensed_app. destruct s as [l ks].
  assert (H : licensed [add_to_rhs p a] (Node l ks) <-> licensed [p] (Node l ks) \/ licensed [mkProd (p_lhs p) [a]] (Node l ks)).
  { cbn [licensed]. split.
    - intros (q & e & [<-|[]] & Hl & He & Hs). cbn [add_to_rhs p_lhs p_rhs] in *. apply in_app_iff in He. destruct He as [He|[<-|[]]].
      + left. exists p, e. cbn. auto.
      + right. exists (mkProd (p_lhs p) [a]), a. cbn. auto.
    - intros [(q & e & [<-|[]] & Hl & He & Hs)|(q & e & [<-|[]] & Hl & He & Hs)].
      + exists (add_to_rhs p a), e. cbn [add_to_rhs p_lhs p_rhs In]. rewrite in_app_iff. auto.
      + cbn [p_lhs p_rhs] in *. destruct He as [<-|[]]. exists (add_to_rhs p a), a. cbn [add_to_rhs p_lhs p_rhs In]. rewrite in_app_iff. cbn [In]. intuition. }
  rewrite H. tauto.
Qed.

Lemma add_alternative_trees g1 p a g2 start input it it' t :
  opens (g1 ++ p :: g2) start input it -> opens (g1 ++ add_to_rhs p a :: g2) start input it' ->
  (returns it t -> returns it' t) /\
  (returns it' t -> (returns it t <-> forall s, subtree s t -> licensed [mkProd (p_lhs p) [a]] s -> licensed (g1 ++ p :: g2) s)).
Proof. apply returns_union. intro s. apply licensed_add_to_rhs. Qed.

Lemma remove_production_trees g p g' start input it it' t : remove_production g p = Ok (Some p, g') ->
  opens g start input it -> opens g' start input it' ->
  (returns it' t -> returns it t) /\
  (returns it t -> (returns it' t <-> forall s, subtree s t -> licensed [p] s -> licensed g' s)).
Proof.
  intros Hr Ho Ho'. apply (returns_union g' [p] g start input it' it t); [|exact Ho'|exact Ho].
  assert (Hperm : Permutation g (p :: g')).
  { destruct (remove_production_spec g p) as (r & g2 & E & H). rewrite Hr in E. injection E as <- <-.
    destruct H as [(_ & _ & H & _)|(_ & H & _)]; [exact H|discriminate]. }
  intro s. rewrite or_comm, <- licensed_app. split; apply licensed_perm; [exact Hperm|apply Permutation_sym; exact Hperm].
Qed.

(** ** Generation *)

Lemma add_alternative_expansion g1 p a g2 ok :
  (forall t w, expansion (g1 ++ p :: g2) ok t w -> expansion (g1 ++ add_to_rhs p a :: g2) ok t w) /\
  (forall e w, expansions (g1 ++ p :: g2) ok e w -> expansions (g1 ++ add_to_rhs p a :: g2) ok e w).
Proof.
  apply expansion_mutind.
  - intros s. constructor.
  - intros n Hn. apply ex_undefined. intros (q & Hq & Hl). apply Hn. apply in_app_iff in Hq.
    destruct Hq as [Hq|[<-|Hq]]; [exists q|exists p|exists q]; rewrite in_app_iff; cbn; auto.
  - intros n q e w Hf He _ IH Hok.
    apply first_for_find in Hf. rewrite find_app' in Hf.
    assert (H : exists q', first_for (g1 ++ add_to_rhs p a :: g2) n q' /\ In e (p_rhs q')).
    { setoid_rewrite first_for_find. setoid_rewrite find_app'. destruct (find (about n) g1) as [r|]; [injection Hf as ->; eauto|].
      cbn [find] in Hf |- *. change (about n (add_to_rhs p a)) with (about n p). destruct (about n p); [|eauto].
      injection Hf as <-. exists (add_to_rhs p a). split; [reflexivity|]. apply in_app_iff. auto. }
    destruct H as (q' & Hf' & He'). apply (ex_rule _ _ n q' e); assumption.
  - constructor.
  - intros. constructor; assumption.
Qed.

Lemma add_alternative_generates S (choose : S -> nat -> production -> nat -> res (option expression * S)) f g1 p a g2 fuel st w st' :
  lawful choose -> no_lone_epsilon (g1 ++ add_to_rhs p a :: g2) ->
  generate choose (pure_callback f) (g1 ++ p :: g2) fuel st = Ok (ROk w, st') ->
  exists script k, forall fuel', k <= fuel' -> generate_random script_rng f (g1 ++ add_to_rhs p a :: g2) fuel' script = Ok (ROk w, []).
Proof.
  intros Hl Hne H.
  destruct (C18_pure_callback_proof _ _ _ _ _ _ _ _ Hl H) as (n & q & rest & Eg & Hn & _ & Hex).
  assert (Ht : productive (g1 ++ p :: g2) (Nonterminal n)).
  { apply (guard_true _ n). { exists q, rest. auto. }
    exists fuel. unfold generate in H. destruct (terminates fuel (g1 ++ p :: g2)) as [[|]| |]; cbn in H; try discriminate. reflexivity. }
  assert (Hb : exists q' rest', g1 ++ add_to_rhs p a :: g2 = q' :: rest' /\ p_lhs q' = Nonterminal n).
  { destruct g1 as [|r g1]; cbn in *; injection Eg as <- <-; eauto. }
  destruct Hb as (q' & rest' & Eg' & Hn').
  eapply generate_reaches; [exact Eg'|exact Hn'|exact Hne| |].
  - destruct Ht as (t & Hd & Hr). exists t. split; [|exact Hr]. apply derives_local. intros s Hs. apply licensed_add_to_rhs. left.
    apply (proj1 (derives_local _ t) Hd s Hs).
  - apply add_alternative_expansion. exact Hex.
Qed.

Lemma remove_alternative_trees g1 p e p' g2 start input it it' t : remove_from_rhs p e = Ok (Some e, p') ->
  opens (g1 ++ p :: g2) start input it -> opens (g1 ++ p' :: g2) start input it' ->
  (returns it' t -> returns it t) /\
  (returns it t -> (returns it' t <-> forall s, subtree s t -> licensed [mkProd (p_lhs p) [e]] s -> licensed (g1 ++ p' :: g2) s)).
Proof.
  intros Hr Ho Ho'. apply (returns_union (g1 ++ p' :: g2) [mkProd (p_lhs p) [e]] (g1 ++ p :: g2) start input it' it t); [|exact Ho'|exact Ho].
  destruct (remove_from_rhs_spec p e) as (r & p2 & E & El & H). rewrite Hr in E. injection E as <- <-.
  destruct H as [(_ & _ & l1 & l2 & E1 & _ & E2)|(_ & H & _)]; [|discriminate].
  intro s. rewrite <- El, <- (licensed_add_to_rhs g1 p' e g2 s). destruct s as [l ks]. cbn [licensed].
  assert (Hin : forall x, In x (p_rhs p) <-> In x (p_rhs (add_to_rhs p' e))).
  { intro x. cbn [add_to_rhs p_rhs]. rewrite E1, E2, !in_app_iff. cbn [In]. tauto. }
  split; intros (q & x & Hq & Hl & Hx & Hs); apply in_app_iff in Hq; destruct Hq as [Hq|[<-|Hq]].
  - exists q, x. rewrite in_app_iff. auto.
  - exists (add_to_rhs p' e), x. rewrite in_app_iff, <- Hin. cbn [add_to_rhs p_lhs In]. rewrite El. auto.
  - exists q, x. rewrite in_app_iff. cbn [In]. auto.
  - exists q, x. rewrite in_app_iff. auto.
  - exists p, x. rewrite in_app_iff, Hin. cbn [add_to_rhs p_lhs In] in *. rewrite <- El. auto.
  - exists q, x. rewrite in_app_iff. cbn [In]. auto.
Qed.

(** ** What is not kept *)
From Verif Require Import ParseExamples TerminationExamples Facts_Parsing EarleyExact.
From Coq Require String.
Import String.StringSyntax.

Definition one_rule : grammar := [mkProd (N_ "s") [[T_ "x"]]].
Definition loop_rule : production := mkProd (N_ "s") [[N_ "s"]].

Lemma ends_lost : exists g q start input it it',
  opens g start input it /\ opens (add_production g q) start input it' /\
  (exists ts itf, produces it ts itf /\ exhausted itf) /\
  (forall ts it1, produces it' ts it1 -> exists fuel t it2, iter_next fuel it1 = Ok (Some t, it2)).
Proof.
  destruct (run_facts one_rule (N_ "s") "x" 3) as (H1 & H2 & H3); [vm_compute; reflexivity..|].
  destruct (run_facts (add_production one_rule loop_rule) (N_ "s") "x" 3) as (K1 & K2 & K3); [vm_compute; reflexivity..|].
  exists one_rule, loop_rule, (N_ "s"), (lit "x"). eexists _, _. split; [exact H1|]. split; [exact K1|]. split.
  - eexists _, _. split; [exact H2|]. apply H3. vm_compute. reflexivity.
  - intros ts it1 Hp. apply (endless (add_production one_rule loop_rule) (N_ "s") (lit "x") (start_of (add_production one_rule loop_rule) (N_ "s") "x") ts it1); [|exact K1|exact Hp].
    exists (Node (N_ "s") [Leaf (lit "x")]), (Node (N_ "s") [Leaf (lit "x")]), (lit "s"). split; [|split; [constructor|split; [reflexivity|]]].
    + split; [|split; reflexivity]. apply (derives_node _ (mkProd (N_ "s") [[T_ "x"]]) [T_ "x"]); [left; reflexivity|left; reflexivity|]. repeat constructor.
    + apply t_step. exists loop_rule, [], []. split; [right; left; reflexivity|]. split; [reflexivity|]. split; [left; reflexivity|].
      split; (exists []; split; [constructor|reflexivity]).
Qed.

(** Two chains of rules from [s] to "x"; the longer one ends in [c]. *)
Definition chain (a b : str) : production := mkProd (Nonterminal a) [[Nonterminal b]].
Definition chains : grammar :=
  [chain (lit "a1") (lit "a2"); chain (lit "a2") (lit "a3"); chain (lit "a3") (lit "a4"); chain (lit "a4") (lit "a5");
   mkProd (N_ "a5") [[T_ "x"]];
   chain (lit "b1") (lit "b2"); chain (lit "b2") (lit "b3"); chain (lit "b3") (lit "b4"); chain (lit "b4") (lit "c");
   mkProd (N_ "c") [[T_ "x"]]].
Definition two_chains : production := mkProd (N_ "s") [[N_ "a1"]; [N_ "b1"]].

Lemma order_lost : exists p a g2 start input it it' t1 t2 t3 itf itf', 
  opens (p :: g2) start input it /\ produces it [t1; t2] itf /\ exhausted itf /\
  opens (add_to_rhs p a :: g2) start input it' /\ produces it' [t3; t2; t1] itf' /\ exhausted itf'.
Proof.
  destruct (run_facts (two_chains :: chains) (N_ "s") "x" 5) as (H1 & H2 & H3); [vm_compute; reflexivity..|].
  destruct (run_facts (add_to_rhs two_chains [N_ "c"] :: chains) (N_ "s") "x" 5) as (K1 & K2 & K3); [vm_compute; reflexivity..|].
  specialize (H3 ltac:(vm_compute; reflexivity)). specialize (K3 ltac:(vm_compute; reflexivity)).
  set (l1 := trees_of (two_chains :: chains) (N_ "s") "x" 5) in *.
  set (l2 := trees_of (add_to_rhs two_chains [N_ "c"] :: chains) (N_ "s") "x" 5) in *.
  assert (E : exists t1 t2 t3, l1 = [t1; t2] /\ l2 = [t3; t2; t1]).
  { vm_compute in l1. vm_compute in l2. eexists _, _, _. split; reflexivity. }
  destruct E as (t1 & t2 & t3 & E1 & E2). rewrite E1 in H2. rewrite E2 in K2.
  exists two_chains, [N_ "c"], chains, (N_ "s"), (lit "x"). eexists _, _, t1, t2, t3, _, _.
  split; [exact H1|]. split; [exact H2|]. split; [exact H3|]. split; [exact K1|]. split; [exact K2|exact K3].
Qed.

(** A nonterminal without a rule is printed; with a rule it is not. *)
Definition with_undefined : grammar := [mkProd (N_ "s") [[N_ "u"]; [T_ "a"]]].
Definition rule_for_u : production := mkProd (N_ "u") [[T_ "b"]].

Lemma text_lost : exists g q script w,
  generate_random script_rng (fun _ _ => true) g 20 script = Ok (ROk w, []) /\
  forall S (choose : S -> nat -> production -> nat -> res (option expression * S)) f fuel st st',
    lawful choose -> generate choose (pure_callback f) (add_production g q) fuel st <> Ok (ROk w, st').
Proof.
  exists with_undefined, rule_for_u, [0], (lit "u"). split; [reflexivity|]. intros S choose f fuel st st' Hl H.
  destruct (C18_pure_callback_proof _ _ _ _ _ _ _ _ Hl H) as (n & q & rest & Eg & Hn & _ & Hex).
  injection Eg as <- <-. injection Hn as <-.
  inversion Hex as [|n Hno|n p e w Hf He Hw _]; subst.
  apply first_for_find in Hf. cbn in Hf. injection Hf as <-. cbn in He. destruct He as [<-|[<-|[]]].
    + inversion Hw as [|t e w1 w2 H1 H2 E]; subst. inversion H2; subst. rewrite app_nil_r in *.
      inversion H1 as [|n Hno E1|n p e w Hf He Hw2 _ E1]; subst.
      * apply Hno. exists rule_for_u. split; [right; left; reflexivity|reflexivity].
      * apply first_for_find in Hf. cbn in Hf. injection Hf as <-. cbn in He. destruct He as [<-|[]].
        inversion Hw2 as [|t e x1 x2 X1 X2 E]; subst. inversion X2; subst. inversion X1; subst. discriminate.
    + inversion Hw as [|t e w1 w2 H1 H2 E]; subst. inversion H2; subst. inversion H1; subst. discriminate.
Qed.

Definition product_rule : production := mkProd (N_ "e") [[N_ "e"; T_ "*"; N_ "e"]].
