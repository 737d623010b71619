(** Proofs about the examples and benchmarks. *)
From Verif Require Import Programs EarleyMain EarleyBounds EarleyExact EarleyOrder LinearProofs Facts_Linear Facts_Generation Facts_Trees
  Facts_Prefer TreeCost GenProofs StrategyExact PropTests ParseExamples TreeSpec.
From Coq Require Import Lia Permutation.
From Coq Require Import String.
Import String.StringSyntax.
Open Scope list_scope.

(** ** One parse tree, or none *)

Lemma single_run g start input it t : NoDup (flat_prods g) -> opens g start input it ->
  (forall ts it1, produces it ts it1 -> exists f r, iter_next f it1 = Ok r) ->
  parses g start input t -> (forall t', parses g start input t' -> t' = t) -> collects it [t].
Proof.
  intros Hnd Ho Hret Ht Hun.
  destruct (Hret [] it (produces_nil it)) as (f1 & [o it1] & E1). destruct o as [t1|].
  - assert (Hp1 : produces it [t1] it1) by (econstructor; [exact E1|constructor]).
    assert (t1 = t) as ->. { apply Hun. eapply soundness; [exact Ho|exact Hp1|left; reflexivity]. }
    exists it1. split; [exact Hp1|]. destruct (Hret _ _ Hp1) as (f2 & [o it2] & E2). destruct o as [t2|].
    + exfalso. assert (Hp2 : produces it ([t] ++ [t2]) it2).
      { eapply produces_app; [exact Hp1|]. econstructor; [exact E2|constructor]. }
      assert (t2 = t) as ->. { apply Hun. eapply soundness; [exact Ho|exact Hp2|right; left; reflexivity]. }
      pose proof (no_duplicates _ _ _ _ _ _ Hnd Ho Hp2) as H. inversion H as [|? ? Hn _]; subst. apply Hn. left. reflexivity.
    + exists f2, it2. exact E2.
  - exfalso. destruct (exhaustive _ _ _ _ _ _ _ Ho (produces_nil it) (ex_intro _ _ (ex_intro _ _ E1)) Ht).
Qed.

Lemma empty_run g start input it : opens g start input it ->
  (forall ts it1, produces it ts it1 -> exists f r, iter_next f it1 = Ok r) ->
  (forall t, ~ parses g start input t) -> collects it [].
Proof.
  intros Ho Hret Hno. exists it. split; [constructor|]. destruct (Hret [] it (produces_nil it)) as (f1 & [o it1] & E1). destruct o as [t1|].
  - exfalso. apply (Hno t1). apply (soundness _ _ _ _ [t1] it1 t1 Ho); [econstructor; [exact E1|constructor]|left; reflexivity].
  - exists f1, it1. exact E1.
Qed.

(** ** Polish notation *)

Lemma polish_read alphabetic : grammar_from_str alphabetic polish_text = Ok (ROk polish_grammar).
Proof. vm_compute. reflexivity. Qed.

Lemma op_inv t : derives polish_grammar t -> root t = N_ "op" -> exists o, In o (lit "+-*/") /\ t = Node (N_ "op") [Leaf [o]].
Proof.
  intros H Hr. inversion H as [p rhs kids Hp Hrhs Hk]; subst. cbn [root] in Hr.
  destruct Hp as [<-|[<-|[<-|[]]]]; try discriminate Hr. cbn in Hrhs.
  repeat (destruct Hrhs as [<-|Hrhs]; [inversion Hk as [|s r ks Hk2 |]; subst; inversion Hk2; subst; eexists; split; [|reflexivity]; cbn; tauto|]). destruct Hrhs.
Qed.
Lemma number_inv t : derives polish_grammar t -> root t = N_ "number" -> exists o, In o (lit "0123456789") /\ t = Node (N_ "number") [Leaf [o]].
Proof.
  intros H Hr. inversion H as [p rhs kids Hp Hrhs Hk]; subst. cbn [root] in Hr.
  destruct Hp as [<-|[<-|[<-|[]]]]; try discriminate Hr. cbn in Hrhs.
  repeat (destruct Hrhs as [<-|Hrhs]; [inversion Hk as [|s r ks Hk2 |]; subst; inversion Hk2; subst; eexists; split; [|reflexivity]; cbn; tauto|]). destruct Hrhs.
Qed.

Lemma polish_inv n : forall t, nodes t <= n -> derives polish_grammar t -> root t = N_ "product" -> exists e, well_spelled e /\ t = polish_tree e.
Proof.
  induction n as [|n IH]; intros t Hn H Hr; [destruct t; cbn in Hn; lia|].
  inversion H as [p rhs kids Hp Hrhs Hk]; subst. cbn [root] in Hr.
  destruct Hp as [<-|[<-|[<-|[]]]]; try discriminate Hr. destruct Hrhs as [<-|[<-|[]]].
  - inversion Hk as [| |m t r ks Hrt Ht Hk2]; subst. inversion Hk2; subst. destruct (number_inv t Ht Hrt) as (c & Hc & ->).
    exists (Number c). split; [exact Hc|reflexivity].
  - inversion Hk as [| |m t r ks Hrt Ht Hk2]; subst. inversion Hk2 as [| |m2 t2 r2 ks2 Hrt2 Ht2 Hk3]; subst.
    inversion Hk3 as [| |m3 t3 r3 ks3 Hrt3 Ht3 Hk4]; subst. inversion Hk4; subst. destruct (op_inv t Ht Hrt) as (o & Ho & ->).
    cbn in Hn. destruct (IH t2) as (x & Hx & ->); [lia|exact Ht2|exact Hrt2|]. destruct (IH t3) as (y & Hy & ->); [lia|exact Ht3|exact Hrt3|].
    exists (Operation o x y). split; [split; [exact Ho|split; assumption]|reflexivity].
Qed.

Lemma polish_tree_yield e : yield (polish_tree e) = spelled e.
Proof.
  induction e as [c|o x IHx y IHy]; [reflexivity|].
  change (yield (polish_tree (Operation o x y))) with ([o] ++ yield (polish_tree x) ++ yield (polish_tree y) ++ []).
  rewrite IHx, IHy, app_nil_r. reflexivity.
Qed.
Lemma polish_tree_root e : root (polish_tree e) = N_ "product".
Proof. destruct e; reflexivity. Qed.

Lemma polish_derives e : well_spelled e -> derives polish_grammar (polish_tree e).
Proof.
  assert (Hleaf : forall n p c, In p polish_grammar -> p_lhs p = Nonterminal n -> In [Terminal [c]] (p_rhs p) -> derives polish_grammar (Node (Nonterminal n) [Leaf [c]])).
  { intros n p c Hp El Hin. rewrite <- El. apply (derives_node polish_grammar p [Terminal [c]]); [exact Hp|exact Hin|repeat constructor]. }
  induction e as [c|o x IHx y IHy]; cbn [well_spelled polish_tree].
  - intro Hc. apply (derives_node polish_grammar (nth 0 polish_grammar (mkProd (N_ "") [])) [N_ "number"]); [left; reflexivity|left; reflexivity|].
    apply km_nt; [reflexivity| |constructor]. apply (Hleaf (lit "number") (nth 2 polish_grammar (mkProd (N_ "") [])) c); [right; right; left; reflexivity|reflexivity|].
    cbn in Hc |- *. intuition (subst; tauto).
  - intros (Ho & Hx & Hy). apply (derives_node polish_grammar (nth 0 polish_grammar (mkProd (N_ "") [])) [N_ "op"; N_ "product"; N_ "product"]); [left; reflexivity|right; left; reflexivity|].
    apply km_nt; [reflexivity| |].
    + apply (Hleaf (lit "op") (nth 1 polish_grammar (mkProd (N_ "") [])) o); [right; left; reflexivity|reflexivity|]. cbn in Ho |- *. intuition (subst; tauto).
    + apply km_nt; [apply polish_tree_root|apply IHx, Hx|]. apply km_nt; [apply polish_tree_root|apply IHy, Hy|constructor].
Qed.

Lemma polish_parses input t : parses polish_grammar (N_ "product") input t <-> exists e, well_spelled e /\ input = spelled e /\ t = polish_tree e.
Proof.
  split.
  - intros (Hd & Hr & <-). destruct (polish_inv _ t (le_n _) Hd Hr) as (e & He & ->). exists e. rewrite polish_tree_yield. auto.
  - intros (e & He & -> & ->). split; [apply polish_derives, He|]. split; [apply polish_tree_root|apply polish_tree_yield].
Qed.

Lemma polish_returns input it : opens polish_grammar (N_ "product") input it ->
  forall ts it1, produces it ts it1 -> exists f r, iter_next f it1 = Ok r.
Proof.
  intros Ho ts it1 Hp. destruct (C83_linear_proof _ _ _ _ _ _ polish_predictive polish_nodup Ho Hp) as (_ & _ & r & Hr). eauto.
Qed.

Lemma polish_runs input it : opens polish_grammar (N_ "product") input it ->
  (forall e, well_spelled e -> input = spelled e -> collects it [polish_tree e]) /\
  ((forall e, well_spelled e -> input <> spelled e) -> collects it []).
Proof.
  intro Ho. split.
  - intros e He ->. apply (single_run _ _ _ _ _ polish_nodup Ho (polish_returns _ _ Ho)); [apply polish_parses; eauto|].
    intros t' Ht'. eapply predictive_one; [exact polish_predictive|exact Ht'|apply polish_parses; eauto].
  - intro Hno. apply (empty_run _ _ _ _ Ho (polish_returns _ _ Ho)). intros t Ht. apply polish_parses in Ht.
    destruct Ht as (e & He & E & _). exact (Hno e He E).
Qed.

Lemma generated_parses S (choose : S -> nat -> production -> nat -> res (option expression * S)) accept g n p rest fuel st w st' :
  g = p :: rest -> p_lhs p = Nonterminal n -> (forall x, refers g x -> has_lhs g x) -> lawful choose ->
  generate choose accept g fuel st = Ok (ROk w, st') -> exists t, parses g (Nonterminal n) w t.
Proof.
  intros Eg Hl Hd Hlaw H. destruct (C16_generated_sentences_proof S choose accept g fuel st w st' Hlaw H) as (n' & p' & rest' & E & Hn & Hex).
  rewrite Eg in E. injection E as <- <-. rewrite Hl in Hn. injection Hn as <-.
  destruct (proj1 (expansion_derives _ _ Hd) _ _ Hex _ eq_refl) as (tr & Hdr & Hr & Hy).
  - exists p. split; [rewrite Eg; left; reflexivity|exact Hl].
  - exists tr. split; [exact Hdr|]. split; assumption.
Qed.

Lemma polish_defined x : refers polish_grammar x -> has_lhs polish_grammar x.
Proof. apply (proj1 (validate_spec id_order polish_grammar)). reflexivity. Qed.

Lemma polish_generated R (rng : rng_ops R) fuel r x r' : generate_random rng (fun _ _ => true) polish_grammar fuel r = Ok (x, r') ->
  exists e, well_spelled e /\ x = ROk (spelled e).
Proof.
  intro H. destruct x as [w|x].
  - destruct (generated_parses _ (random_walk rng) _ polish_grammar (lit "product") _ _ _ _ _ _ eq_refl eq_refl polish_defined (lawful_random_walk _) H) as (t & Ht).
    apply polish_parses in Ht. destruct Ht as (e & He & -> & _). eauto.
  - exfalso. refine (proj1 (strategies_no_error polish_grammar (lit "product") _ _ eq_refl eq_refl _ _ R rng fuel x) _ _ _ H).
    + intros q Hq. destruct Hq as [<-|[<-|[<-|[]]]]; split; discriminate.
    + exists (polish_tree (Number 48%N)). split; [apply polish_derives; left; reflexivity|reflexivity].
Qed.

(** ** The cycle *)

Definition nullable_grammar : grammar := [mkProd (N_ "a") [[T_ ""]; [N_ "b"]]; mkProd (N_ "b") [[N_ "a"]]].

Lemma nullable_read alphabetic : grammar_from_str alphabetic nullable_text = Ok (ROk nullable_grammar).
Proof. vm_compute. reflexivity. Qed.

Lemma nullable_nodup : NoDup (flat_prods nullable_grammar).
Proof. cbn. repeat constructor; cbn; intuition discriminate. Qed.

Lemma tower_root k : root (tower k) = N_ "a".
Proof. destruct k; reflexivity. Qed.
Lemma tower_yield k : yield (tower k) = [].
Proof. induction k as [|k IH]; [reflexivity|]. change (yield (tower (S k))) with ((yield (tower k) ++ []) ++ []). rewrite IH. reflexivity. Qed.
Lemma tower_nodes k : nodes (tower k) = 2 * k + 1.
Proof. induction k as [|k IH]; [reflexivity|]. change (nodes (tower (S k))) with (S (S (nodes (tower k) + 0) + 0)). lia. Qed.
Lemma tower_lookups k : lookups (tower k) = 4 * (2 * k + 1).
Proof. induction k as [|k IH]; [reflexivity|]. change (lookups (tower (S k))) with (2 + 1 + 1 + (2 + 1 + 1 + (lookups (tower k) + 0) + 0)). lia. Qed.
Lemma tower_inj i j : tower i = tower j -> i = j.
Proof. intro H. apply (f_equal nodes) in H. rewrite !tower_nodes in H. lia. Qed.

Lemma tower_derives k : derives nullable_grammar (tower k).
Proof.
  induction k as [|k IH].
  - apply (derives_node nullable_grammar (nth 0 nullable_grammar (mkProd (N_ "") [])) [T_ ""]); [left; reflexivity|left; reflexivity|repeat constructor].
  - apply (derives_node nullable_grammar (nth 0 nullable_grammar (mkProd (N_ "") [])) [N_ "b"]); [left; reflexivity|right; left; reflexivity|].
    apply km_nt; [reflexivity| |constructor].
    apply (derives_node nullable_grammar (nth 1 nullable_grammar (mkProd (N_ "") [])) [N_ "a"]); [right; left; reflexivity|left; reflexivity|].
    apply km_nt; [apply tower_root|exact IH|constructor].
Qed.

Lemma tower_inv n : forall t, nodes t <= n -> derives nullable_grammar t -> root t = N_ "a" -> exists k, t = tower k.
Proof.
  induction n as [|n IH]; intros t Hn H Hr; [destruct t; cbn in Hn; lia|].
  inversion H as [p rhs kids Hp Hrhs Hk]; subst. cbn [root] in Hr.
  destruct Hp as [<-|[<-|[]]]; try discriminate Hr. destruct Hrhs as [<-|[<-|[]]].
  - inversion Hk as [|s r ks Hk2|]; subst. inversion Hk2; subst. exists 0. reflexivity.
  - inversion Hk as [| |m t r ks Hrt Ht Hk2]; subst. inversion Hk2; subst.
    inversion Ht as [p2 rhs2 kids2 Hp2 Hrhs2 Hk3]; subst. cbn [root] in Hrt.
    destruct Hp2 as [<-|[<-|[]]]; try discriminate Hrt. destruct Hrhs2 as [<-|[]].
    inversion Hk3 as [| |m3 t3 r3 ks3 Hrt3 Ht3 Hk4]; subst. inversion Hk4; subst. cbn in Hn.
    destruct (IH t3) as (k & ->); [lia|exact Ht3|exact Hrt3|]. exists (S k). reflexivity.
Qed.

Lemma nullable_parses input t : parses nullable_grammar (N_ "a") input t <-> input = [] /\ exists k, t = tower k.
Proof.
  split.
  - intros (Hd & Hr & <-). destruct (tower_inv _ t (le_n _) Hd Hr) as (k & ->). rewrite tower_yield. eauto.
  - intros (-> & k & ->). split; [apply tower_derives|]. split; [apply tower_root|apply tower_yield].
Qed.

Lemma tower_shortcut k : shortcut (tower (S k)) (tower k).
Proof.
  exists (tower (S k)), (tower k), []. split; [constructor|]. split.
  - apply subtree_below with (t := Node (N_ "b") [Sub (tower k)]); [left; reflexivity|].
    apply subtree_below with (t := tower k); [left; reflexivity|constructor].
  - split; [intro E; apply tower_inj in E; lia|]. split; [rewrite !tower_root; reflexivity|rewrite !tower_yield; reflexivity].
Qed.

Lemma tower_earlier it : opens nullable_grammar (N_ "a") [] it -> forall i j, i < j -> earlier it (tower i) (tower j).
Proof.
  intro Ho. assert (S1 : forall k, earlier it (tower k) (tower (S k))).
  { intro k. apply (shortcut_earlier _ _ _ _ _ _ Ho); [apply nullable_parses; eauto|apply tower_shortcut]. }
  intros i j H. induction H as [|j H IH]; [apply S1|]. eapply earlier_trans; [exact IH|apply S1].
Qed.


Lemma towers it : opens nullable_grammar (N_ "a") [] it -> forall k, exists it', produces it (map tower (seq 0 k)) it'.
Proof.
  intro Ho. induction k as [|k (itk & Hk)]; [exists it; constructor|].
  destruct (tower_earlier it Ho k (S k) (le_n _)) as (ts & it' & Hp & Hin & Hnin).
  destruct (produces_linear _ _ _ Hk _ _ Hp) as [(r & -> & Hr)|(r & E & _)].
  - apply in_app_or in Hin. destruct Hin as [Hin|Hin].
    { exfalso. apply in_map_iff in Hin. destruct Hin as (i & Ei & Hi). apply tower_inj in Ei. apply in_seq in Hi. lia. }
    destruct r as [|t r]; [destruct Hin|]. inversion Hr as [|? ? it1 ? ? f En Hr']; subst.
    assert (Hp1 : produces it (map tower (seq 0 k) ++ [t]) it1).
    { eapply produces_app; [exact Hk|]. econstructor; [exact En|constructor]. }
    assert (Hk1 : t = tower k).
    { destruct (proj1 (nullable_parses [] t)) as (_ & j & ->).
      { eapply soundness; [exact Ho|exact Hp1|apply in_or_app; right; left; reflexivity]. }
      destruct (Nat.lt_trichotomy j k) as [H|[->|H]]; [|reflexivity|].
      - exfalso. pose proof (no_duplicates _ _ _ _ _ _ nullable_nodup Ho Hp1) as Hnd. apply NoDup_remove_2 in Hnd. apply Hnd.
        rewrite app_nil_r. apply in_map. apply in_seq. lia.
      - exfalso. apply (earlier_irrefl it (tower k)). 
        destruct (tower_earlier it Ho k j H) as (ts2 & it2 & Hp2 & Hin2 & Hnin2).
        destruct (produces_linear _ _ _ Hp1 _ _ Hp2) as [(r2 & -> & _)|(r2 & E2 & _)].
        + exfalso. apply Hnin2. apply in_or_app. left. apply in_or_app. right. left. reflexivity.
        + exfalso. assert (Hi : In (tower k) (map tower (seq 0 k) ++ [tower j])) by (rewrite E2; apply in_or_app; left; exact Hin2).
          apply in_app_or in Hi. destruct Hi as [Hi|[Hi|[]]].
          * apply in_map_iff in Hi. destruct Hi as (i & Ei & Hi). apply tower_inj in Ei. apply in_seq in Hi. lia.
          * apply tower_inj in Hi. lia. }
    subst t. exists it1. rewrite seq_S, map_app. exact Hp1.
  - exfalso. assert (Hi : In (tower k) (map tower (seq 0 k))) by (rewrite E; apply in_or_app; left; exact Hin).
    apply in_map_iff in Hi. destruct Hi as (i & Ei & Hi). apply tower_inj in Ei. apply in_seq in Hi. lia.
Qed.

Lemma produces_take ts : forall it it', produces it ts it' -> exists fuel0, forall fuel, fuel0 <= fuel -> take_trees fuel (List.length ts) it = Ok (ts, it').
Proof.
  induction 1 as [it|it t it1 ts it2 f E Hp (f0 & IH)]; [exists 0; reflexivity|].
  exists (Nat.max f f0). intros fuel Hf. cbn [List.length take_trees]. rewrite (iter_next_mono _ fuel _ _ E) by lia. cbn [rbind].
  rewrite IH by lia. reflexivity.
Qed.

Lemma towers_taken it : opens nullable_grammar (N_ "a") [] it -> forall k, exists fuel0 it', forall fuel, fuel0 <= fuel ->
  take_trees fuel k it = Ok (map tower (seq 0 k), it').
Proof.
  intros Ho k. destruct (towers it Ho k) as (it' & Hp). destruct (produces_take _ _ _ Hp) as (f0 & Hf). exists f0, it'.
  intros fuel Hle. rewrite <- (Hf fuel Hle). rewrite map_length, seq_length. reflexivity.
Qed.

Lemma towers_lookups k : list_sum (map lookups (map tower (seq 0 k))) = 4 * (k * k).
Proof.
  rewrite map_map. induction k as [|k IH]; [reflexivity|]. rewrite seq_S, map_app, list_sum_app, IH. cbn [map list_sum fold_right Nat.add]. rewrite tower_lookups. lia.
Qed.

(** ** The examples *)

Lemma example_read alphabetic plain :
  grammar_from_str_msg alphabetic (debug_str plain) example_text = Ok (ROk dna_grammar) /\
  grammar_from_str_msg alphabetic (debug_str plain) reversed_text = Ok (ROk [base_rule; dna_rule]).
Proof. split; vm_compute; reflexivity. Qed.

Lemma dna_defined x : refers dna_grammar x -> has_lhs dna_grammar x.
Proof. apply (proj1 (validate_spec id_order dna_grammar)). reflexivity. Qed.

Lemma dna_generated R (rng : rng_ops R) fuel r x r' : generate_random rng (fun _ _ => true) dna_grammar fuel r = Ok (x, r') ->
  exists w, w <> [] /\ Forall dna_letter w /\ x = ROk w.
Proof.
  intro H. destruct x as [w|x].
  - destruct (generated_parses _ (random_walk rng) _ dna_grammar (lit "dna") _ _ _ _ _ _ eq_refl eq_refl dna_defined (lawful_random_walk _) H) as (t & Ht).
    apply C83_dna_trees_proof in Ht. destruct Ht as (c & v & -> & Hl & _). exists (c :: v). repeat split; [discriminate|exact Hl].
  - exfalso. refine (proj1 (strategies_no_error dna_grammar (lit "dna") _ _ eq_refl eq_refl _ _ R rng fuel x) _ _ _ H).
    + intros q Hq. destruct Hq as [<-|[<-|[]]]; split; discriminate.
    + exists (dna_tree 65%N []). split; [apply dna_derives; [left; reflexivity|constructor]|reflexivity].
Qed.

Lemma structure plain : readable plain -> pretty_grammar plain 0 dna_grammar = example_structure.
Proof.
  intro H. change (pretty_grammar plain 0 [dna_rule; base_rule] = example_structure). unfold readable in H.
  assert (P : Forall (fun c => plain c = true) (lit "abdensACGT")) by (apply Forall_forall; exact H). clear H.
  cbn in P. repeat match goal with H : Forall _ (_ :: _) |- _ => inversion_clear H end.
  vm_compute. repeat match goal with H : plain _ = true |- _ => rewrite ?H; clear H end. reflexivity.
Qed.

Lemma five_and_one (a b c d e f : str) : (a ++ b ++ c ++ d ++ e) ++ f = a ++ b ++ c ++ d ++ e ++ f.
Proof. rewrite <- !app_assoc. reflexivity. Qed.

Lemma ok_inv R (a b a' b' : str) (c c' : R) : Ok (a, b, c) = Ok (a', b', c') -> a' = a /\ b' = b.
Proof. intro H. injection H as -> -> _. auto. Qed.

Lemma create_grammar_prints alphabetic plain R (rng : rng_ops R) fuel r out err r' : readable plain ->
  create_grammar alphabetic plain rng example_text fuel r = Ok ((out, err), r') ->
  err = [] /\ exists w, w <> [] /\ Forall dna_letter w /\ out = created w.
Proof.
  intro Hpl. unfold create_grammar. rewrite (proj1 (example_read alphabetic plain)). cbn [rbind]. rewrite (structure plain Hpl).
  destruct (generate_random rng (fun _ _ => true) dna_grammar fuel r) as [[x r1]| |] eqn:E; cbn [rbind]; try discriminate.
  intro H. apply ok_inv in H. destruct H as [-> ->]. split; [reflexivity|]. destruct (dna_generated _ _ _ _ _ _ E) as (w & Hw & Hl & ->).
  exists w. split; [exact Hw|]. split; [exact Hl|]. unfold created. apply five_and_one.
Qed.

Lemma dna_distinct : distinct_lhs dna_grammar.
Proof. unfold distinct_lhs. cbn. repeat constructor; cbn; intuition discriminate. Qed.

Lemma create_grammar_all alphabetic plain w : readable plain -> w <> [] -> Forall dna_letter w -> exists script k, forall fuel, k <= fuel ->
  create_grammar alphabetic plain script_rng example_text fuel script = Ok ((created w, []), []).
Proof.
  intros Hpl Hw Hl. destruct (C26_every_sentence_proof dna_grammar (lit "dna") dna_rule [base_rule] w eq_refl eq_refl dna_distinct) as (script & k & H).
  - intros p [<-|[<-|[]]]; discriminate.
  - apply generates_parses. destruct w as [|c w]; [contradiction Hw; reflexivity|]. exists (dna_tree c w). apply C83_dna_trees_proof. eauto.
  - exists script, k. intros fuel Hf. unfold create_grammar. rewrite (proj1 (example_read alphabetic plain)). cbn [rbind].
    rewrite (structure plain Hpl). rewrite H by exact Hf. cbn [rbind]. unfold created. rewrite five_and_one. reflexivity.
Qed.

Lemma reversed_same t : derives dna_grammar t <-> derives [base_rule; dna_rule] t.
Proof.
  split; apply derives_same_alts; intros l e; cbn; tauto.
Qed.

Lemma reversed_parses input t : parses [base_rule; dna_rule] (N_ "dna") input t <->
  exists c w, input = c :: w /\ Forall dna_letter input /\ t = dna_tree c w.
Proof. rewrite <- C83_dna_trees_proof. unfold parses. rewrite reversed_same. reflexivity. Qed.

Lemma kids_same x ks : kids_match [base_rule; dna_rule] x ks -> kids_match dna_grammar x ks.
Proof. induction 1; constructor; try assumption. apply reversed_same. assumption. Qed.

Lemma reversed_unique : uniquely_matching [base_rule; dna_rule].
Proof.
  destruct dna_unique as [_ H]. split; [cbn; repeat constructor; cbn; intuition discriminate|].
  intros p x y ks ks' Hp Hin Hk Hk' E. apply (H p x y ks ks'); [cbn in *; tauto|exact Hin|apply kids_same, Hk|apply kids_same, Hk'|exact E].
Qed.

(** [glyphs] below last children. *)
Lemma glyphs_pad k x r : glyphs (repeat true k ++ x :: r) = repeat 32%N (4 * k) ++ glyphs (x :: r).
Proof.
  induction k as [|k IH]; [reflexivity|]. replace (4 * S k) with (S (S (S (S (4 * k))))) by lia. cbn [repeat app].
  change (glyphs (true :: repeat true k ++ x :: r)) with (match repeat true k ++ x :: r with [] => glyphs [true] | _ => [32; 32; 32; 32]%N ++ glyphs (repeat true k ++ x :: r) end).
  rewrite IH. destruct (repeat true k); reflexivity.
Qed.

Fixpoint dna_lines (lasts : list bool) (c : char) (w : str) : list (list bool * str) :=
  (lasts, node_line (Sub (dna_tree c w))) ::
  match w with
  | [] => [(lasts ++ [true], node_line (dna_base c)); (lasts ++ [true; true], node_line (Leaf [c]))]
  | c' :: w => (lasts ++ [false], node_line (dna_base c)) :: (lasts ++ [false; true], node_line (Leaf [c])) :: dna_lines (lasts ++ [true]) c' w
  end.

Lemma dna_drawing w : forall lasts c, drawing lasts (Sub (dna_tree c w)) (dna_lines lasts c w).
Proof.
  assert (B : forall lasts c, drawing lasts (dna_base c) [(lasts, node_line (dna_base c)); (lasts ++ [true], node_line (Leaf [c]))]).
  { intros lasts c. apply draw_node. cbn [with_last]. change [(lasts ++ [true], node_line (Leaf [c]))] with ([(lasts ++ [true], node_line (Leaf [c]))] ++ []).
    apply draw_cons; constructor. }
  induction w as [|c' w IH]; intros lasts c; cbn [dna_lines]; apply draw_node.
  - cbn [with_last dna_kids]. rewrite <- (app_nil_r [(lasts ++ [true], node_line (dna_base c)); _]).
    apply draw_cons; [|constructor]. specialize (B (lasts ++ [true]) c). rewrite <- app_assoc in B. exact B.
  - cbn [with_last dna_kids]. change ((lasts ++ [false], node_line (dna_base c)) :: (lasts ++ [false; true], node_line (Leaf [c])) :: dna_lines (lasts ++ [true]) c' w)
      with ([(lasts ++ [false], node_line (dna_base c)); (lasts ++ [false; true], node_line (Leaf [c]))] ++ dna_lines (lasts ++ [true]) c' w).
    apply draw_cons. { specialize (B (lasts ++ [false]) c). rewrite <- app_assoc in B. exact B. }
    rewrite <- (app_nil_r (dna_lines _ _ _)). apply draw_cons; [|constructor]. apply IH.
Qed.

Definition own_of (k : nat) : str := match k with 0 => [] | S k => repeat 32%N (4 * k) ++ utf8 "└── " end.

Lemma pad_succ k : repeat 32%N (4 * k) ++ utf8 "    " = repeat 32%N (4 * S k).
Proof. replace (4 * S k) with (4 * k + 4) by lia. rewrite repeat_app. reflexivity. Qed.

Lemma dna_lines_picture w : forall k c,
  List.concat (map (fun x => glyphs (fst x) ++ snd x ++ [10%N]) (dna_lines (repeat true k) c w)) = dna_picture (own_of k) (repeat 32%N (4 * k)) c w.
Proof.
  assert (G : forall k, glyphs (repeat true k) = own_of k).
  { intros [|k]; [reflexivity|]. replace (repeat true (S k)) with (repeat true k ++ [true]) by (rewrite <- repeat_cons; reflexivity). apply glyphs_pad. }
  assert (H3 : forall (a b c d : str), a ++ b ++ c ++ d = (a ++ b ++ c) ++ d) by (intros; rewrite !app_assoc; reflexivity).
  induction w as [|c' w IH]; intros k c; cbn [dna_lines map List.concat fst snd dna_picture].
  - rewrite G, !glyphs_pad. unfold line. rewrite <- !app_assoc, app_nil_r. reflexivity.
  - rewrite G, !glyphs_pad. replace (repeat true k ++ [true]) with (repeat true (S k)) by (rewrite <- repeat_cons; reflexivity).
    rewrite IH, pad_succ. unfold line. rewrite <- !app_assoc. cbn [own_of]. reflexivity.
Qed.

Lemma dna_display c w : display_tree (dna_tree c w) = dna_picture [] [] c w.
Proof.
  destruct (C40_tree_display_proof (dna_tree c w)) as (lines & _ & -> & Hu).
  rewrite <- (Hu _ (dna_drawing w [] c)). exact (dna_lines_picture w 0 c).
Qed.

Lemma Forall_dna_dec w : Forall dna_letter w \/ ~ Forall dna_letter w.
Proof. destruct (Forall_dec dna_letter (fun c => in_dec N.eq_dec c (lit "ACGT")) w); auto. Qed.

Lemma first_tree_printed g sentence it : uniquely_matching g -> opens g (N_ "dna") sentence it ->
  (forall input t, parses g (N_ "dna") input t <-> exists c w, input = c :: w /\ Forall dna_letter input /\ t = dna_tree c w) ->
  exists fuel0 out, verdict sentence out /\ forall fuel, fuel0 <= fuel -> exists o it', iter_next fuel it = Ok (o, it') /\
    match o with Some t => line (lit "Parse tree:" ++ [10%N] ++ display_tree t) | None => line (lit "Grammar could not parse the sentence") end = out.
Proof.
  intros Hu Ho Hpar. destruct (quadratic _ _ _ _ _ _ Hu Ho (produces_nil it)) as (_ & [o it'] & E).
  exists (S (traversal_bound g sentence)). destruct o as [t|].
  - assert (Ht : parses g (N_ "dna") sentence t).
    { apply (soundness _ _ _ _ [t] it' t Ho); [econstructor; [exact E|constructor]|left; reflexivity]. }
    apply Hpar in Ht. destruct Ht as (c & w & -> & Hl & ->). eexists. split; [left; split; [exact Hl|reflexivity]|].
    intros fuel Hf. eexists _, _. split; [exact (iter_next_mono _ _ _ _ E Hf)|]. cbn iota. rewrite dna_display. reflexivity.
  - assert (Hno : forall t, ~ parses g (N_ "dna") sentence t).
    { intros t Ht. destruct (exhaustive _ _ _ _ _ _ _ Ho (produces_nil it) (ex_intro _ _ (ex_intro _ _ E)) Ht). }
    eexists. split; [|intros fuel Hf; eexists _, _; split; [exact (iter_next_mono _ _ _ _ E Hf)|reflexivity]].
    destruct sentence as [|c w]; [reflexivity|]. right. split; [|reflexivity]. intro Hl. apply (Hno (dna_tree c w)). apply Hpar. eauto.
Qed.

Lemma dna_parser ho g : g = dna_grammar \/ g = [base_rule; dna_rule] -> exists p, build_parser ho g = ROk p.
Proof.
  intro Hg. apply build_parser_spec. split; [destruct Hg; subst; discriminate|]. intros x Hx.
  assert (Hx' : refers dna_grammar x).
  { destruct Hx as (p & e & Hp & He). exists p, e. split; [|exact He]. destruct Hg; subst; cbn in *; tauto. }
  destruct (dna_defined x Hx') as (p & Hp & El). assert (Hp' : In p g) by (destruct Hg; subst; cbn in *; tauto).
  destruct Hp as [<-|[<-|[]]]; [exists dna_rule, [N_ "base"]|exists base_rule, [T_ "A"]]; split; try exact Hp'; (split; [exact El|left; reflexivity]).
Qed.

Lemma parse_tree_prints alphabetic plain ho text target sentence :
  text = example_text /\ target = None \/ text = reversed_text /\ target = Some (lit "dna") ->
  exists out, verdict sentence out /\ exists fuel0, forall fuel, fuel0 <= fuel ->
  parse_tree_example alphabetic plain ho target text sentence fuel =
    Ok (match target with
        | None => line (lit "Parsing input: " ++ sentence)
        | Some _ => line (lit "Parsing input with <dna>: " ++ sentence)
        end ++ out, []).
Proof.
  intros [[-> ->]|[-> ->]]; unfold parse_tree_example.
  - rewrite (proj1 (example_read alphabetic plain)). cbn [rbind].
    destruct (dna_parser ho dna_grammar (or_introl eq_refl)) as (p & E). rewrite E.
    destruct (proj2 (opens_parser_ok ho dna_grammar p sentence (N_ "dna") E)) as (it & Ei).
    destruct (first_tree_printed dna_grammar sentence it dna_unique) as (fuel0 & out & Hv & H).
    { eapply opens_default; [exact E|reflexivity|exact Ei]. }
    { exact C83_dna_trees_proof. }
    exists out. split; [exact Hv|]. exists fuel0. intros fuel Hf. destruct (H fuel Hf) as (o & it' & Eo & Hout).
    rewrite Ei. cbn [rbind]. rewrite Eo. cbn [rbind]. rewrite <- Hout. reflexivity.
  - rewrite (proj2 (example_read alphabetic plain)). cbn [rbind].
    destruct (dna_parser ho [base_rule; dna_rule] (or_intror eq_refl)) as (p & E). rewrite E.
    destruct (proj1 (opens_parser_ok ho _ p sentence (N_ "dna") E)) as (it & Ei).
    destruct (first_tree_printed _ sentence it reversed_unique) as (fuel0 & out & Hv & H).
    { eapply EarleySpec.opens_with; [exact E|exact Ei]. }
    { exact reversed_parses. }
    exists out. split; [exact Hv|]. exists fuel0. intros fuel Hf. destruct (H fuel Hf) as (o & it' & Eo & Hout).
    change (Nonterminal (lit "dna")) with (N_ "dna"). rewrite Ei. cbn [rbind]. rewrite Eo. cbn [rbind]. rewrite <- Hout. reflexivity.
Qed.

(** ** For the property file *)

Lemma program_texts alphabetic plain :
  grammar_from_str_msg alphabetic (debug_str plain) example_text =
    Ok (ROk [mkProd (N_ "dna") [[N_ "base"]; [N_ "base"; N_ "dna"]]; mkProd (N_ "base") [[T_ "A"]; [T_ "C"]; [T_ "G"]; [T_ "T"]]]) /\
  grammar_from_str_msg alphabetic (debug_str plain) reversed_text =
    Ok (ROk [mkProd (N_ "base") [[T_ "A"]; [T_ "C"]; [T_ "G"]; [T_ "T"]]; mkProd (N_ "dna") [[N_ "base"]; [N_ "base"; N_ "dna"]]]) /\
  grammar_from_str alphabetic polish_text = Ok (ROk polish_grammar) /\
  grammar_from_str alphabetic nullable_text = Ok (ROk nullable_grammar).
Proof.
  split; [exact (proj1 (example_read alphabetic plain))|]. split; [exact (proj2 (example_read alphabetic plain))|].
  split; [apply polish_read|apply nullable_read].
Qed.

Lemma polish_tree_inj e : forall e', polish_tree e = polish_tree e' -> e = e'.
Proof.
  induction e as [c|o x IHx y IHy]; intros [c'|o' x' y'] H; try discriminate.
  - injection H as ->. reflexivity.
  - change (Node (N_ "product") [Sub (Node (N_ "op") [Leaf [o]]); Sub (polish_tree x); Sub (polish_tree y)] =
            Node (N_ "product") [Sub (Node (N_ "op") [Leaf [o']]); Sub (polish_tree x'); Sub (polish_tree y')]) in H.
    inversion H as [[E1 E2 E3]]. rewrite (IHx _ E2), (IHy _ E3). reflexivity.
Qed.

Lemma polish_injective e e' : well_spelled e -> well_spelled e' -> spelled e = spelled e' -> e = e'.
Proof.
  intros He He' E. apply polish_tree_inj.
  eapply predictive_one; [exact polish_predictive|apply polish_parses; exists e; split; [exact He|]; split; reflexivity|].
  apply polish_parses. exists e'. auto.
Qed.

Lemma polish_work input it ts it1 : opens polish_grammar (N_ "product") input it -> produces it ts it1 ->
  List.length (tt_arena (s_tree (it_state it1))) <= 34 * S (List.length input).
Proof. intros Ho Hp. exact (proj1 (proj2 (C83_linear_proof _ _ _ _ _ _ polish_predictive polish_nodup Ho Hp))). Qed.

Lemma cycle_taken it : opens nullable_grammar (N_ "a") [] it -> forall k,
  (exists fuel0 it', forall fuel, fuel0 <= fuel -> take_trees fuel k it = Ok (map tower (seq 0 k), it')) /\
  list_sum (map lookups (map tower (seq 0 k))) = 4 * (k * k).
Proof. intros Ho k. split; [exact (towers_taken it Ho k)|apply towers_lookups]. Qed.
