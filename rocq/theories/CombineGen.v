(** Texts generated from grammars put together from others. *)
From Verif Require Export CombineProofs.
From Verif Require Import EarleyMain ParseExamples StrategyProofs Facts_Generation.
From Coq Require String.
Import String.StringSyntax.

Lemma makes_accepts a g w : tidy a g -> (makes g w <-> accepts g a w).
Proof.
  intros ((p & rest & E & Hl) & Hd & Hne & Hr). split.
  - intros (script & fuel & H). apply accepts_iff.
    destruct (C16_generated_sentences_proof _ _ _ _ _ _ _ _ (lawful_random_walk script_rng) H) as (n & q & rest' & E' & Hl' & Hx).
    rewrite E in E'. injection E' as <- <-. rewrite Hl in Hl'. injection Hl' as <-.
    destruct (proj1 (expansion_derives g _ Hr) _ _ Hx a eq_refl) as (t & H1 & H2 & H3); [exists p; subst g; split; [left; reflexivity|exact Hl]|].
    exists t. split; [exact H1|]. split; assumption.
  - intro H. apply accepts_iff in H. apply generates_parses in H.
    destruct (every_sentence g a p rest w E Hl Hd Hne H) as (script & k & Hk). exists script, k. apply Hk. constructor.
Qed.

Lemma tidy_lhs a g : tidy a g -> has_lhs g a.
Proof. intros ((p & rest & -> & E) & _). exists p. split; [left; reflexivity|exact E]. Qed.

Lemma refers_cons r g x : refers (r :: g) x -> (exists e, In e (p_rhs r) /\ In (Nonterminal x) e) \/ refers g x.
Proof. intros (p & e & [<-|Hp] & He & Hx); [left; eauto|right; exists p, e; auto]. Qed.
Lemma refers_app g h x : refers (g ++ h) x -> refers g x \/ refers h x.
Proof. intros (p & e & Hp & He & Hx). apply in_app_iff in Hp. destruct Hp; [left|right]; exists p, e; auto. Qed.

(** A new first rule. *)
Lemma tidy_new n rhs g : rhs <> [[]] -> ~ has_lhs g n -> distinct_lhs g -> no_lone_epsilon g ->
  (forall x, refers g x -> has_lhs g x) -> (forall e x, In e rhs -> In (Nonterminal x) e -> x = n \/ has_lhs g x) ->
  tidy n (mkProd (Nonterminal n) rhs :: g).
Proof.
  intros Hne Hn Hd Hl Hr Hx. split; [eexists _, _; split; reflexivity|]. split; [|split].
  - unfold distinct_lhs. cbn [map p_lhs]. constructor; [|exact Hd]. intro H. apply in_map_iff in H. destruct H as (p & E & Hp).
    apply Hn. exists p. auto.
  - intros p [<-|Hp]; [exact Hne|apply Hl; exact Hp].
  - intros x H. apply has_lhs_cons. apply refers_cons in H. destruct H as [(e & He & Hin)|H]; [|right; auto].
    destruct (Hx e x He Hin) as [->|H]; [left; reflexivity|right; exact H].
Qed.

Lemma tidy_two n a b g h rhs : tidy a g -> tidy b h -> ~ has_lhs (g ++ h) n -> distinct_lhs (g ++ h) -> rhs <> [[]] ->
  (forall e x, In e rhs -> In (Nonterminal x) e -> x = a \/ x = b) ->
  tidy n (mkProd (Nonterminal n) rhs :: g ++ h).
Proof.
  intros Ha Hb Hn Hd Hne Hx. pose proof (tidy_lhs _ _ Ha). pose proof (tidy_lhs _ _ Hb).
  destruct Ha as (_ & _ & Hl & Hr), Hb as (_ & _ & Hl' & Hr'). apply tidy_new; auto.
  - intros p Hp. apply in_app_iff in Hp. destruct Hp; auto.
  - intros x Hf. apply has_lhs_app. apply refers_app in Hf. destruct Hf; auto.
  - intros e x He Hin. right. apply has_lhs_app. destruct (Hx e x He Hin) as [->| ->]; auto.
Qed.

Lemma mirror_lhs g x : has_lhs g x -> has_lhs (mirror g) x.
Proof. intros (p & Hp & E). eexists. split; [apply in_map; exact Hp|exact E]. Qed.
Lemma mirror_refers g x : refers (mirror g) x -> refers g x.
Proof.
  intros (p & e & Hp & He & Hx). apply in_map_iff in Hp. destruct Hp as (q & <- & Hq). cbn [p_rhs] in He.
  apply in_map_iff in He. destruct He as (e' & <- & He'). exists q, e'. split; [exact Hq|]. split; [exact He'|].
  unfold mirror_expression in Hx. apply in_rev, in_map_iff in Hx. destruct Hx as (t & E & Ht).
  destruct t as [s|m]; [discriminate|]. cbn in E. rewrite <- E. exact Ht.
Qed.
Lemma tidy_mirror a g : tidy a g -> tidy a (mirror g).
Proof.
  intros ((p & rest & E & Hl) & Hd & Hne & Hr). split; [subst g; eexists _, _; split; [reflexivity|exact Hl]|]. split; [|split].
  - unfold distinct_lhs, mirror. rewrite map_map. exact Hd.
  - intros q Hq. apply in_map_iff in Hq. destruct Hq as (q' & <- & Hq'). cbn [p_rhs]. specialize (Hne q' Hq').
    intro H. apply Hne. destruct (p_rhs q') as [|e [|e' l]]; try discriminate H. cbn [map] in H. injection H as H.
    unfold mirror_expression in H. apply (f_equal (@List.length _)) in H. rewrite rev_length, map_length in H.
    destruct e; [reflexivity|discriminate H].
  - intros x H. apply mirror_lhs, Hr, mirror_refers, H.
Qed.

Lemma combined_makes n a b g h w : tidy a g -> tidy b h -> separate n a b g h -> distinct_lhs (g ++ h) ->
  (makes (either n a b g h) w <-> makes g w \/ makes h w) /\
  (makes (in_sequence n a b g h) w <-> exists x y, w = x ++ y /\ makes g x /\ makes h y) /\
  (makes (repeated n a g) w <-> exists ws, w = concat ws /\ Forall (makes g) ws) /\
  (makes (mirror g) (rev w) <-> makes g w).
Proof.
  intros Ha Hb Hs Hd. pose proof Hs as (_ & _ & Hca & _ & Hn).
  pose proof (fun w => makes_accepts a g w Ha) as Ea. pose proof (fun w => makes_accepts b h w Hb) as Eb.
  assert (Hng : ~ has_lhs g n) by (intro H; apply Hn, has_lhs_app; auto).
  split; [|split; [|split]].
  - rewrite (makes_accepts n), Ea, Eb, !accepts_iff.
    + split.
      * intros (t & H). apply either_parses in H; [|exact Hs]. destruct H as (u & _ & [H|H]); eauto.
      * intros [(u & H)|(u & H)]; exists (Node (Nonterminal n) [Sub u]); apply either_parses; eauto.
    + unfold either. apply (tidy_two n a b); auto; [discriminate|]. intros e x [<-|[<-|[]]] [E|[]]; injection E as <-; auto.
  - rewrite (makes_accepts n), accepts_iff.
    + split.
      * intros (t & H). apply sequence_parses in H; [|exact Hs]. destruct H as (u & v & x & y & _ & E & H1 & H2).
        exists x, y. rewrite Ea, Eb, !accepts_iff. eauto.
      * intros (x & y & E & H1 & H2). rewrite Ea in H1. rewrite Eb in H2. rewrite accepts_iff in H1, H2.
        destruct H1 as [u H1], H2 as [v H2]. exists (Node (Nonterminal n) [Sub u; Sub v]). apply sequence_parses; [exact Hs|].
        exists u, v, x, y. auto.
    + unfold in_sequence. apply (tidy_two n a b); auto; [discriminate|]. intros e x [<-|[]] [E|[E|[]]]; injection E as <-; auto.
  - rewrite (makes_accepts n), (repeated_accepts n a g w Hca Hng).
    + split; intros (ws & E & H); exists ws; (split; [exact E|]); revert H; apply Forall_impl; intros x; apply Ea.
    + unfold repeated. pose proof (tidy_lhs _ _ Ha). destruct Ha as (_ & Hdg & Hl & Hr). apply tidy_new; auto; [discriminate|].
      intros e x [<-|[<-|[]]] Hx; repeat destruct Hx as [Hx|Hx]; try discriminate; try contradiction; injection Hx as <-; auto.
  - rewrite (makes_accepts a), Ea, !accepts_iff by (apply tidy_mirror; exact Ha). split.
    + intros (t & H). exists (mirror_tree t). apply mirror_parses. rewrite mirror_mirror_tree. exact H.
    + intros (t & H). exists (mirror_tree t). apply mirror_parses. exact H.
Qed.

Lemma combined_makes_examples :
  tidy (lit "e") sum_grammar /\ tidy (lit "d") plus_grammar /\ separate (lit "s") (lit "e") (lit "d") sum_grammar plus_grammar /\
  distinct_lhs (sum_grammar ++ plus_grammar) /\
  generate_random script_rng (fun _ _ => true) (in_sequence (lit "s") (lit "e") (lit "d") sum_grammar plus_grammar) 20 [0; 0; 1; 1; 1; 0]
    = Ok (ROk (lit "a+a+a+a"), []) /\
  generate_random script_rng (fun _ _ => true) (repeated (lit "s") (lit "e") sum_grammar) 20 [1; 1; 1; 0; 1; 1; 0]
    = Ok (ROk (lit "aa+a"), []).
Proof.
  assert (T : forall a g, (exists p rest, g = p :: rest /\ p_lhs p = Nonterminal a) -> NoDup (map p_lhs g) ->
    (forall p, In p g -> p_rhs p <> [[]]) -> (forall p e x, In p g -> In e (p_rhs p) -> In (Nonterminal x) e -> x = a) -> tidy a g).
  { intros a g H1 H2 H3 H4. split; [exact H1|]. split; [exact H2|]. split; [exact H3|]. intros x (p & e & Hp & He & Hx).
    rewrite (H4 p e x Hp He Hx). destruct H1 as (q & rest & -> & E). exists q. split; [left; reflexivity|exact E]. }
  split; [apply T|split; [apply T|split; [exact sum_plus_separate|split; [|split]]]].
  - eexists _, _. split; reflexivity.
  - repeat constructor. intros [].
  - intros p [<-|[]]; discriminate.
  - intros p e x [<-|[]] [<-|[<-|[]]] Hx; cbn in Hx; repeat destruct Hx as [Hx|Hx]; try discriminate; try contradiction; injection Hx as <-; reflexivity.
  - eexists _, _. split; reflexivity.
  - repeat constructor. intros [].
  - intros p [<-|[]]; discriminate.
  - intros p e x [<-|[]] [<-|[<-|[]]] Hx; cbn in Hx; repeat destruct Hx as [Hx|Hx]; try discriminate; try contradiction; injection Hx as <-; reflexivity.
  - unfold distinct_lhs. cbn. repeat constructor; cbn; intuition discriminate.
  - vm_compute. reflexivity.
  - vm_compute. reflexivity.
Qed.
