(** Grammars that generation cannot tell apart: added, exchanged and renamed rules. *)
From Verif Require Export GenSameProofs.
From Verif Require Import GenProofs DocProofs EarleySpec Facts_Rename.

(** ** First productions *)

Definition about (n : str) (p : production) : bool := term_eqb (p_lhs p) (Nonterminal n).

Lemma find_app' {A} (f : A -> bool) a b : find f (a ++ b) = match find f a with Some x => Some x | None => find f b end.
Proof. induction a as [|x a IH]; cbn; [reflexivity|]. destruct (f x); [reflexivity|exact IH]. Qed.

Lemma find_production_find g n : forall ix, option_map snd (find_production g n ix) = find (about n) g.
Proof.
  induction g as [|p g IH]; intro ix; cbn; [reflexivity|]. unfold about at 1. destruct (term_eqb (p_lhs p) (Nonterminal n)); [reflexivity|apply IH].
Qed.

Lemma first_for_find g n p : first_for g n p <-> find (about n) g = Some p.
Proof.
  rewrite <- (find_production_find g n 0). split.
  - intro H. apply find_production_first in H. destruct H as [i ->]. reflexivity.
  - destruct (find_production g n 0) as [[i q]|] eqn:E; cbn; [|discriminate]. intro H. injection H as <-.
    apply (find_production_Some _ _ _ _ _ E).
Qed.

Lemma has_lhs_find g n : ~ has_lhs g n <-> find (about n) g = None.
Proof.
  rewrite <- (find_production_find g n 0). split.
  - intro H. rewrite (find_production_undefined g n H 0). reflexivity.
  - destruct (find_production g n 0) as [[i q]|] eqn:E; cbn; [discriminate|]. intros _. exact (find_production_None _ _ _ E).
Qed.

Lemma map_rename_ids (l : list expression) : map (map (rename (fun n => n))) l = l.
Proof. rewrite <- (map_id l) at 2. apply map_ext. intro e. apply map_rename_id. Qed.

Lemma shows_id g g' start : (forall n, expands_to g start n -> find (about n) g' = find (about n) g) -> shows (fun n => n) g start g'.
Proof.
  intro H. split.
  - intros n p Hn Hp. exists p. rewrite map_rename_ids. split; [|reflexivity]. apply first_for_find. rewrite H by exact Hn. apply first_for_find, Hp.
  - intros n Hn Hu. split; [reflexivity|]. apply has_lhs_find. rewrite H by exact Hn. apply has_lhs_find, Hu.
Qed.

(** ** The guard *)

Lemma derives_incl g g' : incl g g' -> forall t, derives g t -> derives g' t.
Proof.
  intros Hi. fix IH 2. intros t H. destruct H as [p rhs kids Hp Hr Hk]. econstructor; [apply Hi, Hp|exact Hr|].
  clear Hr. revert rhs kids Hk. fix IHk 3. intros rhs kids Hk. destruct Hk as [|s r ks Hk|n t r ks Hrt Hd Hk].
  - constructor.
  - constructor. apply IHk, Hk.
  - constructor; [exact Hrt|apply IH, Hd|apply IHk, Hk].
Qed.

Lemma guard_true g start : begins g start ->
  ((exists fuel, terminates fuel g = Ok true) <-> productive g (Nonterminal start)).
Proof.
  intros (p & rest & Eg & El). assert (Es : starting_term g = Some (Nonterminal start)) by (rewrite Eg; cbn; rewrite El; reflexivity).
  split.
  - intros [fuel H]. pose proof (terminates_spec _ _ _ H) as Hs. rewrite Es in Hs. tauto.
  - intro Hp. destruct (terminates_ends (S (length g)) g (le_n _)) as [b Hb]. exists (S (length g)).
    pose proof (terminates_spec _ _ _ Hb) as Hs. rewrite Es in Hs. rewrite Hb. f_equal. tauto.
Qed.

Lemma guard_incl g g' start : begins g start -> begins g' start -> incl g g' ->
  (exists fuel, terminates fuel g = Ok true) -> exists fuel, terminates fuel g' = Ok true.
Proof.
  intros Hb Hb' Hi H. apply (guard_true g' start Hb'). apply (guard_true g start Hb) in H.
  destruct H as (t & Hd & Hr). exists t. split; [eapply derives_incl; eassumption|exact Hr].
Qed.

Lemma derives_rename h g : forall t, derives g t -> derives (map (rename_production h) g) (rename_tree h t).
Proof.
  fix IH 2. intros t H. destruct H as [p rhs kids Hp Hr Hk]. rewrite rename_tree_Node.
  change (rename h (p_lhs p)) with (p_lhs (rename_production h p)).
  apply (derives_node _ (rename_production h p) (map (rename h) rhs)); [apply in_map, Hp|cbn [rename_production p_rhs]; apply in_map, Hr|].
  clear Hr. revert rhs kids Hk. fix IHk 3. intros rhs kids Hk. destruct Hk as [|s r ks Hk|n t r ks Hrt Hd Hk]; cbn [map rename rename_node].
  - constructor.
  - constructor. apply IHk, Hk.
  - change (rename_node h (Sub t)) with (Sub (rename_tree h t)). constructor; [|apply IH, Hd|apply IHk, Hk].
    destruct t as [l tks]. cbn [root] in *. rewrite rename_tree_Node. cbn [root]. rewrite Hrt. reflexivity.
Qed.

(** ** The cases *)

Lemma same_firsts g g' start f :
  (forall n, expands_to g start n -> forall p, first_for g n p <-> first_for g' n p) ->
  begins g start -> begins g' start ->
  (exists fuel, terminates fuel g = Ok true) -> (exists fuel, terminates fuel g' = Ok true) ->
  same_generation g f g' f.
Proof.
  intros H Hb Hb' Hg Hg'. apply (same_generation_shows (fun n => n) g g' start); try assumption; auto.
  - apply shows_id. intros n Hn. specialize (H n Hn).
    destruct (find (about n) g) as [p|] eqn:E.
    + apply first_for_find, H, first_for_find, E.
    + destruct (find (about n) g') as [p|] eqn:E'; [|reflexivity]. apply first_for_find, H, first_for_find in E'. congruence.
  - intros n m _ _ E. exact E.
Qed.

Lemma first_in_front g1 g2 n p : first_for (g1 ++ g2) n p <-> first_for g1 n p \/ (~ has_lhs g1 n /\ first_for g2 n p).
Proof.
  rewrite !first_for_find, find_app'. rewrite has_lhs_find. destruct (find (about n) g1) as [q|]; intuition congruence.
Qed.

Lemma begins_app g1 g2 n : begins g1 n -> begins (g1 ++ g2) n.
Proof. intros (p & rest & -> & El). exists p, (rest ++ g2). auto. Qed.

Lemma added_same g1 extra g2 start f : begins g1 start ->
  (forall q m, In q extra -> p_lhs q = Nonterminal m -> expands_to (g1 ++ g2) start m -> has_lhs g1 m) ->
  (exists fuel, terminates fuel (g1 ++ g2) = Ok true) ->
  same_generation (g1 ++ g2) f (g1 ++ extra ++ g2) f.
Proof.
  intros Hb He Hg. apply (same_firsts _ _ start).
  - intros n Hn p. rewrite !first_in_front. split; (intros [H|[H1 H2]]; [left; exact H|right; split; [exact H1|]]).
    + right. split; [|exact H2]. intros (q & Hq & Hl). exact (H1 (He q n Hq Hl Hn)).
    + destruct H2 as [H2|[_ H2]]; [|exact H2]. exfalso. apply H1. destruct (first_for_In _ _ _ H2) as [Hq Hl]. exact (He p n Hq Hl Hn).
  - apply begins_app, Hb.
  - apply begins_app, Hb.
  - exact Hg.
  - apply (guard_incl (g1 ++ g2) _ start); [apply begins_app, Hb|apply begins_app, Hb| |exact Hg].
    intros x Hx. rewrite !in_app_iff in *. tauto.
Qed.

Lemma exchanged_same g1 a b g2 start f : begins g1 start -> p_lhs a <> p_lhs b ->
  (exists fuel, terminates fuel (g1 ++ a :: b :: g2) = Ok true) ->
  same_generation (g1 ++ a :: b :: g2) f (g1 ++ b :: a :: g2) f.
Proof.
  intros Hb Hab Hg. apply (same_firsts _ _ start).
  - intros n Hn p. rewrite !first_for_find, !find_app'. destruct (find (about n) g1); [reflexivity|]. cbn [find].
    destruct (about n a) eqn:Ea, (about n b) eqn:Eb; try reflexivity.
    apply term_eqb_eq in Ea, Eb. congruence.
  - apply begins_app, Hb.
  - apply begins_app, Hb.
  - exact Hg.
  - apply (guard_incl (g1 ++ a :: b :: g2) _ start); [apply begins_app, Hb|apply begins_app, Hb| |exact Hg].
    intros x Hx. rewrite !in_app_iff in *. cbn [In] in *. tauto.
Qed.

Lemma find_renamed h (Hinj : forall a b, h a = h b -> a = b) g n :
  find (about (h n)) (map (rename_production h) g) = option_map (rename_production h) (find (about n) g).
Proof.
  induction g as [|p g IH]; cbn [map find]; [reflexivity|].
  assert (E : about (h n) (rename_production h p) = about n p).
  { unfold about. cbn [rename_production p_lhs]. destruct (p_lhs p) as [s|m]; [reflexivity|]. cbn [rename].
    destruct (term_eqb (Nonterminal m) (Nonterminal n)) eqn:E2.
    - apply term_eqb_eq in E2. injection E2 as ->. apply term_eqb_refl.
    - destruct (term_eqb (Nonterminal (h m)) (Nonterminal (h n))) eqn:E3; [|reflexivity].
      apply term_eqb_eq in E3. injection E3 as E3. apply Hinj in E3. subst m. rewrite term_eqb_refl in E2. discriminate. }
  rewrite E. destruct (about n p); [reflexivity|exact IH].
Qed.

Lemma renamed_same h g start f f' : (forall a b, h a = h b -> a = b) -> begins g start ->
  (forall n, expands_to g start n -> ~ has_lhs g n -> h n = n) ->
  (exists fuel, terminates fuel g = Ok true) -> (forall n s, expands_to g start n -> f' (h n) s = f n s) ->
  same_generation g f (map (rename_production h) g) f'.
Proof.
  intros Hinj Hb Hu Hg Hf.
  assert (Hb' : begins (map (rename_production h) g) (h start)).
  { destruct Hb as (p & rest & -> & El). exists (rename_production h p), (map (rename_production h) rest).
    split; [reflexivity|]. cbn [rename_production p_lhs]. rewrite El. reflexivity. }
  apply (same_generation_shows h g _ start); try assumption.
  - split.
    + intros n p _ Hp. exists (rename_production h p). split; [|reflexivity].
      apply first_for_find. rewrite (find_renamed h Hinj). apply first_for_find in Hp. rewrite Hp. reflexivity.
    + intros n Hn Hno. split; [exact (Hu n Hn Hno)|]. apply has_lhs_find. rewrite <- (Hu n Hn Hno) at 1.
      rewrite (find_renamed h Hinj). apply has_lhs_find in Hno. rewrite Hno. reflexivity.
  - intros n m _ _. apply Hinj.
  - apply (guard_true _ _ Hb'). apply (guard_true _ _ Hb) in Hg. destruct Hg as (t & Hd & Hr). exists (rename_tree h t).
    split; [apply derives_rename, Hd|]. destruct t as [l ks]. rewrite rename_tree_Node. cbn [root] in *. rewrite Hr. reflexivity.
Qed.

(** ** What can be observed *)
From Verif Require Import ParseExamples.
From Coq Require String.
Import String.StringSyntax.

Definition twice : grammar := [mkProd (N_ "s") [[N_ "a"]]].
Definition rule_x : production := mkProd (N_ "a") [[T_ "x"]].
Definition rule_y : production := mkProd (N_ "a") [[T_ "y"]].

Lemma order_visible : exists g1 a b start, begins g1 start /\ p_lhs a = p_lhs b /\
  (exists fuel, terminates fuel (g1 ++ [a; b]) = Ok true) /\
  ~ same_generation (g1 ++ [a; b]) (fun _ _ => true) (g1 ++ [b; a]) (fun _ _ => true).
Proof.
  exists twice, rule_x, rule_y, (lit "s"). split; [exists (mkProd (N_ "s") [[N_ "a"]]), []; split; reflexivity|].
  split; [reflexivity|]. split; [exists 5; reflexivity|]. intro H.
  destruct (H _ script_rng [] [] (ROk (lit "x"))) as [[H1 _] _].
  destruct H1 as [fuel H1]; [exists 5; reflexivity|].
  assert (H2 : generate (random_walk script_rng) (pure_callback (fun _ _ => true)) (twice ++ [rule_y; rule_x]) 5 [] = Ok (ROk (lit "y"), []))
    by reflexivity.
  apply (generate_mono _ _ _ fuel (fuel + 5)) in H1; [|lia]. apply (generate_mono _ _ _ 5 (fuel + 5)) in H2; [|lia]. 
  rewrite H1 in H2. discriminate.
Qed.

(** The name of a nonterminal without a rule is printed. *)
Lemma name_visible : exists h g start, (forall a b : str, h a = h b -> a = b) /\ begins g start /\
  (exists fuel, terminates fuel g = Ok true) /\
  ~ same_generation g (fun _ _ => true) (map (rename_production h) g) (fun _ _ => true).
Proof.
  exists (cons 33%N), [mkProd (N_ "s") [[N_ "a"]; [T_ "b"]]], (lit "s"). split; [intros a b E; injection E as E; exact E|].
  split; [exists (mkProd (N_ "s") [[N_ "a"]; [T_ "b"]]), []; split; reflexivity|].
  split; [exists 5; reflexivity|]. intro H.
  destruct (H _ script_rng [0] [] (ROk (lit "a"))) as [[H1 _] _].
  destruct H1 as [fuel H1]; [exists 5; reflexivity|].
  assert (H2 : generate (random_walk script_rng) (pure_callback (fun _ _ => true))
    (map (rename_production (cons 33%N)) [mkProd (N_ "s") [[N_ "a"]; [T_ "b"]]]) 5 [0] = Ok (ROk (lit "!a"), [])) by reflexivity.
  apply (generate_mono _ _ _ fuel (fuel + 5)) in H1; [|lia]. apply (generate_mono _ _ _ 5 (fuel + 5)) in H2; [|lia]. 
  rewrite H1 in H2. discriminate.
Qed.

(** ** An example *)

(** [s ::= "a" s | b u]; a second rule for [s] and a rule for [z] that nothing mentions; [b ::= "c" | "d"]. *)
Definition front : grammar := [mkProd (N_ "s") [[T_ "a"; N_ "s"]; [N_ "b"; N_ "u"]; [T_ "e"]]].
Definition middle : grammar := [mkProd (N_ "s") [[T_ "q"]]; mkProd (N_ "z") [[N_ "s"]]].
Definition back : grammar := [mkProd (N_ "b") [[T_ "c"]; [T_ "d"]]].

Definition shown (x : res (result str * coverage)) : option (str * list nat * list (nat * nat)) :=
  match x with Ok (ROk w, c) => Some (w, c_rng c, c_seen c) | _ => None end.

Lemma front_expands n : expands_to (front ++ back) (lit "s") n -> n = lit "s" \/ n = lit "b" \/ n = lit "u".
Proof.
  intro H. apply clos_rt_rtn1 in H. induction H as [|y z Hy Hr IH]; [auto|].
  destruct Hy as (p & e & Hp & He & Hz). destruct (first_for_In _ _ _ Hp) as [Hi _]. clear Hp IH Hr.
  cbn in Hi. destruct Hi as [<-|[<-|[]]]; cbn in He;
    repeat (destruct He as [<-|He]; [cbn in Hz; intuition (try discriminate); match goal with H : _ = Nonterminal z |- _ => injection H as <-; auto end|]);
    destruct He.
Qed.

Lemma example_same :
  begins front (lit "s") /\
  (forall q m, In q middle -> p_lhs q = Nonterminal m -> expands_to (front ++ back) (lit "s") m -> has_lhs front m) /\
  terminates 5 (front ++ back) = Ok true /\
  generate_random script_rng (fun _ _ => true) (front ++ back) 9 [0; 1; 1] = Ok (ROk (lit "adu"), []) /\
  generate_random script_rng (fun _ _ => true) (front ++ middle ++ back) 9 [0; 1; 1] = Ok (ROk (lit "adu"), []) /\
  shown (generate_with_strategy (coverage_guided script_rng) (front ++ back) 9 (mkCov [] [0; 0; 1])) =
    Some (lit "adu", [], [(1, 1); (0, 1); (0, 0)]) /\
  shown (generate_with_strategy (coverage_guided script_rng) (front ++ middle ++ back) 9 (mkCov [] [0; 0; 1])) =
    Some (lit "adu", [], [(3, 1); (0, 1); (0, 0)]).
Proof.
  split; [eexists _, []; split; reflexivity|]. split.
  - intros q m Hq Hl Hm. apply front_expands in Hm. cbn in Hq. destruct Hq as [<-|[<-|[]]]; cbn in Hl; injection Hl as <-.
    + exists (mkProd (N_ "s") [[T_ "a"; N_ "s"]; [N_ "b"; N_ "u"]; [T_ "e"]]). split; [left; reflexivity|reflexivity].
    + exfalso. destruct Hm as [H|[H|H]]; discriminate.
  - repeat split; vm_compute; reflexivity.
Qed.
