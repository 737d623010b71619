(** Rules without left recursion. *)
From Verif Require Export LeftSpec.
From Verif Require Import EarleyInv EarleyMain ExtendProofs CombineProofs CombineGen SimplifyProofs SimplifyEnds.
From Coq Require Import Lia.

Lemma seq_terminal g s v : seq_generates g [Terminal s] v <-> v = s.
Proof.
  rewrite seq_kids. split.
  - intros (ks & H & <-). inversion H as [|s' r k Hk|]; subst. inversion Hk; subst. unfold yields. cbn. apply app_nil_r.
  - intros ->. exists [Leaf s]. split; [repeat constructor|]. unfold yields. cbn. apply app_nil_r.
Qed.
Lemma generates_tree g n v : generates g n v <-> exists t, derives g t /\ root t = Nonterminal n /\ yield t = v.
Proof.
  rewrite generates_seq, seq_kids. split.
  - intros (ks & H & <-). inversion H as [| |n' t r k Hr Hd Hk]; subst. inversion Hk; subst. exists t. split; [exact Hd|]. split; [exact Hr|].
    unfold yields. cbn [flat_map yield_node]. rewrite app_nil_r. reflexivity.
  - intros (t & Hd & Hr & <-). exists [Sub t]. split; [constructor; [exact Hr|exact Hd|constructor]|]. unfold yields. cbn [flat_map yield_node]. apply app_nil_r.
Qed.

Lemma yield_snoc l (k : list pnode) (t : ptree) : yield (Node l (k ++ [Sub t]) : ptree) = yields k ++ yield t.
Proof. exact (yields_snoc k (Sub t)). Qed.

(** Sequences, if their names generate the same. *)
Lemma seq_same g h (P : str -> Prop) e ks : kids_match g e ks -> (forall n, In (Nonterminal n) e -> P n) ->
  (forall t n, In (Sub t) ks -> derives g t -> root t = Nonterminal n -> P n -> generates h n (yield t)) -> seq_generates h e (yields ks).
Proof.
  intro H. induction H as [|s r ks H IH|n t r ks Hr Hd H IH]; intros HP Hk; [apply seq_nil| |]; apply seq_cons.
  - exists s, (yields ks). split; [reflexivity|]. split; [apply seq_terminal; reflexivity|]. apply IH; [intros m Hm; apply HP; right; exact Hm|].
    intros t m Ht. apply Hk. right. exact Ht.
  - exists (yield t), (yields ks). split; [reflexivity|]. split; [apply generates_seq, (Hk t n); [left; reflexivity|exact Hd|exact Hr|apply HP; left; reflexivity]|].
    apply IH; [intros m Hm; apply HP; right; exact Hm|]. intros u m Ht. apply Hk. right. exact Ht.
Qed.

Section Left.
Context (g1 : grammar) (a b : str) (xs ys : list expression) (g2 : grammar).
Let g := left_rules g1 a xs ys g2.
Let g' := right_rules g1 a b xs ys g2.
Context (Ha : ~ has_lhs (g1 ++ g2) a) (Hb : ~ has_lhs g b) (Hr : ~ refers g b).

Lemma different : a <> b.
Proof. intros ->. apply Hb. eexists. split; [apply in_app_iff; right; left; reflexivity|reflexivity]. Qed.

Lemma left_alternatives n e : In e (alternatives g (Nonterminal n)) <->
  n <> a /\ In e (alternatives (g1 ++ g2) (Nonterminal n)) \/ n = a /\ ((exists x, In x xs /\ e = Nonterminal a :: x) \/ In e ys).
Proof.
  rewrite !in_alternatives_iff. split.
  - intros (p & Hp & Hl & He). apply in_app_iff in Hp. destruct Hp as [Hp|[<-|Hp]].
    + left. split; [intros ->; apply Ha; exists p; split; [apply in_app_iff; left; exact Hp|exact Hl]|]. exists p. split; [apply in_app_iff; left; exact Hp|auto].
    + right. cbn in Hl, He. injection Hl as ->. split; [reflexivity|]. apply in_app_iff in He. destruct He as [He|He]; [|right; exact He]. left.
      apply in_map_iff in He. destruct He as (x & <- & Hx). exists x. auto.
    + left. split; [intros ->; apply Ha; exists p; split; [apply in_app_iff; right; exact Hp|exact Hl]|]. exists p. split; [apply in_app_iff; right; exact Hp|auto].
  - intros [(Hn & p & Hp & Hl & He)|(-> & He)].
    + exists p. split; [|auto]. apply in_app_iff in Hp. apply in_app_iff. destruct Hp as [Hp|Hp]; [left; exact Hp|right; right; exact Hp].
    + eexists. split; [apply in_app_iff; right; left; reflexivity|]. split; [reflexivity|]. cbn. apply in_app_iff. destruct He as [(x & Hx & ->)|He]; [left|right; exact He].
      apply in_map. exact Hx.
Qed.

Lemma right_alternatives n e : In e (alternatives g' (Nonterminal n)) <->
  n <> a /\ n <> b /\ In e (alternatives (g1 ++ g2) (Nonterminal n)) \/ n = a /\ (exists y, In y ys /\ e = y ++ [Nonterminal b]) \/
  n = b /\ ((exists x, In x xs /\ e = x ++ [Nonterminal b]) \/ e = [Terminal []]).
Proof.
  rewrite !in_alternatives_iff. split.
  - intros (p & Hp & Hl & He). apply in_app_iff in Hp.
    assert (O : In p (g1 ++ g2) -> n <> a /\ n <> b /\ exists p, In p (g1 ++ g2) /\ p_lhs p = Nonterminal n /\ In e (p_rhs p)).
    { intro Hin. split; [intros ->; apply Ha; exists p; auto|]. split; [|exists p; auto]. intros ->. apply Hb. exists p. split; [|exact Hl].
      apply in_app_iff in Hin. apply in_app_iff. destruct Hin as [Hin|Hin]; [left; exact Hin|right; right; exact Hin]. }
    destruct Hp as [Hp|[<-|[<-|Hp]]]; [left; apply O, in_app_iff; left; exact Hp| | |left; apply O, in_app_iff; right; exact Hp].
    + right. left. cbn in Hl, He. injection Hl as ->. split; [reflexivity|]. apply in_map_iff in He. destruct He as (y & <- & Hy). exists y. auto.
    + right. right. cbn in Hl, He. injection Hl as ->. split; [reflexivity|]. apply in_app_iff in He. destruct He as [He|[<-|[]]]; [left|right; reflexivity].
      apply in_map_iff in He. destruct He as (x & <- & Hx). exists x. auto.
  - intros [(Hn & _ & p & Hp & Hl & He)|[(-> & y & Hy & ->)|(-> & He)]].
    + exists p. split; [|auto]. apply in_app_iff in Hp. apply in_app_iff. destruct Hp as [Hp|Hp]; [left; exact Hp|right; right; right; exact Hp].
    + eexists. split; [apply in_app_iff; right; left; reflexivity|]. split; [reflexivity|]. cbn. apply in_map_iff. exists y. auto.
    + eexists. split; [apply in_app_iff; right; right; left; reflexivity|]. split; [reflexivity|]. cbn. apply in_app_iff.
      destruct He as [(x & Hx & ->)| ->]; [left; apply in_map_iff; exists x; auto|right; left; reflexivity].
Qed.

Lemma names_old l e m : In e (alternatives g l) -> In (Nonterminal m) e -> m <> b.
Proof. intros He Hm ->. apply in_alternatives_iff in He. destruct He as (p & Hp & _ & He). apply Hr. exists p, e. auto. Qed.
Lemma names_x x m : In x xs -> In (Nonterminal m) x -> m <> b.
Proof. intros Hx Hm. apply (names_old (Nonterminal a) (Nonterminal a :: x)); [apply left_alternatives; right; split; [reflexivity|left; exists x; auto]|right; exact Hm]. Qed.
Lemma names_y y m : In y ys -> In (Nonterminal m) y -> m <> b.
Proof. intros Hy Hm. apply (names_old (Nonterminal a) y); [apply left_alternatives; right; split; [reflexivity|right; exact Hy]|exact Hm]. Qed.

Lemma right_end : generates g' b [].
Proof. apply generates_seq, seq_name. exists [Terminal []]. split; [apply right_alternatives; right; right; split; [reflexivity|right; reflexivity]|]. apply seq_terminal. reflexivity. Qed.
Lemma right_more x u r : In x xs -> seq_generates g' x u -> generates g' b r -> generates g' b (u ++ r).
Proof.
  intros Hx Hu Hr'. apply generates_seq, seq_name. exists (x ++ [Nonterminal b]). split; [apply right_alternatives; right; right; split; [reflexivity|left; exists x; auto]|].
  apply seq_app. exists u, r. auto.
Qed.

(** One more at the end. *)
Lemma right_last t : derives g' t -> root t = Nonterminal b -> forall x v, In x xs -> seq_generates g' x v -> generates g' b (yield t ++ v).
Proof.
  induction t as [l ks IH] using tree_ind'. intros Hd Hl x v Hx Hv. cbn [root] in Hl. subst l. apply derives_alternative in Hd. destruct Hd as (e & He & Hk).
  apply right_alternatives in He. destruct He as [(_ & N & _)|[(E & _)|(_ & [(x0 & Hx0 & ->)| ->])]].
  - contradiction N; reflexivity.
  - destruct (different (eq_sym E)).
  - apply kids_match_app_inv in Hk. destruct Hk as (k1 & k2 & -> & H1 & H2). inversion H2 as [| |n t r k Hrt Hdt Hk]; subst. inversion Hk; subst.
    rewrite yield_snoc, <- app_assoc. apply (right_more x0); [exact Hx0| |].
    + apply seq_kids. eauto.
    + apply (IH t) with (x := x); [apply in_app_iff; right; left; reflexivity|exact Hdt|exact Hrt|exact Hx|exact Hv].
  - inversion Hk as [|s r k Hk'|]; subst. inversion Hk'; subst. cbn [yield flat_map yield_node app]. rewrite <- (app_nil_r v). apply (right_more x); [exact Hx|exact Hv|apply right_end].
Qed.

Lemma forward t : derives g t -> forall n, root t = Nonterminal n ->
  (n = a -> exists u r y, yield t = u ++ r /\ In y ys /\ seq_generates g' y u /\ generates g' b r) /\ generates g' n (yield t).
Proof.
  induction t as [l ks IH] using tree_ind'. intros Hd n Hl. cbn [root] in Hl. subst l. apply derives_alternative in Hd. destruct Hd as (e & He & Hk).
  assert (S : forall e0 k0, kids_match g e0 k0 -> (forall t, In (Sub t) k0 -> In (Sub t) ks) -> seq_generates g' e0 (yields k0)).
  { intros e0 k0 Hk0 Hin. apply (seq_same g g' (fun _ => True) e0 k0 Hk0); [auto|]. intros t m Ht Hdt Hrt _. apply (IH t (Hin t Ht) Hdt m Hrt). }
  assert (A : n = a -> exists u r y, yield (Node (Nonterminal n) ks) = u ++ r /\ In y ys /\ seq_generates g' y u /\ generates g' b r).
  { intros ->. apply left_alternatives in He. destruct He as [(N & _)|(_ & [(x & Hx & ->)|Hy])]; [contradiction N; reflexivity| |].
    - inversion Hk as [| |n' t r k Hrt Hdt Hk']; subst. destruct (proj1 (IH t (or_introl eq_refl) Hdt a Hrt) eq_refl) as (u & r & y & E & Hy & Hu & Hr').
      exists u, (r ++ yields k), y. split; [change (yield t ++ yields k = u ++ r ++ yields k); rewrite E, app_assoc; reflexivity|]. split; [exact Hy|]. split; [exact Hu|].
      apply generates_tree in Hr'. destruct Hr' as (t' & Hd' & Hr' & <-). apply (right_last t' Hd' Hr' x); [exact Hx|]. apply (S x k Hk'). intros t0 Ht0. right. exact Ht0.
    - exists (yields ks), [], e. split; [symmetry; apply app_nil_r|]. split; [exact Hy|]. split; [apply (S e ks Hk); auto|apply right_end]. }
  split; [exact A|]. destruct (list_eq_dec N.eq_dec n a) as [->|N].
  - destruct (A eq_refl) as (u & r & y & E & Hy & Hu & Hr'). rewrite E. apply generates_seq, seq_name. exists (y ++ [Nonterminal b]).
    split; [apply right_alternatives; right; left; split; [reflexivity|exists y; auto]|]. apply seq_app. exists u, r. auto.
  - apply generates_seq, seq_name. exists e. split; [|apply (S e ks Hk); auto]. apply right_alternatives. left. split; [exact N|].
    apply left_alternatives in He. destruct He as [(_ & He)|(E & _)]; [|contradiction]. split; [|exact He]. intros ->. apply Hb.
    apply in_alternatives_iff in He. destruct He as (p & Hp & Hl & _). exists p. split; [|exact Hl]. apply in_app_iff in Hp. apply in_app_iff.
    destruct Hp as [Hp|Hp]; [left; exact Hp|right; right; exact Hp].
Qed.

Lemma left_start y u : In y ys -> seq_generates g y u -> generates g a u.
Proof. intros Hy Hu. apply generates_seq, seq_name. exists y. split; [apply left_alternatives; right; split; [reflexivity|right; exact Hy]|exact Hu]. Qed.
Lemma left_more x u v : In x xs -> generates g a u -> seq_generates g x v -> generates g a (u ++ v).
Proof.
  intros Hx Hu Hv. apply generates_seq, seq_name. exists (Nonterminal a :: x). split; [apply left_alternatives; right; split; [reflexivity|left; exists x; auto]|].
  apply seq_cons. exists u, v. auto.
Qed.

Lemma backward t : derives g' t -> forall n, root t = Nonterminal n ->
  (n <> b -> generates g n (yield t)) /\ (n = b -> forall u, generates g a u -> generates g a (u ++ yield t)).
Proof.
  induction t as [l ks IH] using tree_ind'. intros Hd n Hl. cbn [root] in Hl. subst l. apply derives_alternative in Hd. destruct Hd as (e & He & Hk).
  assert (S : forall e0 k0, kids_match g' e0 k0 -> (forall m, In (Nonterminal m) e0 -> m <> b) -> (forall t, In (Sub t) k0 -> In (Sub t) ks) -> seq_generates g e0 (yields k0)).
  { intros e0 k0 Hk0 Hm Hin. apply (seq_same g' g (fun m => m <> b) e0 k0 Hk0 Hm). intros t m Ht Hdt Hrt Nm. apply (proj1 (IH t (Hin t Ht) Hdt m Hrt) Nm). }
  apply right_alternatives in He. destruct He as [(Na & Nb & He)|[(-> & y & Hy & ->)|(-> & [(x & Hx & ->)| ->])]].
  - split; [|contradiction]. intros _. assert (Hg : In e (alternatives g (Nonterminal n))) by (apply left_alternatives; left; auto).
    apply generates_seq, seq_name. exists e. split; [exact Hg|]. apply (S e ks Hk); [|auto]. intros m Hm. exact (names_old _ _ _ Hg Hm).
  - split; [|intro E; destruct (different E)]. intros _. apply kids_match_app_inv in Hk. destruct Hk as (k1 & k2 & -> & H1 & H2).
    inversion H2 as [| |n t r k Hrt Hdt Hk]; subst. inversion Hk; subst.
    rewrite yield_snoc.
    apply (proj2 (IH t ltac:(apply in_app_iff; right; left; reflexivity) Hdt b Hrt) eq_refl). apply (left_start y); [exact Hy|].
    apply (S y k1 H1); [intros m Hm; exact (names_y y m Hy Hm)|]. intros t0 Ht0. apply in_app_iff. left. exact Ht0.
  - split; [intro N; contradiction N; reflexivity|]. intros _ u Hu. apply kids_match_app_inv in Hk. destruct Hk as (k1 & k2 & -> & H1 & H2).
    inversion H2 as [| |n t r k Hrt Hdt Hk]; subst. inversion Hk; subst.
    rewrite yield_snoc, app_assoc.
    apply (proj2 (IH t ltac:(apply in_app_iff; right; left; reflexivity) Hdt b Hrt) eq_refl). apply (left_more x); [exact Hx|exact Hu|].
    apply (S x k1 H1); [intros m Hm; exact (names_x x m Hx Hm)|]. intros t0 Ht0. apply in_app_iff. left. exact Ht0.
  - split; [intro N; contradiction N; reflexivity|]. intros _ u Hu. inversion Hk as [|s r k Hk'|]; subst. inversion Hk'; subst. cbn. rewrite app_nil_r. exact Hu.
Qed.

Lemma same_texts n v : n <> b -> (generates g n v <-> generates g' n v).
Proof.
  intro N. split; intro H; apply generates_tree in H; destruct H as (t & Hd & Ht & <-); [apply (proj2 (forward t Hd n Ht))|apply (proj1 (backward t Hd n Ht) N)].
Qed.

(** What [b] stands for. *)
Lemma rest_texts v : generates g' b v -> forall u, generates g a u -> generates g a (u ++ v).
Proof. intros H u Hu. apply generates_tree in H. destruct H as (t & Hd & Ht & <-). exact (proj2 (backward t Hd b Ht) eq_refl u Hu). Qed.
End Left.

Lemma left_accepts g1 a b xs ys g2 n w : ~ has_lhs (g1 ++ g2) a -> ~ has_lhs (left_rules g1 a xs ys g2) b -> ~ refers (left_rules g1 a xs ys g2) b -> n <> b ->
  (accepts (left_rules g1 a xs ys g2) n w <-> accepts (right_rules g1 a b xs ys g2) n w).
Proof.
  intros Ha Hb Hr N. rewrite !accepts_iff. pose proof (same_texts g1 a b xs ys g2 Ha Hb Hr n w N) as E. rewrite !generates_tree in E. exact E.
Qed.

Lemma right_tidy g1 a b xs ys g2 s : ~ has_lhs (left_rules g1 a xs ys g2) b -> tidy s (left_rules g1 a xs ys g2) -> tidy s (right_rules g1 a b xs ys g2).
Proof.
  intros Hb ((p & rest & E & Hl) & Hd & Hne & Hr). unfold left_rules in *. split; [|split; [|split]].
  - unfold right_rules. destruct g1 as [|q g1]; cbn [app] in *.
    + injection E as <- _. cbn in Hl. eexists _, _. split; [reflexivity|exact Hl].
    + injection E as -> _. eexists _, _. split; [reflexivity|exact Hl].
  - unfold distinct_lhs, right_rules in *. rewrite map_app in *. cbn [map p_lhs] in *.
    assert (Nb : ~ In (Nonterminal b) (map p_lhs g1 ++ Nonterminal a :: map p_lhs g2)).
    { intro H. apply Hb. change (map p_lhs g1 ++ Nonterminal a :: map p_lhs g2) with (map p_lhs g1 ++ map p_lhs (mkProd (Nonterminal a) (map (cons (Nonterminal a)) xs ++ ys) :: g2)) in H.
      rewrite <- map_app in H. apply in_map_iff in H. destruct H as (q & Hq & Hin). exists q. auto. }
    change (NoDup (map p_lhs g1 ++ ([Nonterminal a] ++ Nonterminal b :: map p_lhs g2))). rewrite app_assoc. apply NoDup_Add with (a := Nonterminal b) (l := (map p_lhs g1 ++ [Nonterminal a]) ++ map p_lhs g2).
    + apply Add_app.
    + rewrite <- app_assoc. split; [exact Hd|exact Nb].
  - intros q Hq. apply in_app_iff in Hq. destruct Hq as [Hq|[<-|[<-|Hq]]]; cbn [p_rhs].
    + apply Hne, in_app_iff. left. exact Hq.
    + destruct ys as [|y [|y' ys']]; try discriminate. cbn. intro D. injection D as D. destruct y; discriminate.
    + intro D. apply app_eq_unit in D. destruct D as [(_ & D)|(_ & D)]; discriminate.
    + apply Hne, in_app_iff. right. right. exact Hq.
  - assert (K : forall n, has_lhs (g1 ++ mkProd (Nonterminal a) (map (cons (Nonterminal a)) xs ++ ys) :: g2) n -> has_lhs (right_rules g1 a b xs ys g2) n).
    { intros n (q & Hq & Hn). apply in_app_iff in Hq. unfold right_rules. destruct Hq as [Hq|[<-|Hq]].
      - exists q. split; [apply in_app_iff; left; exact Hq|exact Hn].
      - eexists. split; [apply in_app_iff; right; left; reflexivity|exact Hn].
      - exists q. split; [apply in_app_iff; right; right; right; exact Hq|exact Hn]. }
    assert (B : has_lhs (right_rules g1 a b xs ys g2) b) by (eexists; split; [apply in_app_iff; right; right; left; reflexivity|reflexivity]).
    intros n (q & e & Hq & He & Hn). apply in_app_iff in Hq. destruct Hq as [Hq|[<-|[<-|Hq]]]; cbn [p_rhs] in He.
    + apply K, Hr. exists q, e. split; [apply in_app_iff; left; exact Hq|auto].
    + apply in_map_iff in He. destruct He as (y & <- & Hy). apply in_app_iff in Hn. destruct Hn as [Hn|[Hn|[]]]; [|injection Hn as <-; exact B].
      apply K, Hr. eexists _, y. split; [apply in_app_iff; right; left; reflexivity|]. split; [apply in_app_iff; right; exact Hy|exact Hn].
    + apply in_app_iff in He. destruct He as [He|[<-|[]]]; [|destruct Hn as [Hn|[]]; discriminate Hn]. apply in_map_iff in He. destruct He as (x & <- & Hx).
      apply in_app_iff in Hn. destruct Hn as [Hn|[Hn|[]]]; [|injection Hn as <-; exact B].
      apply K, Hr. eexists _, (Nonterminal a :: x). split; [apply in_app_iff; right; left; reflexivity|]. split; [apply in_app_iff; left; apply in_map; exact Hx|right; exact Hn].
    + apply K, Hr. exists q, e. split; [apply in_app_iff; right; right; exact Hq|auto].
Qed.

Lemma left_makes g1 a b xs ys g2 s w : tidy s (left_rules g1 a xs ys g2) -> ~ has_lhs (left_rules g1 a xs ys g2) b ->
  (makes (left_rules g1 a xs ys g2) w <-> makes (right_rules g1 a b xs ys g2) w).
Proof.
  intros Ht Hb. rewrite (makes_accepts s _ _ Ht), (makes_accepts s _ _ (right_tidy _ _ _ _ _ _ _ Hb Ht)).
  destruct Ht as ((p & rest & E & Hl) & Hd & _ & Hr). apply left_accepts; [|exact Hb|intro H; apply Hb, Hr, H|].
  - intros (q & Hq & Hn). unfold distinct_lhs, left_rules in Hd. rewrite map_app in Hd. cbn [map p_lhs] in Hd. apply NoDup_remove_2 in Hd. apply Hd.
    rewrite <- map_app. rewrite <- Hn. exact (in_map p_lhs _ _ Hq).
  - intros ->. apply Hb. rewrite E. exists p. split; [left; reflexivity|exact Hl].
Qed.
