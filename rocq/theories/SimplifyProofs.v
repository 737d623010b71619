(** Grammars written in another way: proofs. *)
From Verif Require Export SimplifySpec.
From Verif Require Import EarleyInv EarleyMain ExtendProofs CombineProofs CombineGen Facts_Parsing PrefixProofs.
From Coq Require Import Permutation Lia.

Lemma in_alternatives_iff g l e : In e (alternatives g l) <-> exists p, In p g /\ p_lhs p = l /\ In e (p_rhs p).
Proof.
  unfold alternatives. rewrite in_flat_map. split.
  - intros (p & Hp & He). destruct (term_eqb (p_lhs p) l) eqn:E; [|destruct He]. apply term_eqb_eq in E. eauto.
  - intros (p & Hp & <- & He). exists p. split; [exact Hp|]. rewrite (proj2 (term_eqb_eq _ _) eq_refl). exact He.
Qed.
Lemma derives_alternative g l ks : derives g (Node l ks) <-> exists e, In e (alternatives g l) /\ kids_match g e ks.
Proof.
  split.
  - intro H. inversion H as [p e ks' Hp He Hk]; subst. exists e. split; [apply in_alternatives_iff; eauto|exact Hk].
  - intros (e & He & Hk). apply in_alternatives_iff in He. destruct He as (p & Hp & <- & He). econstructor; eassumption.
Qed.

(** ** Cuts *)

Lemma cut_tree_Node l ks : cut_tree (Node l ks) = Node l (flat_map cut_node ks).
Proof. reflexivity. Qed.
Lemma cut_node_Sub t : cut_node (Sub t) = [Sub (cut_tree t)].
Proof. reflexivity. Qed.
Lemma cut_root t : root (cut_tree t) = root t.
Proof. destruct t. reflexivity. Qed.

Lemma cut_yield t : yield (cut_tree t) = yield t.
Proof.
  induction t as [l ks IH] using tree_ind'. rewrite cut_tree_Node. cbn [yield]. induction ks as [|k ks IHk]; [reflexivity|].
  assert (IH' := IHk (fun t Ht => IH t (or_intror Ht))). clear IHk.
  change (flat_map yield_node (cut_node k ++ flat_map cut_node ks) = yield_node k ++ flat_map yield_node ks).
  etransitivity; [apply flat_map_app|]. apply f_equal2; [|exact IH'].
  destruct k as [s|t].
  - cbn [cut_node yield_node]. clear. induction s as [|c s IH]; [reflexivity|]. cbn. f_equal. exact IH.
  - rewrite cut_node_Sub. cbn [flat_map yield_node]. rewrite app_nil_r. apply IH. left. reflexivity.
Qed.

(** What the cut children of a node look like. *)
Definition cut_kid (g : grammar) (x : term) (k : pnode) : Prop :=
  match x, k with
  | Terminal s, Leaf s' => s' = s
  | Nonterminal n, Sub u => exists t, derives g t /\ root t = Nonterminal n /\ cut_tree t = u
  | _, _ => False
  end.

Lemma cut_kids g' : forall e ks, spells_alternative e ks ->
  (forall t, In (Sub t) ks -> exists t', derives g' t' /\ root t' = root t /\ cut_tree t' = cut_tree t) ->
  Forall2 (cut_kid g') (cut_expression e) (flat_map cut_node ks).
Proof.
  intros e ks H. induction H as [|x k e ks Hx H IH]; intro Hd; [constructor|].
  unfold cut_expression. cbn [flat_map]. apply Forall2_app; [|apply IH; intros t Ht; apply Hd; right; exact Ht].
  destruct x as [s|n], k as [s'|t]; try contradiction.
  - subst s'. cbn [cut_term cut_node]. clear. induction s; constructor; [reflexivity|assumption].
  - rewrite cut_node_Sub. constructor; [|constructor]. destruct (Hd t) as (t' & H1 & H2 & H3); [left; reflexivity|].
    exists t'. split; [exact H1|]. split; [congruence|exact H3].
Qed.

Lemma uncut_kids g' : forall e K, Forall2 (cut_kid g') (cut_expression e) K ->
  exists ks, kids_match g' e ks /\ flat_map cut_node ks = K.
Proof.
  induction e as [|x e IH]; intros K H.
  - inversion H; subst. exists []. split; [constructor|reflexivity].
  - unfold cut_expression in H. cbn [flat_map] in H. apply Forall2_app_inv_l in H. destruct H as (K1 & K2 & H1 & H2 & ->).
    destruct (IH _ H2) as (ks & Hk & <-). destruct x as [s|n]; cbn [cut_term] in H1.
    + exists (Leaf s :: ks). split; [constructor; exact Hk|]. cbn [flat_map cut_node]. f_equal. clear - H1.
      revert K1 H1. induction s as [|c s IH]; intros K1 H1; cbn [map] in *; inversion H1 as [|? k ? K' Hh Ht]; subst; [reflexivity|].
      destruct k as [s'|t]; [|contradiction]. cbn in Hh. subst s'. f_equal. apply IH. exact Ht.
    + inversion H1 as [|? k ? K' Hh Ht]; subst. inversion Ht; subst. destruct k as [s|u]; [contradiction|].
      destruct Hh as (t & Hd & Hr & <-). exists (Sub t :: ks). split; [constructor; assumption|]. reflexivity.
Qed.

Lemma cuts_derives g g' : same_up_to_cuts g g' -> forall t, derives g t ->
  exists t', derives g' t' /\ root t' = root t /\ cut_tree t' = cut_tree t.
Proof.
  intros Hg t. induction t as [l ks IH] using tree_ind'. intro H. apply derives_alternative in H. destruct H as (e & He & Hk).
  apply kids_match_spells in Hk. destruct Hk as [Hs Hd].
  destruct (proj1 (in_map_iff _ _ _) (proj1 (Hg l (cut_expression e)) (in_map _ _ _ He))) as (e' & Ee & He').
  pose proof (cut_kids g' e ks Hs (fun t Ht => IH t Ht (Hd t Ht))) as HK. rewrite <- Ee in HK.
  destruct (uncut_kids _ _ _ HK) as (ks' & Hk' & E). exists (Node l ks').
  split; [apply derives_alternative; eauto|]. split; [reflexivity|]. rewrite !cut_tree_Node, E. reflexivity.
Qed.

Lemma cuts_sym g g' : same_up_to_cuts g g' -> same_up_to_cuts g' g.
Proof. intros H l c. symmetry. apply H. Qed.

Lemma cuts_parses g g' start w t : same_up_to_cuts g g' -> parses g start w t ->
  exists t', parses g' start w t' /\ cut_tree t' = cut_tree t.
Proof.
  intros Hg (H1 & H2 & H3). destruct (cuts_derives _ _ Hg _ H1) as (t' & D & R & E). exists t'. split; [|exact E].
  split; [exact D|]. split; [congruence|]. rewrite <- cut_yield, E, cut_yield. exact H3.
Qed.

Lemma cuts_returns g g' start input it it' u : same_up_to_cuts g g' -> opens g start input it -> opens g' start input it' ->
  (exists t, returns it t /\ cut_tree t = u) <-> (exists t', returns it' t' /\ cut_tree t' = u).
Proof.
  intros Hg Ho Ho'. split; intros (t & Ht & E).
  - apply (returns_iff _ _ _ _ _ Ho) in Ht. destruct (cuts_parses _ _ _ _ _ Hg Ht) as (t' & Ht' & E').
    exists t'. split; [apply (returns_iff _ _ _ _ _ Ho'); exact Ht'|congruence].
  - apply (returns_iff _ _ _ _ _ Ho') in Ht. destruct (cuts_parses _ _ _ _ _ (cuts_sym _ _ Hg) Ht) as (t' & Ht' & E').
    exists t'. split; [apply (returns_iff _ _ _ _ _ Ho); exact Ht'|congruence].
Qed.

(** *** Cut trees can be put together again *)

Lemma shapes_cut : forall e ks, spells_alternative e ks -> map shape (flat_map cut_node ks) = cut_expression e.
Proof.
  intros e ks H. induction H as [|x k e ks Hx H IH]; [reflexivity|]. unfold cut_expression in *. cbn [flat_map].
  rewrite map_app, IH. f_equal. destruct x as [s|n], k as [s'|t]; try contradiction.
  - subst s'. cbn [cut_node cut_term]. rewrite map_map. reflexivity.
  - rewrite cut_node_Sub. cbn [map shape cut_term]. rewrite cut_root, Hx. reflexivity.
Qed.

Lemma told_apart_alternative g l e e' : told_apart g -> In e (alternatives g l) -> In e' (alternatives g l) ->
  cut_expression e = cut_expression e' -> e = e'.
Proof.
  intros Hn He He' E. apply in_alternatives_iff in He, He'. destruct He as (p & Hp & Hl & He), He' as (q & Hq & Hl' & He').
  assert (I : forall p e, In p g -> In e (p_rhs p) -> In (p_lhs p, e) (flat_prods g)).
  { intros p0 e0 H1 H2. unfold flat_prods. apply in_flat_map. exists p0. split; [exact H1|]. apply in_map_iff. eauto. }
  pose proof (I _ _ Hp He) as I1. pose proof (I _ _ Hq He') as I2. rewrite Hl in I1. rewrite Hl' in I2. clear - Hn I1 I2 E.
  unfold told_apart in Hn. induction (flat_prods g) as [|a L IH]; [destruct I1|]. cbn [map] in Hn. inversion Hn as [|? ? H1 H2]; subst.
  destruct I1 as [->|I1], I2 as [I2|I2].
  - congruence.
  - exfalso. apply H1. apply in_map_iff. exists (l, e'). cbn [fst snd]. rewrite E. auto.
  - exfalso. apply H1. apply in_map_iff. exists (l, e). subst a. cbn [fst snd]. rewrite E. auto.
  - auto.
Qed.

Lemma same_kids : forall e ks ks', spells_alternative e ks -> spells_alternative e ks' ->
  (forall t t', In (Sub t) ks -> In (Sub t') ks' -> cut_tree t = cut_tree t' -> t = t') ->
  flat_map cut_node ks = flat_map cut_node ks' -> ks = ks'.
Proof.
  intros e ks ks' H. revert ks'. induction H as [|x k e ks Hx H IH]; intros ks' H' Hi E; inversion H' as [|x' k' e' ks2 Hx' H2]; subst; [reflexivity|].
  cbn [flat_map] in E. assert (Hi' : forall t t', In (Sub t) ks -> In (Sub t') ks2 -> cut_tree t = cut_tree t' -> t = t').
  { intros t t' Ht Ht'. apply Hi; right; assumption. }
  destruct x as [s|n], k as [s1|t1], k' as [s2|t2]; try contradiction.
  - subst s1 s2. apply app_inv_head in E. f_equal. apply IH; assumption.
  - rewrite !cut_node_Sub in E. cbn [app] in E. injection E as E1 E2. f_equal; [|apply IH; assumption].
    f_equal. apply Hi; [left; reflexivity|left; reflexivity|exact E1].
Qed.

Lemma cut_injective g : told_apart g -> forall t t', derives g t -> derives g t' -> cut_tree t = cut_tree t' -> t = t'.
Proof.
  intros Hn t. induction t as [l ks IH] using tree_ind'. intros [l' ks'] H H' E. rewrite !cut_tree_Node in E. injection E as <- E.
  apply derives_alternative in H, H'. destruct H as (e & He & Hk), H' as (e' & He' & Hk').
  apply kids_match_spells in Hk, Hk'. destruct Hk as [Hs Hd], Hk' as [Hs' Hd'].
  assert (F : e = e').
  { apply (told_apart_alternative g l); [exact Hn|exact He|exact He'|]. rewrite <- (shapes_cut _ _ Hs), <- (shapes_cut _ _ Hs'), E. reflexivity. }
  subst e'. f_equal. apply (same_kids e); [exact Hs|exact Hs'| |exact E]. intros t t' Ht Ht'. apply IH; auto.
Qed.

Lemma told_apart_nodup g : told_apart g -> NoDup (flat_prods g).
Proof. apply NoDup_map_inv. Qed.

Lemma NoDup_map_in {A B} (f : A -> B) l : NoDup l -> (forall x y, In x l -> In y l -> f x = f y -> x = y) -> NoDup (map f l).
Proof.
  intros H. induction H as [|x l Hx H IH]; intro Hi; [constructor|]. cbn [map]. constructor.
  - intro Hin. apply in_map_iff in Hin. destruct Hin as (y & E & Hy). apply Hx.
    rewrite (Hi x y); [exact Hy|left; reflexivity|right; exact Hy|congruence].
  - apply IH. intros a b Ha Hb. apply Hi; right; assumption.
Qed.

Lemma cuts_all g g' s w ts ts' : same_up_to_cuts g g' -> told_apart g -> told_apart g' ->
  all_trees g s w ts -> all_trees g' s w ts' -> Permutation (map cut_tree ts) (map cut_tree ts').
Proof.
  intros Hg Hn Hn' H H'. pose proof (all_trees_iff _ _ _ _ H) as A. pose proof (all_trees_iff _ _ _ _ H') as A'.
  assert (N1 : NoDup (map cut_tree ts)).
  { apply NoDup_map_in; [exact (all_trees_nodup _ _ _ _ (told_apart_nodup _ Hn) H)|].
    intros x y Hx Hy. apply A in Hx, Hy. apply (cut_injective g Hn); [apply Hx|apply Hy]. }
  assert (N2 : NoDup (map cut_tree ts')).
  { apply NoDup_map_in; [exact (all_trees_nodup _ _ _ _ (told_apart_nodup _ Hn') H')|].
    intros x y Hx Hy. apply A' in Hx, Hy. apply (cut_injective g' Hn'); [apply Hx|apply Hy]. }
  apply NoDup_Permutation; [exact N1|exact N2|]. intro u. rewrite !in_map_iff. split; intros (t & <- & Ht).
  - apply A in Ht. destruct (cuts_parses _ _ _ _ _ Hg Ht) as (t' & Ht' & E). exists t'. split; [exact E|]. apply A', Ht'.
  - apply A' in Ht. destruct (cuts_parses _ _ _ _ _ (cuts_sym _ _ Hg) Ht) as (t' & Ht' & E). exists t'. split; [exact E|]. apply A, Ht'.
Qed.

(** ** Unfolding *)

Definition lifts (g' : grammar) (t : ptree) : Prop := exists t', derives g' t' /\ root t' = root t /\ yield t' = yield t.

Lemma lifts_kids g g' e ks : kids_match g e ks -> (forall t, In (Sub t) ks -> lifts g' t) ->
  exists ks', kids_match g' e ks' /\ yields ks' = yields ks.
Proof.
  intros H. apply kids_match_spells in H. destruct H as [H _]. induction H as [|x k e ks Hx H IH]; intro Hl.
  - exists []. split; [constructor|reflexivity].
  - destruct IH as (ks' & Hk & E); [intros t Ht; apply Hl; right; exact Ht|].
    destruct x as [s|n], k as [s'|t]; try contradiction.
    + subst s'. exists (Leaf s :: ks'). split; [constructor; exact Hk|]. unfold yields in *. cbn [flat_map]. rewrite E. reflexivity.
    + destruct (Hl t) as (t' & D & R & Y); [left; reflexivity|]. exists (Sub t' :: ks').
      split; [constructor; [congruence|exact D|exact Hk]|]. unfold yields in *. cbn [flat_map yield_node]. rewrite E, Y. reflexivity.
Qed.

Section Unfold.
Context (g1 g2 : grammar) (l : term) (r1 r2 : list expression) (x y : expression) (b : str).
Let g := folded g1 l r1 x b y r2 g2.
Let g' := unfolded g1 l r1 x b y r2 g2.

Lemma folded_alternatives m e : In e (alternatives g m) ->
  In e (alternatives g' m) \/ m = l /\ e = x ++ Nonterminal b :: y.
Proof.
  intro H. apply in_alternatives_iff in H. destruct H as (p & Hp & Hl & He). unfold g, folded in Hp. apply in_app_iff in Hp.
  destruct Hp as [Hp|[<-|Hp]].
  - left. apply in_alternatives_iff. exists p. split; [apply in_app_iff; left; exact Hp|auto].
  - cbn [p_lhs p_rhs] in Hl, He. apply in_app_iff in He. destruct He as [He|[<-|He]]; [| auto |];
      (left; apply in_alternatives_iff; eexists; split; [apply in_app_iff; right; left; reflexivity|split; [exact Hl|]];
       cbn [p_rhs]; rewrite !in_app_iff; auto).
  - left. apply in_alternatives_iff. exists p. split; [apply in_app_iff; right; right; exact Hp|auto].
Qed.
Lemma unfolded_alternatives m e : In e (alternatives g' m) ->
  In e (alternatives g m) \/ m = l /\ exists f, In f (alternatives g (Nonterminal b)) /\ e = x ++ f ++ y.
Proof.
  intro H. apply in_alternatives_iff in H. destruct H as (p & Hp & Hl & He). unfold g', unfolded in Hp. apply in_app_iff in Hp.
  destruct Hp as [Hp|[<-|Hp]].
  - left. apply in_alternatives_iff. exists p. split; [apply in_app_iff; left; exact Hp|auto].
  - cbn [p_lhs p_rhs] in Hl, He. rewrite !in_app_iff in He. destruct He as [He|[He|He]].
    + left; apply in_alternatives_iff; eexists; split; [apply in_app_iff; right; left; reflexivity|split; [exact Hl|]];
       cbn [p_rhs]; rewrite !in_app_iff; auto.
    + right. split; [symmetry; exact Hl|]. apply in_map_iff in He. destruct He as (f & <- & Hf). eauto.
    + left; apply in_alternatives_iff; eexists; split; [apply in_app_iff; right; left; reflexivity|split; [exact Hl|]];
       cbn [p_rhs]; rewrite !in_app_iff; cbn [In]; auto.
  - left. apply in_alternatives_iff. exists p. split; [apply in_app_iff; right; right; exact Hp|auto].
Qed.
Lemma unfolded_new f : In f (alternatives g (Nonterminal b)) -> In (x ++ f ++ y) (alternatives g' l).
Proof.
  intro H. apply in_alternatives_iff. eexists. split; [apply in_app_iff; right; left; reflexivity|]. split; [reflexivity|].
  cbn [p_rhs]. rewrite !in_app_iff. right. left. apply in_map_iff. eauto.
Qed.
Lemma folded_old : In (x ++ Nonterminal b :: y) (alternatives g l).
Proof.
  apply in_alternatives_iff. eexists. split; [apply in_app_iff; right; left; reflexivity|]. split; [reflexivity|].
  cbn [p_rhs]. apply in_app_iff. right. left. reflexivity.
Qed.

Lemma yields_app (k1 k2 : list pnode) : yields (k1 ++ k2) = yields k1 ++ yields k2.
Proof. apply flat_map_app. Qed.

Lemma unfold_lifts : forall t, (derives g t -> lifts g' t) /\
  (forall u, match t with Node _ ks => In (Sub u) ks end -> derives g u -> lifts g' u).
Proof.
  induction t as [m ks IH] using tree_ind'. split; [|intros u Hu; apply IH; exact Hu].
  intro H. apply derives_alternative in H. destruct H as (e & He & Hk).
  destruct (folded_alternatives _ _ He) as [He'|[-> ->]].
  - destruct (lifts_kids g g' e ks Hk) as (ks' & Hk' & E).
    { intros t Ht. apply (proj1 (IH t Ht)). apply kids_match_spells in Hk. apply Hk, Ht. }
    exists (Node m ks'). split; [apply derives_alternative; eauto|]. split; [reflexivity|exact E].
  - apply kids_match_app_inv in Hk. destruct Hk as (kx & k2 & -> & Hx & H2).
    inversion H2 as [| |n u r ky Hr Hd Hy]; subst. destruct u as [n ku]. cbn [root] in Hr. subst n.
    pose proof Hd as Hd0. apply derives_alternative in Hd. destruct Hd as (f & Hf & Hku).
    destruct (lifts_kids g g' x kx Hx) as (kx' & Hx' & Ex).
    { intros t Ht. refine (proj1 (IH t _) _); [apply in_app_iff; left; exact Ht|]. apply kids_match_spells in Hx. apply Hx, Ht. }
    destruct (lifts_kids g g' y ky Hy) as (ky' & Hy' & Ey).
    { intros t Ht. refine (proj1 (IH t _) _); [apply in_app_iff; right; right; exact Ht|]. apply kids_match_spells in Hy. apply Hy, Ht. }
    destruct (lifts_kids g g' f ku Hku) as (ku' & Hu' & Eu).
    { intros t Ht. refine (proj2 (IH (Node (Nonterminal b) ku) _) t Ht _); [apply in_app_iff; right; left; reflexivity|]. apply kids_match_spells in Hku. apply Hku, Ht. }
    exists (Node l (kx' ++ ku' ++ ky')). split.
    + apply derives_alternative. exists (x ++ f ++ y). split; [apply unfolded_new, Hf|]. repeat apply kids_match_app; assumption.
    + split; [reflexivity|]. change (yields (kx' ++ ku' ++ ky') = yields (kx ++ Sub (Node (Nonterminal b) ku) :: ky)).
      rewrite !yields_app, Ex, Eu, Ey. reflexivity.
Qed.

Lemma fold_lifts : forall t, derives g' t -> lifts g t.
Proof.
  induction t as [m ks IH] using tree_ind'. intro H. apply derives_alternative in H. destruct H as (e & He & Hk).
  destruct (lifts_kids g' g e ks Hk) as (ks' & Hk' & E).
  { intros t Ht. apply (IH t Ht). apply kids_match_spells in Hk. apply Hk, Ht. }
  destruct (unfolded_alternatives _ _ He) as [He'|(-> & f & Hf & ->)].
  - exists (Node m ks'). split; [apply derives_alternative; eauto|]. split; [reflexivity|exact E].
  - apply kids_match_app_inv in Hk'. destruct Hk' as (kx & k2 & -> & Hx & H2).
    apply kids_match_app_inv in H2. destruct H2 as (kf & ky & -> & H2 & Hy).
    exists (Node l (kx ++ Sub (Node (Nonterminal b) kf) :: ky)). split.
    + apply derives_alternative. exists (x ++ Nonterminal b :: y). split; [exact folded_old|].
      apply kids_match_app; [exact Hx|]. constructor; [reflexivity| |exact Hy]. apply derives_alternative. eauto.
    + split; [reflexivity|]. change (yields (kx ++ Sub (Node (Nonterminal b) kf) :: ky) = yields ks). rewrite <- E, !yields_app.
      unfold yields at 2. cbn [flat_map yield_node yield]. reflexivity.
Qed.

Lemma unfold_parses s w : (exists t, parses g s w t) <-> (exists t, parses g' s w t).
Proof.
  split; intros (t & H1 & H2 & H3).
  - destruct (proj1 (unfold_lifts t) H1) as (t' & D & R & Y). exists t'. split; [exact D|]. split; congruence.
  - destruct (fold_lifts t H1) as (t' & D & R & Y). exists t'. split; [exact D|]. split; congruence.
Qed.

Lemma unfold_returns s w it it' : opens g s w it -> opens g' s w it' -> (exists t, returns it t) <-> (exists t, returns it' t).
Proof.
  intros Ho Ho'. split; intros (t & Ht).
  - apply (returns_iff _ _ _ _ _ Ho) in Ht. destruct (proj1 (unfold_parses s w) (ex_intro _ t Ht)) as (t' & Ht').
    exists t'. apply (returns_iff _ _ _ _ _ Ho'), Ht'.
  - apply (returns_iff _ _ _ _ _ Ho') in Ht. destruct (proj2 (unfold_parses s w) (ex_intro _ t Ht)) as (t' & Ht').
    exists t'. apply (returns_iff _ _ _ _ _ Ho), Ht'.
Qed.

Lemma alternatives_single (h : grammar) p : distinct_lhs h -> In p h -> alternatives h (p_lhs p) = p_rhs p.
Proof.
  unfold distinct_lhs, alternatives. induction h as [|q h IH]; intros Hn Hp; [destruct Hp|]. cbn [map] in Hn. inversion Hn as [|? ? H1 H2]; subst.
  cbn [flat_map]. destruct Hp as [->|Hp].
  - rewrite (proj2 (term_eqb_eq _ _) eq_refl). rewrite <- (app_nil_r (p_rhs p)) at 2. f_equal. clear - H1.
    induction h as [|q h IH]; [reflexivity|]. cbn [flat_map]. destruct (term_eqb (p_lhs q) (p_lhs p)) eqn:E.
    + apply term_eqb_eq in E. exfalso. apply H1. cbn [map]. left. exact E.
    + cbn [app]. apply IH. intro H. apply H1. right. exact H.
  - destruct (term_eqb (p_lhs q) (p_lhs p)) eqn:E; [|apply IH; assumption].
    apply term_eqb_eq in E. exfalso. apply H1. rewrite E. apply in_map, Hp.
Qed.

Lemma folded_lhs : map p_lhs g' = map p_lhs g.
Proof. unfold g', g, unfolded, folded. rewrite !map_app. reflexivity. Qed.
Lemma has_lhs_iff h n : has_lhs h n <-> In (Nonterminal n) (map p_lhs h).
Proof. unfold has_lhs. rewrite in_map_iff. split; intros (p & H1 & H2); eauto. Qed.

Lemma refers_alternative h n : refers h n <-> exists m e, In e (alternatives h m) /\ In (Nonterminal n) e.
Proof.
  split.
  - intros (p & e & Hp & He & Hn). exists (p_lhs p), e. split; [apply in_alternatives_iff; eauto|exact Hn].
  - intros (m & e & He & Hn). apply in_alternatives_iff in He. destruct He as (p & Hp & _ & He). exists p, e. auto.
Qed.

Lemma unfolded_tidy s : tidy s g -> has_alt g b -> tidy s g'.
Proof.
  intros ((p & rest & E & Hl) & Hd & Hne & Hr) (q & f & Hq & Hql & Hf). split; [|split; [|split]].
  - pose proof folded_lhs as HL. rewrite E in HL. destruct g' as [|q0 k]; [discriminate HL|].
    cbn [map] in HL. injection HL as HL _. exists q0, k. split; [reflexivity|congruence].
  - unfold distinct_lhs. rewrite folded_lhs. exact Hd.
  - intros q' Hq'. unfold g', unfolded in Hq'. apply in_app_iff in Hq'. destruct Hq' as [Hq'|[<-|Hq']].
    + apply Hne. apply in_app_iff. left. exact Hq'.
    + cbn [p_rhs]. change (r1 ++ map (fun e => x ++ e ++ y) (alternatives g (Nonterminal b)) ++ r2 <> [[]]). intro H.
      assert (A : alternatives g (Nonterminal b) = p_rhs q) by (rewrite <- Hql; apply alternatives_single; assumption).
      rewrite A in H. apply (Hne q Hq). destruct (p_rhs q) as [|f1 fs]; [destruct Hf|]. clear - H.
      pose proof (f_equal (@List.length _) H) as L. rewrite !app_length, map_length in L. cbn [List.length] in L.
      destruct r1; [|cbn in L; lia]. destruct fs; [|cbn in L; lia]. cbn [app map] in H. injection H as H _.
      apply app_eq_nil in H. destruct H as [_ H]. apply app_eq_nil in H. destruct H as [-> _]. reflexivity.
    + apply Hne. apply in_app_iff. right. right. exact Hq'.
  - intros n Hn. apply has_lhs_iff. rewrite folded_lhs. apply has_lhs_iff. apply refers_alternative in Hn.
    destruct Hn as (m & e & He & Hn). destruct (unfolded_alternatives _ _ He) as [He'|(-> & f' & Hf' & ->)].
    + apply Hr, refers_alternative. eauto.
    + rewrite !in_app_iff in Hn. destruct Hn as [Hn|[Hn|Hn]].
      * apply Hr, refers_alternative. exists l, (x ++ Nonterminal b :: y). split; [exact folded_old|]. apply in_app_iff. auto.
      * apply Hr, refers_alternative. eauto.
      * apply Hr, refers_alternative. exists l, (x ++ Nonterminal b :: y). split; [exact folded_old|]. apply in_app_iff. right. right. exact Hn.
Qed.
End Unfold.

Lemma unfolded_makes g1 l r1 x b y r2 g2 s w :
  tidy s (folded g1 l r1 x b y r2 g2) -> has_alt (folded g1 l r1 x b y r2 g2) b ->
  (makes (folded g1 l r1 x b y r2 g2) w <-> makes (unfolded g1 l r1 x b y r2 g2) w).
Proof.
  intros Ht Hb. rewrite (makes_accepts s _ _ Ht), (makes_accepts s _ _ (unfolded_tidy _ _ _ _ _ _ _ _ s Ht Hb)), !accepts_iff.
  apply unfold_parses.
Qed.

(** ** Alternatives that cannot be used *)

Lemma subtree_part {L} (s t : tree L) : subtree s t -> exists a b, yield t = a ++ yield s ++ b.
Proof.
  induction 1 as [t|s l ks t Hk H (a & b & E)].
  - exists [], []. rewrite app_nil_r. reflexivity.
  - apply in_split in Hk. destruct Hk as (k1 & k2 & ->). exists (yields k1 ++ a), (b ++ yields k2).
    change (yields (k1 ++ Sub t :: k2) = (yields k1 ++ a) ++ yield s ++ b ++ yields k2). unfold yields. rewrite flat_map_app.
    cbn [flat_map yield_node]. rewrite E, <- !app_assoc. reflexivity.
Qed.

Lemma subtree_derives g s t : subtree s t -> derives g t -> derives g s.
Proof.
  intros H. induction H as [t|s l ks t Hk H IH]; intro Hd; [exact Hd|]. apply IH.
  apply derives_alternative in Hd. destruct Hd as (e & _ & Hm). apply kids_match_spells in Hm. apply Hm, Hk.
Qed.

Lemma idle_returns g g' start input it it' t :
  (forall l e, In e (alternatives g' l) -> In e (alternatives g l)) ->
  (forall l e, In e (alternatives g l) -> In e (alternatives g' l) \/ idle g input e) ->
  opens g start input it -> opens g' start input it' -> (returns it t <-> returns it' t).
Proof.
  intros H1 H2 Ho Ho'. rewrite (returns_iff _ _ _ _ _ Ho), (returns_iff _ _ _ _ _ Ho').
  assert (L : forall l ks, licensed g' (Node l ks) <-> exists e, In e (alternatives g' l) /\ spells_alternative e ks).
  { intros l ks. cbn [licensed]. split.
    - intros (p & e & Hp & Hl & He & Hs). exists e. split; [apply in_alternatives_iff; eauto|exact Hs].
    - intros (e & He & Hs). apply in_alternatives_iff in He. destruct He as (p & Hp & Hl & He). exists p, e. auto. }
  split; intros (D & R & Y); (split; [|split; [exact R|exact Y]]).
  - apply derives_local. intros s Hs. destruct s as [l ks]. apply L. pose proof (subtree_derives _ _ _ Hs D) as Hd.
    apply derives_alternative in Hd. destruct Hd as (e & He & Hm). exists e.
    split; [|apply kids_match_spells in Hm; apply Hm]. destruct (H2 _ _ He) as [H|H]; [exact H|]. exfalso.
    destruct (subtree_part _ _ Hs) as (a & b & E). apply (H a (yield (Node l ks)) b); [congruence|].
    apply kids_seq_generates, Hm.
  - apply derives_local. intros s Hs. destruct s as [l ks]. pose proof (proj1 (derives_local _ _) D _ Hs) as Hd. apply L in Hd.
    destruct Hd as (e & He & Hsp). apply H1, in_alternatives_iff in He. destruct He as (p & Hp & Hl & He). exists p, e. auto.
Qed.

Lemma idle_terminal g input e s : In (Terminal s) e -> (forall a b, input <> a ++ s ++ b) -> idle g input e.
Proof.
  intros Hs Hn a v b E (ss & H & ->). apply rewrites_kids with (ss := ss) in H; [|reflexivity]. destruct H as (ks & Hk & Y).
  apply in_split in Hs. destruct Hs as (e1 & e2 & ->). apply kids_match_app_inv in Hk. destruct Hk as (k1 & k2 & -> & _ & Hk).
  inversion Hk as [|s' r ks2 Hk2|]; subst. apply (Hn (a ++ yields k1) (yields ks2 ++ b)). rewrite <- Y, yields_app.
  unfold yields at 2. cbn [flat_map yield_node]. fold (yields ks2). rewrite <- !app_assoc. reflexivity.
Qed.

Lemma idle_nonterminal g input e n : In (Nonterminal n) e -> (forall a v b, input = a ++ v ++ b -> ~ generates g n v) -> idle g input e.
Proof.
  intros Hs Hn a v b E (ss & H & ->). apply rewrites_kids with (ss := ss) in H; [|reflexivity]. destruct H as (ks & Hk & Y).
  apply in_split in Hs. destruct Hs as (e1 & e2 & ->). apply kids_match_app_inv in Hk. destruct Hk as (k1 & k2 & -> & _ & Hk).
  inversion Hk as [| |n' t r ks2 Hr Hd Hk2]; subst. apply (Hn (a ++ yields k1) (yield t) (yields ks2 ++ b)).
  - rewrite <- Y, yields_app. unfold yields at 2. cbn [flat_map yield_node]. fold (yields ks2). rewrite <- !app_assoc. reflexivity.
  - apply generates_parses. exists t. split; [exact Hd|]. split; [exact Hr|reflexivity].
Qed.

(** ** The trees of the unfolded grammar *)

Lemma below_ind (P : ptree -> Prop) :
  (forall l ks, (forall t u, In (Sub t) ks -> subtree u t -> P u) -> P (Node l ks)) -> forall t, P t.
Proof.
  intro H. assert (A : forall t u, subtree u t -> P u); [|intro t; exact (A t t (subtree_here t))].
  induction t as [l ks IH] using tree_ind'. intros u Hu. inversion Hu as [|s l' ks' t Ht Hs]; subst; [apply H; intros t u Ht; apply IH, Ht|eauto].
Qed.

Lemma shapes_spell e ks : spells_alternative e ks -> map shape ks = e.
Proof.
  intro H. induction H as [|x k e ks Hx H IH]; [reflexivity|]. cbn [map]. f_equal; [|exact IH].
  destruct x as [s|n], k as [s'|t]; try contradiction; cbn [shape]; congruence.
Qed.
Lemma shapes_match g e ks : kids_match g e ks -> map shape ks = e.
Proof. intro H. apply kids_match_spells in H. apply shapes_spell, H. Qed.

Section Trees.
Context (l : term) (x y : expression) (b : str).
Notation unf := (unfolds l x b y).
Notation unfk := (unfolds_kids l x b y).

Lemma unfk_app k1 k1' k2 k2' : unfk k1 k1' -> unfk k2 k2' -> unfk (k1 ++ k2) (k1' ++ k2').
Proof.
  revert k1'. induction k1 as [|k k1 IH]; intros k1' H1 H2; inversion H1; subst; [exact H2| |]; cbn [app]; constructor; auto.
Qed.

Scheme unfolds_ind' := Induction for unfolds Sort Prop
  with unfolds_kids_ind' := Induction for unfolds_kids Sort Prop.
Combined Scheme unfolds_mut from unfolds_ind', unfolds_kids_ind'.

Lemma unfolds_facts : (forall t t', unf t t' -> root t' = root t /\ yield t' = yield t) /\
  (forall ks ks', unfk ks ks' -> map shape ks' = map shape ks /\ yields ks' = yields ks).
Proof.
  apply unfolds_mut.
  - intros kx ku ky kx' ku' ky' _ _ _ (Sx & Yx) _ (Su & Yu) _ (Sy & Yy). split; [reflexivity|].
    change (yields (kx' ++ ku' ++ ky') = yields (kx ++ Sub (Node (Nonterminal b) ku) :: ky)). rewrite !yields_app, Yx, Yu, Yy. reflexivity.
  - intros m ks ks' _ _ (_ & Y). split; [reflexivity|exact Y].
  - split; reflexivity.
  - intros s ks ks' _ (S & Y). split; [cbn [map shape]; congruence|]. unfold yields in *. cbn [flat_map]. congruence.
  - intros t t' ks ks' _ (R & Yt) _ (S & Y). split; [cbn [map shape]; congruence|]. unfold yields in *. cbn [flat_map yield_node]. congruence.
Qed.

Lemma unfk_length ks ks' : unfk ks ks' -> List.length ks' = List.length ks.
Proof. intro H. pose proof (f_equal (@List.length _) (proj1 (proj2 unfolds_facts _ _ H))) as E. rewrite !map_length in E. exact E. Qed.

(** One tree for each. *)
Lemma here_shape kx (ku : list pnode) ky : map shape kx = x -> map shape ky = y ->
  map shape (kx ++ Sub (Node (Nonterminal b) ku) :: ky) = x ++ Nonterminal b :: y.
Proof. intros Hx Hy. rewrite map_app. cbn [map shape root]. congruence. Qed.

Lemma same_split {A} (k1 k1' k2 k2' : list A) : List.length k1 = List.length k1' -> k1 ++ k2 = k1' ++ k2' -> k1 = k1' /\ k2 = k2'.
Proof.
  revert k1'. induction k1 as [|a k1 IH]; intros [|a' k1'] L E; try discriminate L; [auto|].
  cbn [app] in E. injection E as -> E. destruct (IH k1' (eq_add_S _ _ L) E) as [-> ->]. auto.
Qed.

Lemma unfk_function ks : (forall t t1 t2, In (Sub t) ks -> unf t t1 -> unf t t2 -> t1 = t2) ->
  forall k1 k2, unfk ks k1 -> unfk ks k2 -> k1 = k2.
Proof.
  induction ks as [|k ks IH]; intros Hi k1 k2 H1 H2.
  - inversion H1; inversion H2; subst; reflexivity.
  - assert (Hi' : forall t t1 t2, In (Sub t) ks -> unf t t1 -> unf t t2 -> t1 = t2) by (intros t t1 t2 Ht; apply (Hi t); right; exact Ht).
    inversion H1; subst; inversion H2; subst; f_equal; auto. f_equal. eapply Hi; [left; reflexivity|eassumption|eassumption].
Qed.

Lemma shapes_length ks e : map shape ks = e -> List.length ks = List.length e.
Proof. intros <-. symmetry. apply map_length. Qed.

Lemma shapes_length2 k1 k2 e : map shape k1 = e -> map shape k2 = e -> List.length k1 = List.length k2.
Proof. intros H1 H2. rewrite <- (map_length shape k1), <- (map_length shape k2). congruence. Qed.

Lemma unfolds_inv m ks t' : unf (Node m ks) t' ->
  (exists kx ku ky kx' ku' ky', m = l /\ ks = kx ++ Sub (Node (Nonterminal b) ku) :: ky /\ t' = Node l (kx' ++ ku' ++ ky') /\
     map shape kx = x /\ map shape ky = y /\ unfk kx kx' /\ unfk ku ku' /\ unfk ky ky') \/
  (exists ks', t' = Node m ks' /\ (m, map shape ks) <> (l, x ++ Nonterminal b :: y) /\ unfk ks ks').
Proof.
  intro H. inversion H as [kx ku ky kx' ku' ky' Sx Sy Hx Hu Hy E E'|m0 ks0 ks' N Hk E E'].
  - left. exists kx, ku, ky, kx', ku', ky'. repeat split; assumption.
  - right. exists ks'. auto.
Qed.

(** The children of the node taken out are below the node. *)
Lemma in_below kx (ku ky : list pnode) u : In (Sub u) (kx ++ ku ++ ky) -> forall P : ptree -> Prop,
  (forall t v, In (Sub t) (kx ++ Sub (Node (Nonterminal b) ku) :: ky) -> subtree v t -> P v) -> P u.
Proof.
  intros H P HP. rewrite !in_app_iff in H. destruct H as [H|[H|H]].
  - apply (HP u u); [apply in_app_iff; auto|constructor].
  - apply (HP (Node (Nonterminal b) ku) u); [apply in_app_iff; right; left; reflexivity|]. eapply subtree_below; [exact H|constructor].
  - apply (HP u u); [apply in_app_iff; right; right; exact H|constructor].
Qed.

Lemma unfolds_function : forall t t1 t2, unf t t1 -> unf t t2 -> t1 = t2.
Proof.
  induction t as [m ks IH] using below_ind. intros t1 t2 H1 H2.
  destruct (unfolds_inv _ _ _ H1) as [(kx & ku & ky & kx' & ku' & ky' & -> & -> & -> & Sx & Sy & Hx & Hu & Hy)|(ks1 & -> & N1 & K1)];
  destruct (unfolds_inv _ _ _ H2) as [(jx & ju & jy & jx' & ju' & jy' & E0 & E & -> & Tx & Ty & Jx & Ju & Jy)|(ks2 & -> & N2 & K2)].
  - assert (L : List.length kx = List.length jx) by (exact (shapes_length2 _ _ _ Sx Tx)).
    destruct (same_split _ _ _ _ L E) as [<- E2].
    injection E2 as <- <-. f_equal. apply (unfk_function (kx ++ ku ++ ky)).
    + intros t u1 u2 Ht. exact (in_below kx ku ky t Ht (fun t => forall t1 t2, unf t t1 -> unf t t2 -> t1 = t2) IH u1 u2).
    + repeat apply unfk_app; assumption.
    + repeat apply unfk_app; assumption.
  - exfalso. apply N2. rewrite here_shape by assumption. reflexivity.
  - exfalso. subst m ks. apply N1. rewrite here_shape by assumption. reflexivity.
  - f_equal. eapply unfk_function; [|exact K1|exact K2]. intros t u1 u2 Ht. apply (IH t t Ht (subtree_here t)).
Qed.

(** Different trees for different trees. *)
Lemma unfk_injective g e : forall k1 k2 k', kids_match g e k1 -> kids_match g e k2 ->
  (forall t1 t2 t', In (Sub t1) k1 -> derives g t1 -> derives g t2 -> unf t1 t' -> unf t2 t' -> t1 = t2) ->
  unfk k1 k' -> unfk k2 k' -> k1 = k2.
Proof.
  induction e as [|z e IH]; intros k1 k2 k' M1 M2 Hi U1 U2.
  - inversion M1; inversion M2; subst; reflexivity.
  - inversion M1 as [|s1 r1 j1 N1|n1 u1 r1 j1 R1 D1 N1]; subst; inversion M2 as [|s2 r2 j2 N2|n2 u2 r2 j2 R2 D2 N2]; subst;
      inversion U1; subst; inversion U2; subst; f_equal.
    + eapply IH; [exact N1|exact N2| |eassumption|eassumption]. intros t1 t2 t' Ht. apply Hi. right. exact Ht.
    + f_equal. eapply Hi; [left; reflexivity|exact D1|exact D2|eassumption|eassumption].
    + eapply IH; [exact N1|exact N2| |eassumption|eassumption]. intros t1 t2 t'' Ht. apply Hi. right. exact Ht.
Qed.
End Trees.

Section UnfoldedTrees.
Context (g1 g2 : grammar) (l : term) (r1 r2 : list expression) (x y : expression) (b : str).
Let g := folded g1 l r1 x b y r2 g2.
Let g' := unfolded g1 l r1 x b y r2 g2.
Notation unf := (unfolds l x b y).
Notation unfk := (unfolds_kids l x b y).

Lemma nodup_place (h1 h2 : grammar) q e1 f e2 : NoDup (flat_prods (h1 ++ mkProd q (e1 ++ f :: e2) :: h2)) ->
  forall p e, In p (h1 ++ mkProd q (e1 ++ e2) :: h2) -> p_lhs p = q -> In e (p_rhs p) -> e <> f.
Proof.
  intros Hn p e Hp Hl He ->.
  assert (E : flat_prods (h1 ++ mkProd q (e1 ++ f :: e2) :: h2) =
              (flat_prods h1 ++ map (fun e => (q, e)) e1) ++ (q, f) :: map (fun e => (q, e)) e2 ++ flat_prods h2).
  { unfold flat_prods. rewrite flat_map_app. cbn [flat_map p_lhs p_rhs]. rewrite map_app. cbn [map]. rewrite <- !app_assoc. reflexivity. }
  rewrite E in Hn. apply NoDup_remove_2 in Hn. apply Hn. clear Hn E.
  assert (F : In (q, f) (flat_prods (h1 ++ mkProd q (e1 ++ e2) :: h2))).
  { unfold flat_prods. apply in_flat_map. exists p. split; [exact Hp|]. apply in_map_iff. exists f. rewrite Hl. auto. }
  unfold flat_prods in *. rewrite flat_map_app in F. cbn [flat_map p_lhs p_rhs] in F. rewrite map_app in F. rewrite !in_app_iff in *. tauto.
Qed.

(** The rules without the alternative that is unfolded. *)
Let k := g1 ++ mkProd l (r1 ++ r2) :: g2.

Lemma folded_split m e : In e (alternatives g m) -> e <> x ++ Nonterminal b :: y \/ m <> l -> In e (alternatives k m).
Proof.
  intros H N. apply in_alternatives_iff in H. destruct H as (p & Hp & Hl & He). unfold g, folded in Hp. apply in_alternatives_iff.
  apply in_app_iff in Hp. destruct Hp as [Hp|[<-|Hp]].
  - exists p. split; [apply in_app_iff; auto|auto].
  - exists (mkProd l (r1 ++ r2)). split; [apply in_app_iff; right; left; reflexivity|]. split; [exact Hl|]. cbn [p_lhs p_rhs] in *.
    apply in_app_iff in He. apply in_app_iff. destruct He as [He|[He|He]]; [auto| |auto]. exfalso. subst. destruct N; congruence.
  - exists p. split; [apply in_app_iff; right; right; exact Hp|auto].
Qed.
Lemma k_unfolded m e : In e (alternatives k m) -> In e (alternatives g' m).
Proof.
  intro H. apply in_alternatives_iff in H. destruct H as (p & Hp & Hl & He). apply in_alternatives_iff.
  apply in_app_iff in Hp. destruct Hp as [Hp|[<-|Hp]].
  - exists p. split; [apply in_app_iff; auto|auto].
  - eexists. split; [apply in_app_iff; right; left; reflexivity|]. split; [exact Hl|]. cbn [p_lhs p_rhs] in *. rewrite !in_app_iff in *. tauto.
  - exists p. split; [apply in_app_iff; right; right; exact Hp|auto].
Qed.
Lemma k_folded m e : In e (alternatives k m) -> In e (alternatives g m).
Proof.
  intro H. apply in_alternatives_iff in H. destruct H as (p & Hp & Hl & He). apply in_alternatives_iff.
  apply in_app_iff in Hp. destruct Hp as [Hp|[<-|Hp]].
  - exists p. split; [apply in_app_iff; auto|auto].
  - eexists. split; [apply in_app_iff; right; left; reflexivity|]. split; [exact Hl|]. cbn [p_lhs p_rhs] in *. rewrite !in_app_iff in *. cbn [In]. tauto.
  - exists p. split; [apply in_app_iff; right; right; exact Hp|auto].
Qed.
Lemma unfolded_split m e : In e (alternatives g' m) ->
  In e (alternatives k m) \/ m = l /\ exists f, In f (alternatives g (Nonterminal b)) /\ e = x ++ f ++ y.
Proof.
  intro H. apply in_alternatives_iff in H. destruct H as (p & Hp & Hl & He). apply in_app_iff in Hp. destruct Hp as [Hp|[<-|Hp]].
  - left. apply in_alternatives_iff. exists p. split; [apply in_app_iff; auto|auto].
  - cbn [p_lhs p_rhs] in *. rewrite !in_app_iff in He. destruct He as [He|[He|He]].
    + left. apply in_alternatives_iff. eexists. split; [apply in_app_iff; right; left; reflexivity|]. split; [exact Hl|]. cbn [p_rhs]. apply in_app_iff. auto.
    + right. split; [auto|]. apply in_map_iff in He. destruct He as (f & <- & Hf). eauto.
    + left. apply in_alternatives_iff. eexists. split; [apply in_app_iff; right; left; reflexivity|]. split; [exact Hl|]. cbn [p_rhs]. apply in_app_iff. auto.
  - left. apply in_alternatives_iff. exists p. split; [apply in_app_iff; right; right; exact Hp|auto].
Qed.

Lemma k_not_folded e : NoDup (flat_prods g) -> In e (alternatives k l) -> e <> x ++ Nonterminal b :: y.
Proof.
  intros Hn H. apply in_alternatives_iff in H. destruct H as (p & Hp & Hl & He). exact (nodup_place g1 g2 l r1 _ r2 Hn p e Hp Hl He).
Qed.
Lemma k_not_unfolded e f : NoDup (flat_prods g') -> In e (alternatives k l) -> In f (alternatives g (Nonterminal b)) -> e <> x ++ f ++ y.
Proof.
  intros Hn H Hf. apply in_split in Hf. destruct Hf as (f1 & f2 & Ef).
  unfold g', unfolded in Hn. change (folded g1 l r1 x b y r2 g2) with g in Hn. rewrite Ef, map_app in Hn. cbn [map] in Hn. rewrite <- app_assoc, app_assoc in Hn. cbn [app] in Hn.
  apply in_alternatives_iff in H. destruct H as (p & Hp & Hl & He). unfold k in Hp. apply in_app_iff in Hp. destruct Hp as [Hp|[<-|Hp]].
  - eapply (nodup_place _ _ _ _ _ _ Hn p); [apply in_app_iff; left; exact Hp|exact Hl|exact He].
  - eapply (nodup_place _ _ _ _ _ _ Hn); [apply in_app_iff; right; left; reflexivity|reflexivity|]. cbn [p_rhs] in *. rewrite !in_app_iff in *. tauto.
  - eapply (nodup_place _ _ _ _ _ _ Hn p); [apply in_app_iff; right; right; exact Hp|exact Hl|exact He].
Qed.

Lemma partner_kids e ks : kids_match g e ks -> (forall t, In (Sub t) ks -> derives g t -> exists t', unf t t' /\ derives g' t') ->
  exists ks', unfk ks ks' /\ kids_match g' e ks'.
Proof.
  intros H. induction H as [|s r ks H IH|n t r ks R D H IH]; intro Hi.
  - exists []. split; constructor.
  - destruct IH as (ks' & U & M); [intros t Ht; apply Hi; right; exact Ht|]. exists (Leaf s :: ks'). split; constructor; assumption.
  - destruct IH as (ks' & U & M); [intros u Hu; apply Hi; right; exact Hu|].
    destruct (Hi t) as (t' & Ut & Dt); [left; reflexivity|exact D|]. exists (Sub t' :: ks').
    split; [constructor; assumption|]. constructor; [rewrite (proj1 (proj1 (unfolds_facts l x y b) _ _ Ut)); exact R|exact Dt|exact M].
Qed.

Lemma kids_at e1 e2 ks : kids_match g (e1 ++ Nonterminal b :: e2) ks -> exists kx ku ky f,
  ks = kx ++ Sub (Node (Nonterminal b) ku) :: ky /\ kids_match g e1 kx /\ In f (alternatives g (Nonterminal b)) /\ kids_match g f ku /\
  kids_match g e2 ky.
Proof.
  intro Hk. apply kids_match_app_inv in Hk. destruct Hk as (kx & k2 & -> & Hx & H2). inversion H2 as [| |n [n' ku] r ky Hr Hd Hy]; subst.
  cbn [root] in Hr. subst n'. apply derives_alternative in Hd. destruct Hd as (f & Hf & Hku). exists kx, ku, ky, f. auto.
Qed.

Lemma term_expression_dec (a a' : term * expression) : {a = a'} + {a <> a'}.
Proof.
  assert (T : forall u v : term, {u = v} + {u <> v}).
  { intros [u|u] [v|v]; try (right; discriminate); destruct (str_eq_dec u v) as [->|N]; [left; reflexivity|right; congruence|left; reflexivity|right; congruence]. }
  decide equality. apply (list_eq_dec T).
Qed.

Lemma folded_partner : forall t, derives g t -> exists t', unf t t' /\ derives g' t'.
Proof.
  induction t as [m ks IH] using below_ind. intro H. apply derives_alternative in H. destruct H as (e & He & Hk).
  destruct (term_expression_dec (m, e) (l, x ++ Nonterminal b :: y)) as [E|N].
  - injection E as -> ->. destruct (kids_at _ _ _ Hk) as (kx & ku & ky & f & -> & Hx & Hf & Hu & Hy).
    assert (IH' := fun t Ht => in_below b kx ku ky t Ht (fun t => derives g t -> exists t', unf t t' /\ derives g' t') IH).
    destruct (partner_kids _ _ Hx) as (kx' & Ux & Mx); [intros t Ht; apply IH'; rewrite !in_app_iff; auto|].
    destruct (partner_kids _ _ Hu) as (ku' & Uu & Mu); [intros t Ht; apply IH'; rewrite !in_app_iff; auto|].
    destruct (partner_kids _ _ Hy) as (ky' & Uy & My); [intros t Ht; apply IH'; rewrite !in_app_iff; auto|].
    exists (Node l (kx' ++ ku' ++ ky')). split.
    + apply unfolds_here; try assumption; eapply shapes_match; eassumption.
    + apply derives_alternative. exists (x ++ f ++ y). split; [apply unfolded_new, Hf|]. repeat apply kids_match_app; assumption.
  - destruct (partner_kids _ _ Hk) as (ks' & U & M); [intros t Ht; apply (IH t t Ht), subtree_here|].
    exists (Node m ks'). split.
    + apply unfolds_other; [|exact U]. rewrite (shapes_match _ _ _ Hk). exact N.
    + apply derives_alternative. exists e. split; [|exact M]. apply k_unfolded, folded_split; [exact He|].
      destruct (term_expression_dec (m, []) (l, [])) as [E|N']; [left|right; intros ->; apply N'; reflexivity].
      injection E as ->. intros ->. apply N. reflexivity.
Qed.

Lemma origin_kids e ks' : kids_match g' e ks' -> (forall t', In (Sub t') ks' -> derives g' t' -> exists t, unf t t' /\ derives g t) ->
  exists ks, unfk ks ks' /\ kids_match g e ks.
Proof.
  intros H. induction H as [|s r ks H IH|n t r ks R D H IH]; intro Hi.
  - exists []. split; constructor.
  - destruct IH as (ks' & U & M); [intros t Ht; apply Hi; right; exact Ht|]. exists (Leaf s :: ks'). split; constructor; assumption.
  - destruct IH as (ks' & U & M); [intros u Hu; apply Hi; right; exact Hu|].
    destruct (Hi t) as (t' & Ut & Dt); [left; reflexivity|exact D|]. exists (Sub t' :: ks').
    split; [constructor; assumption|]. constructor; [rewrite <- (proj1 (proj1 (unfolds_facts l x y b) _ _ Ut)); exact R|exact Dt|exact M].
Qed.

Lemma unfolded_origin : NoDup (flat_prods g) -> forall t', derives g' t' -> exists t, unf t t' /\ derives g t.
Proof.
  intros Hn t'. induction t' as [m ks IH] using tree_ind'. intro H. apply derives_alternative in H. destruct H as (e & He & Hk).
  destruct (origin_kids _ _ Hk) as (ks0 & U & M); [intros t Ht; apply (IH t Ht)|].
  destruct (unfolded_split _ _ He) as [He'|(-> & f & Hf & ->)].
  - exists (Node m ks0). split; [|apply derives_alternative; exists e; split; [apply k_folded, He'|exact M]].
    apply unfolds_other; [|exact U]. rewrite (shapes_match _ _ _ M). intro E. injection E as -> E. exact (k_not_folded _ Hn He' E).
  - clear U M. apply kids_match_app_inv in Hk. destruct Hk as (kx & k2 & -> & Hx & H2).
    apply kids_match_app_inv in H2. destruct H2 as (ku & ky & -> & Hu & Hy).
    destruct (origin_kids _ _ Hx) as (kx0 & Ux & Mx); [intros t Ht; apply (IH t); rewrite !in_app_iff; auto|].
    destruct (origin_kids _ _ Hu) as (ku0 & Uu & Mu); [intros t Ht; apply (IH t); rewrite !in_app_iff; auto|].
    destruct (origin_kids _ _ Hy) as (ky0 & Uy & My); [intros t Ht; apply (IH t); rewrite !in_app_iff; auto|].
    exists (Node l (kx0 ++ Sub (Node (Nonterminal b) ku0) :: ky0)). split.
    + apply unfolds_here; try assumption; eapply shapes_match; eassumption.
    + apply derives_alternative. exists (x ++ Nonterminal b :: y). split; [apply folded_old|]. apply kids_match_app; [exact Mx|].
      constructor; [reflexivity| |exact My]. apply derives_alternative. eauto.
Qed.

Lemma unfolds_injective : NoDup (flat_prods g') -> forall t1 t2 t', derives g t1 -> derives g t2 -> unf t1 t' -> unf t2 t' -> t1 = t2.
Proof.
  intros Hn t1. induction t1 as [m ks IH] using below_ind. intros [m2 js] t' H1 H2 U1 U2.
  pose proof (proj1 (proj1 (unfolds_facts l x y b) _ _ U1)) as R1. pose proof (proj1 (proj1 (unfolds_facts l x y b) _ _ U2)) as R2.
  cbn [root] in R1, R2. rewrite R1 in R2. symmetry in R2. subst m2. clear R1.
  apply derives_alternative in H1, H2. destruct H1 as (e1 & He1 & M1), H2 as (e2 & He2 & M2).
  assert (C : forall ks js e kx ku ky kx' ku' ky' ks',
            In e (alternatives g l) -> kids_match g e js -> (l, map shape js) <> (l, x ++ Nonterminal b :: y) -> unfk js ks' ->
            ks = kx ++ Sub (Node (Nonterminal b) ku) :: ky -> kids_match g (x ++ Nonterminal b :: y) ks ->
            map shape kx = x -> unfk kx kx' -> unfk ku ku' -> unfk ky ky' -> kx' ++ ku' ++ ky' = ks' -> False).
  { clear IH U1 U2 He1 He2 M1 M2. clear ks js. intros ks js e kx ku ky kx' ku' ky' ks' He M N U -> Mk Sx Ux Uu Uy E.
    destruct (kids_at _ _ _ Mk) as (jx & ju & jy & f & Ej & Mx & Hf & Mu & My).
    assert (L : List.length kx = List.length jx) by (exact (shapes_length2 _ _ _ Sx (shapes_match _ _ _ Mx))).
    destruct (same_split _ _ _ _ L Ej) as [-> E2]. injection E2 as -> ->.
    apply (k_not_unfolded e f Hn); [|exact Hf|].
    - apply folded_split; [exact He|]. left. rewrite <- (shapes_match _ _ _ M). intro F. apply N. rewrite F. reflexivity.
    - rewrite <- (shapes_match _ _ _ M), <- (shapes_match _ _ _ Mx) at 1. rewrite <- (shapes_match _ _ _ Mu), <- (shapes_match _ _ _ My).
      rewrite <- (proj1 (proj2 (unfolds_facts l x y b) _ _ U)), <- E, !map_app.
      rewrite (proj1 (proj2 (unfolds_facts l x y b) _ _ Ux)), (proj1 (proj2 (unfolds_facts l x y b) _ _ Uu)), (proj1 (proj2 (unfolds_facts l x y b) _ _ Uy)).
      reflexivity. }
  destruct (unfolds_inv _ _ _ _ _ _ _ U1) as [(kx & ku & ky & kx' & ku' & ky' & Em & Ek & -> & Sx & Sy & Ux & Uu & Uy)|(ks1 & -> & N1 & K1)];
  destruct (unfolds_inv _ _ _ _ _ _ _ U2) as [(jx & ju & jy & jx' & ju' & jy' & Em' & Ej & Et & Tx & Ty & Jx & Ju & Jy)|(ks2 & Et & N2 & K2)].
  - subst m ks js. injection Et as E. clear Em' C.
    assert (E1 : e1 = x ++ Nonterminal b :: y) by (rewrite <- (shapes_match _ _ _ M1); apply here_shape; assumption).
    assert (E2 : e2 = x ++ Nonterminal b :: y) by (rewrite <- (shapes_match _ _ _ M2); apply here_shape; assumption). subst e1 e2.
    destruct (kids_at _ _ _ M1) as (kx2 & ku2 & ky2 & f & Ek & Mx & Hf & Mu & My).
    assert (L : List.length kx = List.length kx2) by (exact (shapes_length2 _ _ _ Sx (shapes_match _ _ _ Mx))).
    destruct (same_split _ _ _ _ L Ek) as [<- F]. injection F as <- <-.
    destruct (kids_at _ _ _ M2) as (jx2 & ju2 & jy2 & f' & Ej & Mx' & Hf' & Mu' & My').
    assert (L' : List.length jx = List.length jx2) by (exact (shapes_length2 _ _ _ Tx (shapes_match _ _ _ Mx'))).
    destruct (same_split _ _ _ _ L' Ej) as [<- F]. injection F as <- <-.
    assert (L1 : List.length kx' = List.length jx').
    { etransitivity; [exact (unfk_length _ _ _ _ _ _ Ux)|]. etransitivity; [exact (shapes_length2 _ _ _ Sx Tx)|].
      symmetry. exact (unfk_length _ _ _ _ _ _ Jx). }
    destruct (same_split _ _ _ _ L1 E) as [<- E']. clear E.
    assert (L2 : List.length ku' = List.length ju').
    { apply (f_equal (@List.length _)) in E'. rewrite !app_length in E'.
      assert (L3 : List.length ky' = List.length jy').
      { etransitivity; [exact (unfk_length _ _ _ _ _ _ Uy)|]. etransitivity; [exact (shapes_length2 _ _ _ Sy Ty)|].
        symmetry. exact (unfk_length _ _ _ _ _ _ Jy). }
      lia. }
    destruct (same_split _ _ _ _ L2 E') as [<- <-].
    assert (Ff : f' = f).
    { rewrite <- (shapes_match _ _ _ Mu), <- (shapes_match _ _ _ Mu').
      rewrite <- (proj1 (proj2 (unfolds_facts l x y b) _ _ Uu)). symmetry. apply (proj1 (proj2 (unfolds_facts l x y b) _ _ Ju)). } subst f'.
    assert (IH' := fun t Ht => in_below b kx ku ky t Ht (fun t1 => forall t2 t', derives g t1 -> derives g t2 -> unf t1 t' -> unf t2 t' -> t1 = t2) IH).
    f_equal. rewrite (unfk_injective l x y b g x kx jx kx'), (unfk_injective l x y b g f ku ju ku'), (unfk_injective l x y b g y ky jy ky');
      try assumption; try reflexivity; (intros u1 u2 u' Hu; apply IH'; rewrite !in_app_iff; auto).
  - exfalso. injection Et as <- E. eapply (C ks js e2); try eassumption. replace (x ++ Nonterminal b :: y) with e1; [exact M1|].
    rewrite <- (shapes_match _ _ _ M1), Ek. apply here_shape; assumption.
  - exfalso. injection Et as -> E. eapply (C js ks e1); try eassumption; [|symmetry; exact E]. replace (x ++ Nonterminal b :: y) with e2; [exact M2|].
    rewrite <- (shapes_match _ _ _ M2), Ej. apply here_shape; assumption.
  - injection Et as E. subst ks2. f_equal.
    assert (Ee : e2 = e1).
    { rewrite <- (shapes_match _ _ _ M1), <- (shapes_match _ _ _ M2).
      rewrite <- (proj1 (proj2 (unfolds_facts l x y b) _ _ K1)). symmetry. apply (proj1 (proj2 (unfolds_facts l x y b) _ _ K2)). } subst e2.
    eapply unfk_injective; [exact M1|exact M2| |exact K1|exact K2]. intros u1 u2 u' Hu. apply (IH u1 u1 Hu), subtree_here.
Qed.

Lemma unfolds_parses s w t t' : unf t t' -> derives g' t' -> parses g s w t -> parses g' s w t'.
Proof.
  intros U D (_ & R & Y). destruct (proj1 (unfolds_facts l x y b) _ _ U) as [R' Y']. split; [exact D|]. split; congruence.
Qed.

Lemma unfolds_returns s w it it' t : opens g s w it -> opens g' s w it' -> returns it t -> exists t', unf t t' /\ returns it' t'.
Proof.
  intros Ho Ho' Ht. apply (returns_iff _ _ _ _ _ Ho) in Ht. destruct (folded_partner t (proj1 Ht)) as (t' & U & D).
  exists t'. split; [exact U|]. apply (returns_iff _ _ _ _ _ Ho'). eapply unfolds_parses; eassumption.
Qed.

Lemma unfolds_all s w ts ts' : NoDup (flat_prods g) -> NoDup (flat_prods g') -> all_trees g s w ts -> all_trees g' s w ts' ->
  exists us, Forall2 unf ts us /\ Permutation us ts'.
Proof.
  intros Hn Hn' H H'. pose proof (all_trees_iff _ _ _ _ H) as A. pose proof (all_trees_iff _ _ _ _ H') as A'.
  assert (F : exists us, Forall2 (fun t u => unf t u /\ derives g' u) ts us).
  { assert (D : forall t, In t ts -> derives g t) by (intros t Ht; apply A in Ht; apply Ht). clear A H H'.
    induction ts as [|t ts IH]; [exists []; constructor|]. destruct IH as (us & Hus); [intros u Hu; apply D; right; exact Hu|].
    destruct (folded_partner t) as (t' & U & D'); [apply D; left; reflexivity|]. exists (t' :: us). constructor; auto. }
  destruct F as (us & F). exists us. split; [clear - F; induction F as [|t u ts us (U & _) F IH]; constructor; assumption|].
  apply NoDup_Permutation.
  - pose proof (all_trees_nodup _ _ _ _ Hn H) as N. assert (D : forall t, In t ts -> derives g t) by (intros t Ht; apply A in Ht; apply Ht).
    clear A H H'. induction F as [|t u ts us (U & Du) F IH]; [constructor|]. inversion N as [|? ? N1 N2]; subst. constructor.
    + intro Hu. assert (P : exists t2, In t2 ts /\ unf t2 u).
      { clear - F Hu. induction F as [|t2 u2 ts us (U & _) F IH]; [destruct Hu|]. destruct Hu as [->|Hu]; [exists t2; split; [left; reflexivity|exact U]|].
        destruct (IH Hu) as (t3 & I3 & U3). exists t3. split; [right; exact I3|exact U3]. }
      destruct P as (t2 & I2 & U2). apply N1.
      rewrite (unfolds_injective Hn' t t2 u); [exact I2|apply D; left; reflexivity|apply D; right; exact I2|exact U|exact U2].
    + apply IH; [exact N2|intros v Hv; apply D; right; exact Hv].
  - exact (all_trees_nodup _ _ _ _ Hn' H').
  - intro u. split; intro Hu.
    + apply A'. assert (P : exists t, In t ts /\ unf t u /\ derives g' u).
      { clear - F Hu. induction F as [|t2 u2 ts us U F IH]; [destruct Hu|]. destruct Hu as [->|Hu]; [exists t2; split; [left; reflexivity|exact U]|].
        destruct (IH Hu) as (t3 & I3 & U3). exists t3. split; [right; exact I3|exact U3]. }
      destruct P as (t & It & U & D). apply A in It. eapply unfolds_parses; eassumption.
    + apply A' in Hu. destruct (unfolded_origin Hn u (proj1 Hu)) as (t & U & D).
      assert (It : In t ts).
      { apply A. destruct Hu as (_ & R & Y). destruct (proj1 (unfolds_facts l x y b) _ _ U) as [R' Y']. split; [exact D|]. split; congruence. }
      clear - F It U. induction F as [|t2 u2 ts us (U2 & _) F IH]; [destruct It|]. destruct It as [->|It]; [left|right; auto].
      eapply unfolds_function; eassumption.
Qed.
End UnfoldedTrees.
