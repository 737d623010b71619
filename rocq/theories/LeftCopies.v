(** How often the trees are returned for rules without left recursion, if alternatives are listed more than once. *)
From Verif Require Export LeftTrees.
From Verif Require Import EarleyInv EarleyMain EarleyExact ExtendProofs CombineProofs SimplifyProofs SimplifyEnds CopiesProofs CountProofs.
From Coq Require Import Lia Permutation.

Definition ed := list_eq_dec term_eq_dec.
Definition kid_copies (g : grammar) (ks : list pnode) : nat := fold_right (fun k n => match k with Leaf _ => n | Sub t => copies g t * n end) 1 ks.
Lemma kid_copies_sub g (t : ptree) ks : kid_copies g (Sub t :: ks) = copies g t * kid_copies g ks.
Proof. reflexivity. Qed.
Lemma kid_copies_app g k1 k2 : kid_copies g (k1 ++ k2) = kid_copies g k1 * kid_copies g k2.
Proof.
  induction k1 as [|[s|t] k1 IH]; [symmetry; apply Nat.mul_1_l|exact IH|]. change (copies g t * kid_copies g (k1 ++ k2) = copies g t * kid_copies g k1 * kid_copies g k2).
  rewrite IH. apply Nat.mul_assoc.
Qed.
Lemma matched_terms g e ks : kids_match g e ks -> map term_of ks = e.
Proof. induction 1 as [|s r ks H IH|n t r ks Hn Hd H IH]; [reflexivity| |]; cbn [map term_of]; rewrite IH; [reflexivity|]. rewrite <- Hn. reflexivity. Qed.
Lemma copies_node g l e ks : kids_match g e ks -> copies g (Node l ks) = count_occ ed (alternatives g l) e * kid_copies g ks.
Proof.
  intro H. unfold ed. rewrite occ_alternatives, <- (matched_terms g e ks H). cbn [copies]. generalize (count_occ alternative_eq_dec (flat_prods g) (l, map term_of ks)). intro c.
  clear H. induction ks as [|[s|t] ks IH]; [symmetry; apply Nat.mul_1_r|exact IH|]. cbn [fold_right]. rewrite kid_copies_sub, IH.
  generalize (copies g t) (kid_copies g ks). intros x y. lia.
Qed.

Lemma alternatives_app g h l : alternatives (g ++ h) l = alternatives g l ++ alternatives h l.
Proof. apply flat_map_app. Qed.
Lemma alternatives_none g n : ~ has_lhs g n -> alternatives g (Nonterminal n) = [].
Proof.
  intro H. unfold alternatives. induction g as [|p g IH]; [reflexivity|]. cbn [flat_map]. destruct (term_eqb (p_lhs p) (Nonterminal n)) eqn:E.
  - exfalso. apply H. exists p. split; [left; reflexivity|apply term_eqb_eq; exact E].
  - apply IH. intros (q & Hq & El). apply H. exists q. split; [right; exact Hq|exact El].
Qed.
Lemma alternatives_cons l es g l' : alternatives (mkProd l es :: g) l' = (if term_eqb l l' then es else []) ++ alternatives g l'.
Proof. reflexivity. Qed.
Lemma occ_image {A B} (d : forall x y : A, {x = y} + {x <> y}) (d' : forall x y : B, {x = y} + {x <> y}) (f : A -> B) l t : (forall x, In x l -> f x = f t -> x = t) ->
  count_occ d' (map f l) (f t) = count_occ d l t.
Proof.
  induction l as [|x l IH]; intro H; [reflexivity|]. cbn [map count_occ]. rewrite IH by (intros y Hy; apply H; right; exact Hy).
  destruct (d' (f x) (f t)) as [E|E], (d x t) as [F|F]; try reflexivity; [destruct F; exact (H x (or_introl eq_refl) E)|subst; contradiction E; reflexivity].
Qed.

Section Copies.
Context (g1 : grammar) (a b : str) (xs ys : list expression) (g2 : grammar).
Let g := left_rules g1 a xs ys g2.
Let g' := right_rules g1 a b xs ys g2.
Context (Ha : ~ has_lhs (g1 ++ g2) a) (Hb : ~ has_lhs g b) (Hr : ~ refers g b).
Context (Hy : forall y, In y ys -> ~ begins_with a y).

Lemma none_of n : ~ has_lhs (g1 ++ g2) n -> alternatives g1 (Nonterminal n) = [] /\ alternatives g2 (Nonterminal n) = [].
Proof. intro H. split; apply alternatives_none; intros (p & Hp & E); apply H; exists p; (split; [apply in_app_iff; auto|exact E]). Qed.
Lemma none_b : ~ has_lhs (g1 ++ g2) b.
Proof. intros (p & Hp & E). apply Hb. exists p. split; [|exact E]. apply in_app_iff in Hp. apply in_app_iff. cbn [In]. tauto. Qed.
Lemma name_is n m : term_eqb (Nonterminal n) (Nonterminal m) = true <-> n = m.
Proof. rewrite term_eqb_eq. split; congruence. Qed.
Lemma name_not n m : n <> m -> term_eqb (Nonterminal n) (Nonterminal m) = false.
Proof. intro N. destruct (term_eqb (Nonterminal n) (Nonterminal m)) eqn:E; [apply name_is in E; contradiction|reflexivity]. Qed.
Let Dab : a <> b := different g1 a b xs ys g2 Ha Hb Hr.

Lemma alt_left : alternatives g (Nonterminal a) = map (cons (Nonterminal a)) xs ++ ys.
Proof.
  unfold g, left_rules. destruct (none_of a Ha) as [E1 E2]. rewrite alternatives_app, alternatives_cons, E1, E2, (proj2 (name_is a a) eq_refl). apply app_nil_r.
Qed.
Lemma alt_right : alternatives g' (Nonterminal a) = map (fun y => y ++ [Nonterminal b]) ys.
Proof.
  unfold g', right_rules. destruct (none_of a Ha) as [E1 E2]. rewrite alternatives_app, !alternatives_cons, E1, E2, (proj2 (name_is a a) eq_refl), (name_not b a) by congruence. apply app_nil_r.
Qed.
Lemma alt_rest : alternatives g' (Nonterminal b) = map (fun x => x ++ [Nonterminal b]) xs ++ [[Terminal []]].
Proof.
  unfold g', right_rules. destruct (none_of b none_b) as [E1 E2]. rewrite alternatives_app, !alternatives_cons, E1, E2, (proj2 (name_is b b) eq_refl), (name_not a b) by congruence. apply app_nil_r.
Qed.
Lemma alt_other n : n <> a -> n <> b -> alternatives g (Nonterminal n) = alternatives g' (Nonterminal n).
Proof.
  intros Na Nb. unfold g, g', left_rules, right_rules. rewrite !alternatives_app, !alternatives_cons, (name_not a n), (name_not b n) by congruence. reflexivity.
Qed.

Lemma occ_more x : count_occ ed (alternatives g (Nonterminal a)) (Nonterminal a :: x) = count_occ ed (alternatives g' (Nonterminal b)) (x ++ [Nonterminal b]).
Proof.
  rewrite alt_left, alt_rest, !count_occ_app. rewrite (occ_image ed ed (cons (Nonterminal a)) xs x) by (intros z _ D; congruence).
  rewrite (occ_image ed ed (fun x => x ++ [Nonterminal b]) xs x) by (intros z _ D; exact (app_inv_tail _ _ _ D)). apply f_equal2; [reflexivity|].
  transitivity 0; [apply count_occ_not_In; intro Hin; apply (Hy _ Hin); eexists; reflexivity|]. symmetry. apply count_occ_not_In. intros [D|[]].
  apply (f_equal (@rev term)) in D. rewrite rev_app_distr in D. discriminate D.
Qed.
Lemma occ_first y : In y ys -> count_occ ed (alternatives g (Nonterminal a)) y = count_occ ed (alternatives g' (Nonterminal a)) (y ++ [Nonterminal b]).
Proof.
  intro Hin. rewrite alt_left, alt_right, count_occ_app. rewrite (occ_image ed ed (fun x => x ++ [Nonterminal b]) ys y) by (intros z _ D; exact (app_inv_tail _ _ _ D)).
  rewrite (proj1 (count_occ_not_In ed (map (cons (Nonterminal a)) xs) y)); [reflexivity|]. intro H. apply in_map_iff in H. destruct H as (x & <- & _). apply (Hy _ Hin). eexists. reflexivity.
Qed.
Lemma copies_end : copies g' (no_more b) = 1.
Proof.
  unfold no_more. rewrite (copies_node g' (Nonterminal b) [Terminal []] [Leaf []]) by repeat constructor. rewrite alt_rest, count_occ_app. cbn [kid_copies fold_right]. rewrite Nat.mul_1_r.
  rewrite (proj1 (count_occ_not_In ed (map (fun x => x ++ [Nonterminal b]) xs) [Terminal []])).
  - cbn [count_occ plus]. destruct (ed [Terminal []] [Terminal []]) as [_|N]; [reflexivity|contradiction N; reflexivity].
  - intro H. apply in_map_iff in H. destruct H as (x & D & _). apply (f_equal (@rev term)) in D. rewrite rev_app_distr in D. discriminate D.
Qed.

Lemma kids_copied e ks : kids_match g e ks -> (forall u, In (Sub u) ks -> derives g u -> copies g' (turn_tree a b u) = copies g u) -> kid_copies g' (map (turn_node a b) ks) = kid_copies g ks.
Proof.
  intro H. induction H as [|s r ks H IH|n t r ks Hn Hd H IH]; intro K; [reflexivity| |].
  - exact (IH (fun u Hu => K u (or_intror Hu))).
  - change (copies g' (turn_tree a b t) * kid_copies g' (map (turn_node a b) ks) = copies g t * kid_copies g ks).
    rewrite (K t (or_introl eq_refl) Hd), (IH (fun u Hu => K u (or_intror Hu))). reflexivity.
Qed.

Lemma turned_copies t : derives g t -> forall r, derives g' r -> root r = Nonterminal b ->
  (root t = Nonterminal a -> copies g' (turn a b t r) = copies g t * copies g' r) /\ (root t <> Nonterminal a -> copies g' (turn a b t r) = copies g t).
Proof.
  induction t as [l ks IH] using tree_ind'. intros Hd r Hdr Hrr. cbn [root]. pose proof (end_derives g1 a b xs ys g2 Ha Hb Hr) as [De Re].
  assert (K : forall u, In (Sub u) ks -> derives g u -> copies g' (turn_tree a b u) = copies g u).
  { intros u Hu Hdu. destruct (IH u Hu Hdu (no_more b) De Re) as [I1 I2]. destruct (term_eq_dec (root u) (Nonterminal a)) as [E|N]; [|exact (I2 N)].
    etransitivity; [exact (I1 E)|]. rewrite copies_end. apply Nat.mul_1_r. }
  assert (Kd : forall u, In (Sub u) ks -> derives g u -> derives g' (turn_tree a b u)).
  { intros u _ Hdu. exact (turned_derives g1 a b xs ys g2 Ha Hb Hr Hy u Hdu (no_more b) De Re). }
  split.
  - intros ->. destruct (node_A g1 a b xs ys g2 Ha Hb Hr ks Hd) as [(t0 & rest & x & -> & Hx & Ht0 & Hd0 & Hk)|(y & Hin & Hk)].
    + rewrite (turn_more a b t0 rest r Ht0).
      assert (Hk' : kids_match g' (x ++ [Nonterminal b]) (map (turn_node a b) rest ++ [Sub r])).
      { apply kids_match_app; [|constructor; [exact Hrr|exact Hdr|constructor]]. apply (turned_kids g1 a b xs ys g2 x rest Hk). intros u Hu. apply Kd. right. exact Hu. }
      assert (D1 : derives g' (Node (Nonterminal b) (map (turn_node a b) rest ++ [Sub r]))).
      { apply derives_alternative. eexists. split; [|exact Hk']. rewrite alt_rest. apply in_app_iff. left. apply (in_map (fun x => x ++ [Nonterminal b])). exact Hx. }
      etransitivity; [exact (proj1 (IH t0 (or_introl eq_refl) Hd0 _ D1 eq_refl) Ht0)|].
      assert (Hka : kids_match g (Nonterminal a :: x) (Sub t0 :: rest)) by (constructor; assumption).
      etransitivity; [apply f_equal; exact (copies_node g' (Nonterminal b) _ _ Hk')|]. etransitivity; [|apply (f_equal (fun z => z * copies g' r)); symmetry; exact (copies_node g (Nonterminal a) _ _ Hka)].
      rewrite occ_more, kid_copies_app, !kid_copies_sub, (kids_copied x rest Hk (fun u Hu => K u (or_intror Hu))). cbn [kid_copies fold_right].
      generalize (copies g t0) (copies g' r) (fold_right (fun k n => match k with Leaf _ => n | Sub t => copies g t * n end) 1 rest) (count_occ ed (alternatives g' (Nonterminal b)) (x ++ [Nonterminal b])) (kid_copies g rest). clear. intros. nia.
    + rewrite (turn_first g1 a b xs ys g2 Hy y ks r Hk Hin).
      assert (Hk' : kids_match g' (y ++ [Nonterminal b]) (map (turn_node a b) ks ++ [Sub r])).
      { apply kids_match_app; [|constructor; [exact Hrr|exact Hdr|constructor]]. exact (turned_kids g1 a b xs ys g2 y ks Hk Kd). }
      etransitivity; [exact (copies_node g' (Nonterminal a) _ _ Hk')|]. etransitivity; [|apply (f_equal (fun z => z * copies g' r)); symmetry; exact (copies_node g (Nonterminal a) _ _ Hk)].
      rewrite (occ_first y Hin), kid_copies_app, kid_copies_sub, (kids_copied y ks Hk K). change (kid_copies g' []) with 1.
      generalize (copies g' r) (kid_copies g ks) (count_occ ed (alternatives g' (Nonterminal a)) (y ++ [Nonterminal b])). clear. intros. nia.
  - intro N. rewrite (turn_other a b l ks r N). apply derives_alternative in Hd. destruct Hd as (e & He & Hk).
    etransitivity; [exact (copies_node g' l e _ (turned_kids g1 a b xs ys g2 e ks Hk Kd))|]. etransitivity; [|symmetry; exact (copies_node g l e ks Hk)].
    rewrite (kids_copied e ks Hk K). apply (f_equal (fun z => z * kid_copies g ks)). destruct l as [s|n].
    + unfold g, g', left_rules, right_rules. rewrite !alternatives_app, !alternatives_cons. reflexivity.
    + rewrite (alt_other n); [reflexivity|congruence|]. intros ->. apply in_alternatives_iff in He. destruct He as (q & Hq & El & _). apply Hb. exists q. auto.
Qed.
End Copies.

Lemma left_all_copies g1 a b xs ys g2 n w ts ts' : ~ has_lhs (g1 ++ g2) a -> ~ has_lhs (left_rules g1 a xs ys g2) b -> ~ refers (left_rules g1 a xs ys g2) b -> n <> b ->
  (forall y, In y ys -> ~ begins_with a y) ->
  all_trees (left_rules g1 a xs ys g2) n w ts -> all_trees (right_rules g1 a b xs ys g2) n w ts' -> Permutation (map (turn_tree a b) ts) ts'.
Proof.
  intros Ha Hb Hr N Hy H H'. pose proof (all_trees_iff _ _ _ _ H) as I. pose proof (all_trees_iff _ _ _ _ H') as I'.
  apply (Permutation_count_occ ptree_eq_dec). intro u. destruct (in_dec ptree_eq_dec u ts') as [Hin|Hn].
  - pose proof Hin as Hp'. apply I' in Hp'. destruct (turn_onto g1 a b xs ys g2 Ha Hb Hr Hy n w u N Hp') as (t & Ht & <-).
    rewrite (occ_image ptree_eq_dec ptree_eq_dec (turn_tree a b) ts t).
    + destruct H as (it & itf & Ho & Hp & He), H' as (it' & itf' & Ho' & Hp2 & He').
      rewrite (copies_all _ _ _ _ _ _ t Ho Hp He Ht), (copies_all _ _ _ _ _ _ _ Ho' Hp2 He' Hp'). symmetry.
      pose proof (end_derives g1 a b xs ys g2 Ha Hb Hr) as [De Re]. destruct (turned_copies g1 a b xs ys g2 Ha Hb Hr Hy t (proj1 Ht) (no_more b) De Re) as [I1 I2].
      destruct (term_eq_dec (root t) (Nonterminal a)) as [E|Nt]; [|exact (I2 Nt)]. etransitivity; [exact (I1 E)|]. rewrite (copies_end g1 a b xs ys g2 Ha Hb Hr). apply Nat.mul_1_r.
    + intros x Hx E. apply I in Hx. exact (turn_injective g1 a b xs ys g2 Ha Hb Hr Hy x t (proj1 Hx) (proj1 Ht) E).
  - rewrite (proj1 (count_occ_not_In ptree_eq_dec _ _) Hn). apply count_occ_not_In. intro Hin. apply Hn. apply in_map_iff in Hin. destruct Hin as (t & <- & Ht).
    apply I', (turn_parses g1 a b xs ys g2 Ha Hb Hr Hy n w t N), I, Ht.
Qed.
