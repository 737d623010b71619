(** The number of parse trees. *)
From Verif Require Export CountSpec.
From Verif Require Import EarleyInv EarleyMain EarleyExact ExtendProofs CombineProofs SimplifyProofs PartsProofs CopiesProofs.
From Coq Require Import Lia Permutation.

Lemma behind_iff s w r : behind s w = Some r <-> w = s ++ r.
Proof.
  revert w. induction s as [|c s IH]; intros w; cbn [behind app]; [split; congruence|]. destruct w as [|d w]; [split; discriminate|].
  destruct (N.eqb_spec c d) as [->|N]; [rewrite IH; split; congruence|]. split; [discriminate|congruence].
Qed.

(** ** The trees themselves *)
Fixpoint reads (f : str -> str -> list ptree) (e : expression) (w : str) : list (list pnode) :=
  match e with
  | [] => match w with [] => [[]] | _ => [] end
  | Terminal s :: e => match behind s w with Some r => map (cons (Leaf s)) (reads f e r) | None => [] end
  | Nonterminal n :: e => flat_map (fun i => map (fun x => Sub (fst x) :: snd x) (list_prod (f n (firstn i w)) (reads f e (skipn i w)))) (seq 0 (S (List.length w)))
  end.
Fixpoint trees (h : nat) (g : grammar) (n w : str) : list ptree :=
  match h with
  | 0 => []
  | S h => flat_map (fun e => map (Node (Nonterminal n)) (reads (trees h g) e w)) (alternatives g (Nonterminal n))
  end.

Lemma length_flat_map {A B} (f : A -> list B) l : List.length (flat_map f l) = list_sum (map (fun x => List.length (f x)) l).
Proof. induction l as [|x l IH]; [reflexivity|]. cbn [flat_map map]. rewrite app_length, IH. reflexivity. Qed.

Lemma reads_length f f' e : (forall n w, List.length (f n w) = f' n w) -> forall w, List.length (reads f e w) = ways f' e w.
Proof.
  intro H. induction e as [|[s|n] e IH]; intro w; cbn [reads ways]; [destruct w; reflexivity| |].
  - destruct (behind s w); [rewrite map_length; apply IH|reflexivity].
  - rewrite length_flat_map. f_equal. apply map_ext. intro i. rewrite map_length, prod_length, H, IH. reflexivity.
Qed.
Lemma trees_length h g : forall n w, List.length (trees h g n w) = count h g n w.
Proof.
  induction h as [|h IH]; intros n w; [reflexivity|]. cbn [trees count]. rewrite length_flat_map. f_equal. apply map_ext. intro e.
  rewrite map_length. apply reads_length. exact IH.
Qed.

(** ** They are the trees of that height *)
Lemma cut_at (w a b : str) : w = a ++ b -> firstn (List.length a) w = a /\ skipn (List.length a) w = b /\ In (List.length a) (seq 0 (S (List.length w))).
Proof.
  intros ->. split; [|split].
  - rewrite firstn_app, Nat.sub_diag, firstn_all. cbn. apply app_nil_r.
  - rewrite skipn_app, Nat.sub_diag, skipn_all. reflexivity.
  - apply in_seq. rewrite app_length. lia.
Qed.

Section Reads.
Context (g : grammar) (h : nat) (f : str -> str -> list ptree).
Context (Hf : forall n w t, In t (f n w) <-> parses g (Nonterminal n) w t /\ height t <= h).

Lemma in_reads e : forall w ks, In ks (reads f e w) <-> kids_match g e ks /\ flat_map yield_node ks = w /\ list_max (map below ks) <= h.
Proof.
  induction e as [|[s|n] e IH]; intros w ks; cbn [reads].
  - split.
    + destruct w; [|intros []]. intros [<-|[]]. split; [constructor|]. split; [reflexivity|cbn; lia].
    + intros (Hk & Hy & _). inversion Hk; subst. left. reflexivity.
  - split.
    + destruct (behind s w) as [r|] eqn:E; [|intros []]. apply behind_iff in E. subst w. intro H. apply in_map_iff in H. destruct H as (k & <- & H).
      apply IH in H. destruct H as (H1 & H2 & H3). split; [constructor; exact H1|]. split; [cbn [flat_map yield_node]; rewrite H2; reflexivity|exact H3].
    + intros (Hk & Hy & Hh). inversion Hk as [|s' e' k Hk'|]; subst. cbn [flat_map yield_node].
      rewrite (proj2 (behind_iff s _ (flat_map yield_node k)) eq_refl). apply in_map. apply IH. auto.
  - rewrite in_flat_map. split.
    + intros (i & Hi & H). apply in_map_iff in H. destruct H as ((t & k) & <- & H). apply in_prod_iff in H. destruct H as [Ht Hk].
      apply Hf in Ht. destruct Ht as ((Hd & Hr & Hy) & Hh). apply IH in Hk. destruct Hk as (Hk & Hyk & Hhk). cbn [fst snd]. split; [constructor; assumption|]. split.
      * cbn [flat_map yield_node]. etransitivity; [apply (f_equal2 (@app char)); [exact Hy|exact Hyk]|]. apply firstn_skipn.
      * cbn [map below]. change (Nat.max (height t) (list_max (map below k)) <= h). lia.
    + intros (Hk & Hy & Hh). inversion Hk as [| |n' t e' k Hr Hd Hk']; subst. cbn [map below] in Hh.
      change (Nat.max (height t) (list_max (map below k)) <= h) in Hh. cbn [flat_map yield_node].
      destruct (cut_at _ (yield t) (flat_map yield_node k) eq_refl) as (E1 & E2 & E3). exists (List.length (yield t)). split; [exact E3|].
      apply in_map_iff. exists (t, k). split; [reflexivity|]. apply in_prod_iff. rewrite E1, E2. split.
      * apply Hf. split; [split; auto|lia].
      * apply IH. split; [exact Hk'|]. split; [reflexivity|lia].
Qed.

Lemma reads_nodup e : (forall n w, NoDup (f n w)) -> forall w, NoDup (reads f e w).
Proof.
  intro Hn. induction e as [|[s|n] e IH]; intro w; cbn [reads].
  - destruct w; repeat constructor. intros [].
  - destruct (behind s w); [|constructor]. apply FinFun.Injective_map_NoDup; [intros a b E; congruence|apply IH].
  - apply NoDup_flat_map; [apply seq_NoDup| |].
    + intros i _. apply FinFun.Injective_map_NoDup; [intros [a b] [a' b'] E; cbn in E; congruence|]. apply NoDup_list_prod; [apply Hn|apply IH].
    + intros i j ks Hi Hj H1 H2. apply in_map_iff in H1, H2. destruct H1 as ((t & k) & <- & H1), H2 as ((t' & k') & E & H2). cbn [fst snd] in E. injection E as -> ->.
      apply in_prod_iff in H1, H2. destruct H1 as [H1 _], H2 as [H2 _]. apply Hf in H1, H2.
      assert (E : firstn i w = firstn j w). { destruct H1 as ((_ & _ & <-) & _), H2 as ((_ & _ & E) & _). exact E. }
      apply (f_equal (@List.length char)) in E. rewrite !firstn_length in E. apply in_seq in Hi, Hj. lia.
Qed.
End Reads.

Lemma in_trees g h : forall n w t, In t (trees h g n w) <-> parses g (Nonterminal n) w t /\ height t <= h.
Proof.
  induction h as [|h IH]; intros n w t; cbn [trees].
  - split; [intros []|]. intros [_ H]. destruct t. rewrite height_Node in H. lia.
  - rewrite in_flat_map. split.
    + intros (e & He & H). apply in_map_iff in H. destruct H as (ks & <- & H). apply (in_reads g h _ IH) in H. destruct H as (Hk & Hy & Hh).
      split; [|rewrite height_Node; lia]. split; [apply derives_alternative; exists e; auto|]. split; [reflexivity|exact Hy].
    + intros ((Hd & Hr & Hy) & Hh). destruct t as [l ks]. cbn [root] in Hr. subst l. apply derives_alternative in Hd. destruct Hd as (e & He & Hk).
      exists e. split; [exact He|]. apply in_map. apply (in_reads g h _ IH). split; [exact Hk|]. split; [exact Hy|]. rewrite height_Node in Hh. lia.
Qed.

(** ** How often each of them is listed *)
Definition pnode_eq_dec : forall a b : pnode, {a = b} + {a <> b}.
Proof.
  intros [s|t] [s'|t']; [|right; discriminate|right; discriminate|].
  - destruct (list_eq_dec N.eq_dec s s') as [->|N]; [left; reflexivity|right; congruence].
  - destruct (ptree_eq_dec t t') as [->|N]; [left; reflexivity|right; congruence].
Defined.
Definition kids_eq_dec := list_eq_dec pnode_eq_dec.
Definition pair_eq_dec (a b : ptree * list pnode) : {a = b} + {a <> b}.
Proof. destruct a as [t k], b as [t' k']. destruct (ptree_eq_dec t t') as [->|N]; [|right; congruence]. destruct (kids_eq_dec k k') as [->|N]; [left; reflexivity|right; congruence]. Defined.

Lemma occ_flat_map {A B} (dec : forall a b : B, {a = b} + {a <> b}) (f : A -> list B) l x :
  count_occ dec (flat_map f l) x = list_sum (map (fun a => count_occ dec (f a) x) l).
Proof. induction l as [|a l IH]; [reflexivity|]. cbn [flat_map map]. rewrite count_occ_app, IH. reflexivity. Qed.
Lemma occ_prod (A : list ptree) (B : list (list pnode)) t k : count_occ pair_eq_dec (list_prod A B) (t, k) = count_occ ptree_eq_dec A t * count_occ kids_eq_dec B k.
Proof.
  induction A as [|a A IH]; [reflexivity|]. cbn [list_prod]. rewrite count_occ_app, IH. cbn [count_occ]. destruct (ptree_eq_dec a t) as [->|N].
  - rewrite <- (count_occ_map (fun y => (t, y)) kids_eq_dec pair_eq_dec) by (intros x y E; congruence). reflexivity.
  - replace (count_occ pair_eq_dec (map (fun y => (a, y)) B) (t, k)) with 0; [reflexivity|]. symmetry. apply count_occ_not_In. intro H.
    apply in_map_iff in H. destruct H as (y & E & _). congruence.
Qed.
Lemma sum_zero {A} (f : A -> nat) l : (forall x, In x l -> f x = 0) -> list_sum (map f l) = 0.
Proof. induction l as [|a l IH]; intro H; [reflexivity|]. cbn. rewrite (H a (or_introl eq_refl)). apply IH. intros x Hx. apply H. right. exact Hx. Qed.
Lemma sum_single {A} (f : A -> nat) l i : NoDup l -> In i l -> (forall x, In x l -> x <> i -> f x = 0) -> list_sum (map f l) = f i.
Proof.
  intro H. induction H as [|a l Ha H IH]; [intros []|]. intros Hi H0. change (list_sum (map f (a :: l))) with (f a + list_sum (map f l)). destruct Hi as [->|Hi].
  - rewrite sum_zero; [lia|]. intros x Hx. apply H0; [right; exact Hx|]. intros ->. contradiction.
  - rewrite (H0 a (or_introl eq_refl)) by (intros ->; contradiction). apply IH; [exact Hi|]. intros x Hx. apply H0. right. exact Hx.
Qed.

Definition node_copies (g : grammar) (k : pnode) : nat := match k with Leaf _ => 1 | Sub t => copies g t end.
Definition kid_copies (g : grammar) (ks : list pnode) : nat := fold_right (fun k n => node_copies g k * n) 1 ks.
Lemma copies_Node g l ks : copies g (Node l ks) = count_occ alternative_eq_dec (flat_prods g) (l, map shape ks) * kid_copies g ks.
Proof.
  cbn [copies]. change (map term_of ks) with (map shape ks). generalize (count_occ alternative_eq_dec (flat_prods g) (l, map shape ks)). intro c.
  induction ks as [|k ks IH]; cbn [fold_right kid_copies]; [lia|]. rewrite IH. fold (kid_copies g ks). destruct k; cbn [node_copies]; lia.
Qed.

Lemma occ_reads g h f : (forall n w t, In t (f n w) <-> parses g (Nonterminal n) w t /\ height t <= h) ->
  (forall n w t, In t (f n w) -> count_occ ptree_eq_dec (f n w) t = copies g t) ->
  forall e w ks, In ks (reads f e w) -> count_occ kids_eq_dec (reads f e w) ks = kid_copies g ks.
Proof.
  intros Hf Hc. induction e as [|[s|n] e IH]; intros w ks H.
  - cbn [reads] in *. destruct w; [|destruct H]. destruct H as [<-|[]]. cbn. destruct (kids_eq_dec [] []); congruence.
  - cbn [reads] in *. destruct (behind s w) as [r|]; [|destruct H]. apply in_map_iff in H. destruct H as (k & <- & H).
    transitivity (count_occ kids_eq_dec (reads f e r) k); [symmetry; apply (count_occ_map (cons (Leaf s)) kids_eq_dec kids_eq_dec); intros x y E; congruence|].
    transitivity (kid_copies g k); [exact (IH r k H)|]. cbn. rewrite Nat.add_0_r. reflexivity.
  - pose proof H as H'. apply (in_reads g h f Hf) in H'. destruct H' as (Hk & Hy & Hh). inversion Hk as [| |n' t e' k Hr Hd Hk']; subst ks n' e'.
    cbn [flat_map yield_node] in Hy. symmetry in Hy. destruct (cut_at w _ _ Hy) as (E1 & E2 & E3).
    cbn [map below] in Hh. change (Nat.max (height t) (list_max (map below k)) <= h) in Hh.
    cbn [reads]. rewrite occ_flat_map.
    assert (P : forall i, count_occ kids_eq_dec (map (fun x => Sub (fst x) :: snd x) (list_prod (f n (firstn i w)) (reads f e (skipn i w)))) (Sub t :: k)
      = count_occ ptree_eq_dec (f n (firstn i w)) t * count_occ kids_eq_dec (reads f e (skipn i w)) k).
    { intro i. rewrite <- occ_prod. symmetry. apply (count_occ_map (fun x : ptree * list pnode => Sub (fst x) :: snd x) pair_eq_dec kids_eq_dec) with (x := (t, k)).
      intros [x1 x2] [y1 y2] E. cbn in E. congruence. }
    rewrite (sum_single _ _ (List.length (yield t)) (seq_NoDup _ _) E3).
    + rewrite P, E1, E2. cbn [kid_copies fold_right node_copies]. f_equal.
      * apply Hc, Hf. split; [split; auto|lia].
      * apply IH. apply (in_reads g h f Hf). split; [exact Hk'|]. split; [reflexivity|lia].
    + intros i Hi Ni. rewrite P. replace (count_occ ptree_eq_dec (f n (firstn i w)) t) with 0; [reflexivity|]. symmetry. apply count_occ_not_In. intro Hin.
      apply Hf in Hin. destruct Hin as ((_ & _ & Hyt) & _). apply Ni. apply (f_equal (@List.length char)) in Hyt. rewrite firstn_length in Hyt. apply in_seq in Hi. lia.
Qed.

Lemma occ_alternatives g l e : count_occ (list_eq_dec term_eq_dec) (alternatives g l) e = count_occ alternative_eq_dec (flat_prods g) (l, e).
Proof.
  unfold alternatives, flat_prods. induction g as [|p g IH]; [reflexivity|]. cbn [flat_map].
  etransitivity; [apply count_occ_app|]. etransitivity; [|symmetry; apply count_occ_app]. apply (f_equal2 Nat.add); [|exact IH].
  destruct (term_eqb (p_lhs p) l) eqn:E.
  - apply term_eqb_eq in E. rewrite E. apply (count_occ_map (fun e => (l, e)) (list_eq_dec term_eq_dec) alternative_eq_dec). intros x y D. congruence.
  - symmetry. apply count_occ_not_In. intro H. apply in_map_iff in H. destruct H as (e' & D & _). injection D as D _. apply term_eqb_eq in D. congruence.
Qed.

Lemma sum_where (l : list expression) e (f : expression -> nat) c : (forall x, In x l -> x <> e -> f x = 0) -> (In e l -> f e = c) ->
  list_sum (map f l) = count_occ (list_eq_dec term_eq_dec) l e * c.
Proof.
  induction l as [|x l IH]; intros H1 H2; [reflexivity|]. change (list_sum (map f (x :: l))) with (f x + list_sum (map f l)). cbn [count_occ].
  rewrite IH; [|intros y Hy; apply H1; right; exact Hy|intro Hy; apply H2; right; exact Hy].
  destruct (list_eq_dec term_eq_dec x e) as [->|N]; [rewrite (H2 (or_introl eq_refl)); lia|]. rewrite (H1 x (or_introl eq_refl) N). lia.
Qed.

Lemma occ_trees g h : forall n w t, In t (trees h g n w) -> count_occ ptree_eq_dec (trees h g n w) t = copies g t.
Proof.
  induction h as [|h IH]; intros n w t H; [destruct H|]. apply in_trees in H. destruct H as ((Hd & Hr & Hy) & Hh). destruct t as [l ks]. cbn [root] in Hr. subst l.
  cbn [trees]. rewrite occ_flat_map, copies_Node, <- occ_alternatives. apply sum_where.
  - intros e _ Ne. apply count_occ_not_In. intro Hin. apply in_map_iff in Hin. destruct Hin as (k & E & Hin). injection E as ->.
    apply (in_reads g h _ (in_trees g h)) in Hin. apply Ne. symmetry. apply (shapes_match _ _ _ (proj1 Hin)).
  - intro He. etransitivity; [symmetry; apply (count_occ_map (Node (Nonterminal n)) kids_eq_dec ptree_eq_dec); intros x y E; congruence|].
    apply (occ_reads g h _ (in_trees g h) IH). apply (in_reads g h _ (in_trees g h)). rewrite height_Node in Hh. split; [|split; [exact Hy|lia]].
    apply derives_alternative in Hd. destruct Hd as (e' & He' & Hk). rewrite (shapes_match _ _ _ Hk). exact Hk.
Qed.

(** ** Counted trees of the parser *)
Lemma occ_length {A} (dec : forall a b : A, {a = b} + {a <> b}) (l l' : list A) : (forall x, count_occ dec l x <= count_occ dec l' x) -> List.length l <= List.length l'.
Proof.
  revert l'. induction l as [|a l IH]; intros l' H; [cbn; lia|].
  assert (Ha : In a l'). { apply (count_occ_In dec). specialize (H a). cbn [count_occ] in H. destruct (dec a a); [lia|congruence]. }
  apply in_split in Ha. destruct Ha as (l1 & l2 & ->). rewrite app_length. cbn [List.length].
  assert (List.length l <= List.length (l1 ++ l2)); [|rewrite app_length in *; lia].
  apply IH. intro x. specialize (H x). rewrite count_occ_app in *. cbn [count_occ] in H. destruct (dec a x); lia.
Qed.
Lemma occ_filter {A} (dec : forall a b : A, {a = b} + {a <> b}) (p : A -> bool) l x : count_occ dec (filter p l) x = if p x then count_occ dec l x else 0.
Proof.
  induction l as [|a l IH]; cbn [filter count_occ]; [destruct (p x); reflexivity|]. destruct (p a) eqn:E; cbn [count_occ]; rewrite IH.
  - destruct (dec a x) as [->|]; [rewrite E; reflexivity|reflexivity].
  - destruct (dec a x) as [->|]; [rewrite E; reflexivity|reflexivity].
Qed.

Definition low (h : nat) (t : ptree) : bool := height t <=? h.

Lemma low_most g n w it ts it' h : opens g (Nonterminal n) w it -> produces it ts it' ->
  List.length (filter (low h) ts) <= count h g n w.
Proof.
  intros Ho Hp. rewrite <- trees_length. apply (occ_length ptree_eq_dec). intro t. rewrite occ_filter. destruct (low h t) eqn:E; [|lia].
  apply Nat.leb_le in E. destruct (in_dec ptree_eq_dec t ts) as [Hin|Hn]; [|apply (count_occ_not_In ptree_eq_dec) in Hn; lia].
  rewrite occ_trees; [exact (copies_most _ _ _ _ _ _ t Ho Hp)|]. apply in_trees. split; [exact (soundness _ _ _ _ _ _ _ Ho Hp Hin)|exact E].
Qed.

Lemma all_copies g start w it us : opens g start w it -> (forall t, In t us -> parses g start w t) ->
  exists ts it', produces it ts it' /\ forall t, In t us -> count_occ ptree_eq_dec ts t = copies g t.
Proof.
  intro Ho. induction us as [|u us IH]; intro H; [exists [], it; split; [constructor|intros t []]|].
  destruct IH as (ts1 & it1 & Hp1 & H1); [intros t Ht; apply H; right; exact Ht|].
  destruct (copies_reached _ _ _ _ _ Ho (H u (or_introl eq_refl))) as (ts2 & it2 & Hp2 & H2).
  destruct (produces_linear _ _ _ Hp1 _ _ Hp2) as [(r & -> & Hr)|(r & -> & Hr)].
  - exists (ts1 ++ r), it2. split; [exact Hp2|]. intros t [<-|Ht]; [exact H2|]. apply Nat.le_antisymm; [exact (copies_most _ _ _ _ _ _ t Ho Hp2)|].
    rewrite <- (H1 t Ht), count_occ_app. lia.
  - exists (ts2 ++ r), it1. split; [exact Hp1|]. intros t [<-|Ht]; [|exact (H1 t Ht)]. apply Nat.le_antisymm; [exact (copies_most _ _ _ _ _ _ u Ho Hp1)|].
    rewrite <- H2, count_occ_app. lia.
Qed.

Lemma low_reached g n w it h : opens g (Nonterminal n) w it ->
  exists ts it', produces it ts it' /\ List.length (filter (low h) ts) = count h g n w.
Proof.
  intro Ho. destruct (all_copies g (Nonterminal n) w it (trees h g n w) Ho) as (ts & it' & Hp & H); [intros t Ht; apply in_trees in Ht; apply Ht|].
  exists ts, it'. split; [exact Hp|]. apply Nat.le_antisymm; [exact (low_most _ _ _ _ _ _ h Ho Hp)|]. rewrite <- trees_length.
  apply (occ_length ptree_eq_dec). intro t. destruct (in_dec ptree_eq_dec t (trees h g n w)) as [Hin|Hn].
  - rewrite (occ_trees _ _ _ _ _ Hin), occ_filter. pose proof Hin as Hin'. apply in_trees in Hin'. unfold low. rewrite (proj2 (Nat.leb_le _ _) (proj2 Hin')).
    rewrite (H t Hin). lia.
  - apply (count_occ_not_In ptree_eq_dec) in Hn. lia.
Qed.

(** ** The height that is enough *)
Definition key (t : ptree) : term * nat := (root t, List.length (yield t)).
Lemma key_eq_dec (a b : term * nat) : {a = b} + {a <> b}.
Proof. decide equality; [apply Nat.eq_dec|apply term_eq_dec]. Defined.

Lemma part_with_key (x : term * nat) (t : ptree) : (exists c s, t = plug c s /\ key s = x) \/ (forall c s, t = plug c s -> key s <> x).
Proof.
  induction t as [l ks IH] using tree_ind'. destruct (key_eq_dec (key (Node l ks)) x) as [E|N]; [left; exists Here, (Node l ks); auto|].
  assert (K : (exists t c s, In (Sub t) ks /\ t = plug c s /\ key s = x) \/ (forall t, In (Sub t) ks -> forall c s, t = plug c s -> key s <> x)).
  { clear N. induction ks as [|k ks IHk]; [right; intros t []|].
    destruct IHk as [(t & c & s & Ht & E)|Hn]; [intros t Ht; apply IH; right; exact Ht|left; exists t, c, s; split; [right; exact Ht|exact E]|].
    destruct k as [s|t]; [right; intros t [D|Ht]; [discriminate D|apply Hn; exact Ht]|].
    destruct (IH t (or_introl eq_refl)) as [(c & s & E)|Hn']; [left; exists t, c, s; split; [left; reflexivity|exact E]|].
    right. intros t' [D|Ht]; [injection D as <-; exact Hn'|apply Hn; exact Ht]. }
  destruct K as [(t & c & s & Ht & -> & E)|Hn].
  - left. destruct (in_context ks l _ Ht) as (a & b & ->). exists (Inside l a c b), s. auto.
  - right. intros [|l' a c b] s E; cbn [plug] in E; [subst s; exact N|]. injection E as <- ->. apply (Hn (plug c s)) with (c := c); [|reflexivity].
    apply in_app_iff. right. left. reflexivity.
Qed.

Lemma twice_key (L : list (term * nat)) (t : ptree) : (forall c s, t = plug c s -> In (key s) L) -> List.length L < height t ->
  exists c l a d b s, t = plug c (plug (Inside l a d b) s) /\ key s = key (plug (Inside l a d b) s).
Proof.
  revert t. induction L as [L IH] using (well_founded_induction (Wf_nat.well_founded_ltof _ (@List.length (term * nat)))). unfold Wf_nat.ltof in IH.
  intros [l ks] Hin Hh. pose proof (Hin Here _ eq_refl) as Hl.
  rewrite height_Node in Hh. destruct (list_max (map below ks)) as [|m] eqn:Em; [destruct L; [destruct Hl|cbn in Hh; lia]|].
  destruct (below_max ks 0) as (t & Ht & Et); [lia|]. destruct (in_context ks l _ Ht) as (a & b & E).
  destruct (part_with_key (key (Node l ks)) t) as [(d & s & -> & Er)|Hn].
  - exists Here, l, a, d, b, s. split; [exact E|]. rewrite Er, E. reflexivity.
  - destruct (IH (remove key_eq_dec (key (Node l ks)) L)) with (t := t) as (c & l' & a' & d & b' & s & -> & Er).
    + apply remove_length_lt. exact Hl.
    + intros c s Es. apply in_in_remove; [apply (Hn c s Es)|]. apply (Hin (Inside l a c b)). rewrite E, Es. reflexivity.
    + pose proof (remove_length_lt key_eq_dec L _ Hl). lia.
    + exists (Inside l a c b), l', a', d, b', s. split; [exact E|exact Er].
Qed.

(** In a higher tree a part stands inside a part with the same label and the same text. *)
Lemma too_high g start w t : parses g start w t -> enough g w < height t ->
  exists c l a d b s, t = plug c (plug (Inside l a d b) s) /\ root s = l /\ before (Inside l a d b) = [] /\ after (Inside l a d b) = [].
Proof.
  intros (Hd & _ & Hy) Hh.
  destruct (twice_key (list_prod (map p_lhs g) (seq 0 (S (List.length w)))) t) as (c & l & a & d & b & s & -> & E).
  - intros c s ->. unfold key. apply in_prod.
    + apply plug_derives in Hd. destruct Hd as [p e ks Hp _ _]. exact (in_map p_lhs g p Hp).
    + apply in_seq. rewrite <- Hy, yield_plug, !app_length. lia.
  - rewrite prod_length, map_length, seq_length. exact Hh.
  - exists c, l, a, d, b, s. split; [reflexivity|]. unfold key in E. injection E as E1 E2. split; [rewrite E1; reflexivity|].
    change (List.length (yield s) = List.length (yield (plug (Inside l a d b) s))) in E2. rewrite yield_plug, !app_length in E2.
    split; apply length_zero_iff_nil; lia.
Qed.

Lemma low_tree g start w : (exists t, parses g start w t) -> exists t, parses g start w t /\ height t <= enough g w.
Proof.
  intros (t & Ht). remember (tsize t) as n eqn:En. revert t Ht En.
  induction n as [n IH] using (well_founded_induction Wf_nat.lt_wf). intros t Ht En.
  destruct (Nat.le_gt_cases (height t) (enough g w)) as [L|L]; [exists t; auto|].
  destruct (too_high _ _ _ _ Ht L) as (c & l & a & d & b & s & -> & Er & E1 & E2). set (D := Inside l a d b) in *.
  assert (RD : root s = root (plug D s)) by (cbn; exact Er). destruct Ht as (Hd & Hr & Hy).
  apply (IH (tsize (plug c s))) with (t := plug c s); [rewrite En; apply plug_size, inside_size| |reflexivity].
  split; [|split].
  - eapply plug_exchange; [exact Hd| |exact RD]. eapply plug_derives, plug_derives. exact Hd.
  - rewrite <- Hr. apply plug_root. exact RD.
  - rewrite <- Hy, !yield_plug, E1, E2. cbn [app]. rewrite app_nil_r. reflexivity.
Qed.

Lemma count_accepts g n w : accepts g n w <-> 0 < count (enough g w) g n w.
Proof.
  rewrite accepts_iff, <- trees_length. split.
  - intro H. apply low_tree in H. destruct H as (t & Ht). apply in_trees in Ht. destruct (trees _ _ _ _); [destruct Ht|cbn; lia].
  - destruct (trees (enough g w) g n w) as [|t ts] eqn:E; [cbn; lia|]. intros _. exists t.
    assert (H : In t (trees (enough g w) g n w)) by (rewrite E; left; reflexivity). apply in_trees in H. apply H.
Qed.

(** If a tree is higher, there are infinitely many. *)
Lemma pluck_size k l a d b s : k <= tsize (pluck k (Inside l a d b) s).
Proof. induction k as [|k IH]; [lia|]. cbn [pluck]. pose proof (inside_size l a d b (pluck k (Inside l a d b) s)). lia. Qed.
Lemma plug_size_le c s : tsize s <= tsize (plug c s).
Proof. destruct c as [|l a c b]; [cbn; lia|]. apply Nat.lt_le_incl, inside_size. Qed.

Lemma higher_many g start w t : parses g start w t -> enough g w < height t -> forall m, exists t', parses g start w t' /\ m <= tsize t'.
Proof.
  intros Ht Hh m. destruct (too_high _ _ _ _ Ht Hh) as (c & l & a & d & b & s & -> & Er & E1 & E2). destruct Ht as (Hd & Hr & Hy).
  set (D := Inside l a d b) in *. assert (RD : root (plug D s) = root s) by (cbn; symmetry; exact Er).
  assert (HD : derives g (plug D s)) by (eapply plug_derives; exact Hd).
  destruct (pluck_derives m g D s HD RD) as [P1 P2]. exists (plug c (pluck m D s)). split; [split; [|split]|].
  - eapply plug_exchange; [exact Hd|exact P1|]. rewrite P2. symmetry. exact RD.
  - rewrite <- Hr. apply plug_root. rewrite P2. symmetry. exact RD.
  - assert (T : forall k, times k (@nil char) = []). { clear. intro k. unfold times. induction k as [|k IH]; [reflexivity|]. cbn. exact IH. }
    rewrite <- Hy, !yield_plug, yield_pluck, E1, E2, !T. reflexivity.
  - etransitivity; [apply pluck_size|apply plug_size_le].
Qed.

Lemma size_bound (ts : list ptree) : exists m, forall t, In t ts -> tsize t <= m.
Proof.
  exists (list_max (map tsize ts)). intros t Ht. pose proof (proj1 (list_max_le (map tsize ts) (list_max (map tsize ts))) (Nat.le_refl _)) as F.
  rewrite Forall_forall in F. apply F. exact (in_map tsize ts t Ht).
Qed.

Lemma all_low g n w ts : all_trees g n w ts -> forall t, In t ts -> height t <= enough g w.
Proof.
  intros H t Ht. pose proof (all_trees_iff _ _ _ _ H) as A. destruct (Nat.le_gt_cases (height t) (enough g w)) as [L|L]; [exact L|].
  apply A in Ht. destruct (size_bound ts) as (m & Hm). destruct (higher_many _ _ _ _ Ht L (S m)) as (t' & Ht' & Hs). apply A in Ht'. apply Hm in Ht'. lia.
Qed.

Lemma count_all g n w ts h : all_trees g n w ts -> enough g w <= h -> List.length ts = count h g n w.
Proof.
  intros H Hh. pose proof H as (it & itf & Ho & Hp & He). rewrite <- trees_length. apply Permutation_length, (Permutation_count_occ ptree_eq_dec). intro t.
  destruct (in_dec ptree_eq_dec t ts) as [Hin|Hn].
  - pose proof (all_low _ _ _ _ H t Hin) as Hl. apply (all_trees_iff _ _ _ _ H) in Hin. rewrite occ_trees; [exact (copies_all _ _ _ _ _ _ _ Ho Hp He Hin)|].
    apply in_trees. split; [exact Hin|lia].
  - rewrite (proj1 (count_occ_not_In ptree_eq_dec _ _) Hn). symmetry. apply count_occ_not_In. intro Hin. apply Hn. apply in_trees in Hin.
    apply (all_trees_iff _ _ _ _ H), Hin.
Qed.

(** Finitely many trees exactly if none is higher. *)
Lemma count_finite g n w : (exists ts : list ptree, forall t, parses g (Nonterminal n) w t -> In t ts) <->
  forall t, parses g (Nonterminal n) w t -> height t <= enough g w.
Proof.
  split.
  - intros (ts & H) t Ht. destruct (Nat.le_gt_cases (height t) (enough g w)) as [L|L]; [exact L|]. destruct (size_bound ts) as (m & Hm).
    destruct (higher_many _ _ _ _ Ht L (S m)) as (t' & Ht' & Hs). apply H, Hm in Ht'. lia.
  - intro H. exists (trees (enough g w) g n w). intros t Ht. apply in_trees. auto.
Qed.

Lemma finite_returned g n w it : opens g (Nonterminal n) w it ->
  (exists ts : list ptree, forall t, returns it t -> In t ts) <-> (forall t, returns it t -> height t <= enough g w).
Proof.
  intro Ho. pose proof (fun t => returns_iff _ _ _ _ t Ho) as R. split.
  - intros (ts & H) t Ht. apply (proj1 (count_finite g n w)); [|apply R, Ht]. exists ts. intros u Hu. apply H, R, Hu.
  - intro H. destruct (proj2 (count_finite g n w)) as (ts & Hts); [intros t Ht; apply H, R, Ht|]. exists ts. intros t Ht. apply Hts, R, Ht.
Qed.
