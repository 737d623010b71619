(** Whether the enumeration ends for rules without left recursion. *)
From Verif Require Export LeftTrees.
From Verif Require Import EarleyInv EarleyMain EarleyExact ExtendProofs CombineProofs SimplifyProofs SimplifyEnds CountProofs.
From Coq Require Import Lia.

(** Infinitely many trees, and what is expanded inside what is expanded. *)
Definition unbounded (g : grammar) (m v : str) : Prop := forall k, exists t : ptree, parses g (Nonterminal m) v t /\ k <= tsize t.

Lemma predicted_alt g s l u e x m y v : predicted g s l u -> In e (alternatives g l) -> e = x ++ Nonterminal m :: y -> seq_generates g x v -> predicted g s (Nonterminal m) (u ++ v).
Proof. intros H He -> Hx. apply in_alternatives_iff in He. destruct He as (p & Hp & Hl & He). exact (predicted_in g s l u p x m y v H Hp Hl He Hx). Qed.
Lemma predicted_inside g s m u : predicted g s m u -> forall c v, predicted g m c v -> predicted g s c (u ++ v).
Proof.
  intros H c v Hc. induction Hc as [|l v p x c y z Hc IH Hp Hl He Hx]; [rewrite app_nil_r; exact H|]. rewrite app_assoc. exact (predicted_in g s l (u ++ v) p x c y z IH Hp Hl He Hx).
Qed.
Lemma live_inside g s m u v w : predicted g s (Nonterminal m) u -> live_cycle g (Nonterminal m) v -> live_cycle g s (u ++ v ++ w).
Proof.
  intros H (c & u1 & v1 & w1 & -> & Hc & Hv & Hs). exists c, (u ++ u1), v1, (w1 ++ w). split; [rewrite !app_assoc; reflexivity|].
  split; [exact (predicted_inside _ _ _ _ H _ _ Hc)|auto].
Qed.
Lemma live_unbounded g m v : generates g m v -> self_deriving g m -> unbounded g m v.
Proof.
  intros Hv Hs k. apply big_parses. apply generates_tree in Hv. destruct Hv as (t & Hd & Ht & Hy). exists t, t, m. split; [split; auto|]. split; [constructor|auto].
Qed.
Lemma unbounded_all g m v ts : unbounded g m v -> (forall t, parses g (Nonterminal m) v t -> In t ts) -> False.
Proof. intros H Hts. destruct (size_bound ts) as (k & Hk). destruct (H (S k)) as (t & Ht & L). apply Hts, Hk in Ht. lia. Qed.
Lemma not_live_all g m v : g <> [] -> ~ live_cycle g (Nonterminal m) v -> exists ts, forall t, parses g (Nonterminal m) v t -> In t ts.
Proof.
  intros N Hl. destruct (nonempty_opens g (Nonterminal m) v N) as (it & Ho). apply (ends_iff _ _ _ _ Ho) in Hl. destruct Hl as (ts & itf & Hp & He). exists ts.
  intros t Ht. assert (A : all_trees g m v ts) by (exists it, itf; auto). apply (all_trees_iff _ _ _ _ A). exact Ht.
Qed.

Section Ends.
Context (g1 : grammar) (a b : str) (xs ys : list expression) (g2 : grammar).
Let g := left_rules g1 a xs ys g2.
Let g' := right_rules g1 a b xs ys g2.
Context (Ha : ~ has_lhs (g1 ++ g2) a) (Hb : ~ has_lhs g b) (Hr : ~ refers g b).
Context (Hy : forall y, In y ys -> ~ begins_with a y).
Let LA := left_alternatives g1 a b xs ys g2 Ha Hb Hr.
Let RA := right_alternatives g1 a b xs ys g2 Ha Hb Hr.

Lemma seq_over e v : (forall m, In (Nonterminal m) e -> m <> b) -> (seq_generates g e v <-> seq_generates g' e v).
Proof.
  intro Hm. split; intro H; apply seq_kids in H; destruct H as (ks & Hk & <-).
  - apply (seq_same g g' (fun m => m <> b) e ks Hk Hm). intros t m Ht Hdt Hrt Nm. apply (same_texts g1 a b xs ys g2 Ha Hb Hr m _ Nm), generates_tree. exists t. auto.
  - apply (seq_same g' g (fun m => m <> b) e ks Hk Hm). intros t m Ht Hdt Hrt Nm. apply (same_texts g1 a b xs ys g2 Ha Hb Hr m _ Nm), generates_tree. exists t. auto.
Qed.

Lemma rest_predicted s u t : predicted g' s (Nonterminal a) u -> derives g t -> root t = Nonterminal a -> predicted g' s (Nonterminal b) (u ++ yield t).
Proof.
  intro Hp. induction t as [l ks IH] using tree_ind'. intros Hd Hl. cbn [root] in Hl. subst l. destruct (node_A g1 a b xs ys g2 Ha Hb Hr ks Hd) as [(t0 & rest & x & -> & Hx & Ht0 & Hd0 & Hk)|(y & Hin & Hk)].
  - specialize (IH t0 (or_introl eq_refl) Hd0 Ht0). change (yield (Node (Nonterminal a) (Sub t0 :: rest))) with (yield t0 ++ yields rest). rewrite app_assoc.
    apply (predicted_alt g' s (Nonterminal b) (u ++ yield t0) (x ++ [Nonterminal b]) x b [] (yields rest) IH); [apply RA; right; right; split; [reflexivity|left; exists x; auto]|reflexivity|].
    apply seq_over; [intros m Hm; exact (names_x g1 a b xs ys g2 Ha Hb Hr x m Hx Hm)|]. apply seq_kids. exists rest. auto.
  - apply (predicted_alt g' s (Nonterminal a) u (y ++ [Nonterminal b]) y b [] (yields ks) Hp); [apply RA; right; left; split; [reflexivity|exists y; auto]|reflexivity|].
    apply seq_over; [intros m Hm; exact (names_y g1 a b xs ys g2 Ha Hb Hr y m Hin Hm)|]. apply seq_kids. exists ks. auto.
Qed.

Lemma predicted_right n m u : predicted g (Nonterminal n) m u -> predicted g' (Nonterminal n) m u.
Proof.
  intro H. induction H as [|l u p x m y v H IH Hp Hl He Hx]; [constructor|].
  assert (Hin : In (x ++ Nonterminal m :: y) (alternatives g l)) by (apply in_alternatives_iff; exists p; auto).
  assert (Hold : forall k, In (Nonterminal k) (x ++ Nonterminal m :: y) -> k <> b) by (intros k Hk; exact (names_old g1 a b xs ys g2 Hr _ _ _ Hin Hk)).
  assert (Hx' : seq_generates g' x v) by (apply seq_over; [intros k Hk; apply Hold, in_app_iff; left; exact Hk|exact Hx]).
  destruct l as [s|l]; [exfalso|].
  - clear - Hl H. inversion H.
  - pose proof Hin as Hin'. apply LA in Hin. destruct Hin as [(Na & Hin)|(-> & [(x0 & Hx0 & E)|Hin])].
    + apply (predicted_alt g' _ (Nonterminal l) u (x ++ Nonterminal m :: y) x m y v IH); [apply RA; left; split; [exact Na|split; [|exact Hin]]|reflexivity|exact Hx'].
      intro D. subst l. apply in_alternatives_iff in Hin'. destruct Hin' as (q & Hq & El & _). apply Hb. exists q. auto.
    + destruct x as [|t1 x1]; cbn [app] in E; injection E as E1 E2.
      * subst m. apply seq_kids in Hx. destruct Hx as (ks & Hk & <-). inversion Hk; subst. cbn. rewrite app_nil_r. exact IH.
      * subst t1. apply seq_cons in Hx. destruct Hx as (v1 & v2 & -> & H1 & H2). apply generates_seq, generates_tree in H1. destruct H1 as (t & Hdt & Hrt & <-). rewrite app_assoc.
        apply (predicted_alt g' _ (Nonterminal b) (u ++ yield t) (x0 ++ [Nonterminal b]) x1 m (y ++ [Nonterminal b]) v2 (rest_predicted _ _ _ IH Hdt Hrt)).
        -- apply RA. right. right. split; [reflexivity|left; exists x0; auto].
        -- rewrite <- E2, <- app_assoc. reflexivity.
        -- apply seq_over; [intros k Hk; apply Hold; right; apply in_app_iff; left; exact Hk|exact H2].
    + apply (predicted_alt g' _ (Nonterminal a) u ((x ++ Nonterminal m :: y) ++ [Nonterminal b]) x m (y ++ [Nonterminal b]) v IH); [apply RA; right; left; split; [reflexivity|eexists; split; [exact Hin|reflexivity]]|rewrite <- app_assoc; reflexivity|exact Hx'].
Qed.

(** The place of a name in an alternative with [b] added. *)
Lemma split_last (e : expression) x m y : e ++ [Nonterminal b] = x ++ Nonterminal m :: y -> (m = b /\ x = e) \/ exists y0, e = x ++ Nonterminal m :: y0.
Proof.
  destruct (exists_last (l := Nonterminal m :: y) ltac:(discriminate)) as (y' & z & E). rewrite E, app_assoc. intro D. apply app_inj_tail in D. destruct D as [D1 D2].
  destruct y' as [|k y']; cbn [app] in E; injection E as E1 E2.
  - left. rewrite app_nil_r in D1. split; congruence.
  - right. exists y'. rewrite D1, E1. reflexivity.
Qed.

Lemma predicted_left n m u : n <> b -> predicted g' (Nonterminal n) m u ->
  (m <> Nonterminal b -> predicted g (Nonterminal n) m u) /\
  (m = Nonterminal b -> exists u0 u1, u = u0 ++ u1 /\ predicted g (Nonterminal n) (Nonterminal a) u0 /\ generates g a u1).
Proof.
  intros Nn H. induction H as [|l u p x m y v H IH Hp Hl He Hx]; [split; [constructor|congruence]|].
  assert (Hin : In (x ++ Nonterminal m :: y) (alternatives g' l)) by (apply in_alternatives_iff; exists p; auto).
  destruct l as [s|l]; [clear - H; inversion H|]. apply RA in Hin. destruct Hin as [(Na & Nb & Hin)|[(-> & y0 & Hin & E)|(-> & [(x0 & Hx0 & E)|E])]].
  - assert (Hg : In (x ++ Nonterminal m :: y) (alternatives g (Nonterminal l))) by (apply LA; left; auto).
    assert (Hold : forall k, In (Nonterminal k) (x ++ Nonterminal m :: y) -> k <> b) by (intros k Hk; exact (names_old g1 a b xs ys g2 Hr _ _ _ Hg Hk)). split.
    + intros _. apply (predicted_alt g _ (Nonterminal l) u (x ++ Nonterminal m :: y) x m y v); [apply IH; congruence|exact Hg|reflexivity|].
      apply seq_over; [intros k Hk; apply Hold, in_app_iff; left; exact Hk|exact Hx].
    + intro D. injection D as D. destruct (Hold m); [apply in_app_iff; right; left; reflexivity|exact D].
  - assert (Pa : predicted g (Nonterminal n) (Nonterminal a) u) by (apply IH; intro D; injection D as D; exact (different g1 a b xs ys g2 Ha Hb Hr D)).
    assert (Hg : In y0 (alternatives g (Nonterminal a))) by (apply LA; right; auto).
    pose proof (fun k Hk => names_y g1 a b xs ys g2 Ha Hb Hr y0 k Hin Hk) as Hold. symmetry in E. apply split_last in E. destruct E as [(-> & ->)|(y1 & ->)].
    + split; [congruence|]. intros _. exists u, v. split; [reflexivity|]. split; [exact Pa|]. apply generates_seq, seq_name. exists y0. split; [exact Hg|]. apply seq_over; assumption.
    + split.
      * intros _. apply (predicted_alt g _ (Nonterminal a) u _ x m y1 v Pa Hg eq_refl). apply seq_over; [intros k Hk; apply Hold, in_app_iff; left; exact Hk|exact Hx].
      * intro D. injection D as D. destruct (Hold m); [apply in_app_iff; right; left; reflexivity|exact D].
  - destruct (proj2 IH eq_refl) as (u0 & u1 & -> & Pa & Hu1).
    assert (Hg : In (Nonterminal a :: x0) (alternatives g (Nonterminal a))) by (apply LA; right; split; [reflexivity|left; exists x0; auto]).
    pose proof (fun k Hk => names_x g1 a b xs ys g2 Ha Hb Hr x0 k Hx0 Hk) as Hold. symmetry in E. apply split_last in E. rewrite <- app_assoc. destruct E as [(-> & ->)|(y1 & ->)].
    + split; [congruence|]. intros _. exists u0, (u1 ++ v). split; [reflexivity|]. split; [exact Pa|].
      apply (left_more g1 a b xs ys g2 Ha Hb Hr x0 u1 v Hx0 Hu1). apply seq_over; assumption.
    + split.
      * intros _. apply (predicted_alt g _ (Nonterminal a) u0 _ (Nonterminal a :: x) m y1 (u1 ++ v) Pa Hg eq_refl). apply seq_cons. exists u1, v. split; [reflexivity|].
        split; [apply generates_seq; exact Hu1|]. apply seq_over; [intros k Hk; apply Hold, in_app_iff; left; exact Hk|exact Hx].
      * intro D. injection D as D. destruct (Hold m); [apply in_app_iff; right; left; reflexivity|exact D].
  - destruct x as [|t1 [|t2 x]]; discriminate E.
Qed.

(** Turned trees are not smaller. *)
Lemma sizes_tn (ks : list pnode) : (forall u, In (Sub u) ks -> tsize u <= tsize (turn_tree a b u)) -> list_sum (map nsize ks) <= list_sum (map nsize (map (turn_node a b) ks)).
Proof.
  induction ks as [|k ks IH]; intro H; [apply Nat.le_refl|]. specialize (IH (fun u Hu => H u (or_intror Hu))). cbn [map list_sum fold_right] in *.
  assert (K : nsize k <= nsize (turn_node a b k)) by (destruct k as [s|t]; [apply Nat.le_refl|exact (H t (or_introl eq_refl))]).
  exact (Nat.add_le_mono _ _ _ _ K IH).
Qed.
Lemma size_snoc l (ks : list pnode) (r : ptree) : tsize (Node l (ks ++ [Sub r]) : ptree) = S (list_sum (map nsize ks) + tsize r).
Proof. rewrite tsize_Node, map_app, list_sum_app. cbn. rewrite Nat.add_0_r. reflexivity. Qed.
Lemma turn_size t : forall r, tsize t <= tsize (turn a b t r) /\ (root t = Nonterminal a -> tsize t + tsize r <= tsize (turn a b t r)).
Proof.
  induction t as [l ks IH] using tree_ind'. intro r.
  assert (K : list_sum (map nsize ks) <= list_sum (map nsize (map (turn_node a b) ks))) by (apply sizes_tn; intros u Hu; apply (IH u Hu)).
  destruct (term_eq_dec l (Nonterminal a)) as [->|N].
  - assert (G : tsize (Node (Nonterminal a) ks : ptree) + tsize r <= tsize (turn a b (Node (Nonterminal a) ks) r)); [|split; [etransitivity; [apply Nat.le_add_r|exact G]|intros _; exact G]].
    assert (F : tsize (Node (Nonterminal a) ks : ptree) + tsize r <= tsize (Node (Nonterminal a) (map (turn_node a b) ks ++ [Sub r]) : ptree)).
    { rewrite size_snoc, tsize_Node. cbn [plus]. apply le_n_S, Nat.add_le_mono_r. exact K. }
    cbn [turn]. assert (E1 : term_eqb (Nonterminal a) (Nonterminal a) = true) by (apply term_eqb_eq; reflexivity). rewrite E1.
    destruct ks as [|[s|t0] rest]; try exact F. destruct (term_eqb (root t0) (Nonterminal a)) eqn:E; [|exact F]. apply term_eqb_eq in E.
    etransitivity; [|apply (proj2 (IH t0 (or_introl eq_refl) (Node (Nonterminal b) (map (turn_node a b) rest ++ [Sub r]))) E)].
    rewrite size_snoc, tsize_Node. cbn [map list_sum fold_right nsize].
    assert (K' : list_sum (map nsize rest) <= list_sum (map nsize (map (turn_node a b) rest))) by (apply sizes_tn; intros u Hu; apply (IH u (or_intror Hu))).
    unfold list_sum in *. cbn [fold_right nsize] in *. revert K'. generalize (tsize t0) (tsize r) (fold_right plus 0 (map nsize rest)) (fold_right plus 0 (map nsize (map (turn_node a b) rest))). clear. intros. lia.
  - rewrite turn_other by exact N. split; [rewrite !tsize_Node; apply le_n_S; exact K|]. cbn [root]. intro D. contradiction.
Qed.

Lemma left_nonempty : g <> [] /\ g' <> [].
Proof. split; intro D; apply (f_equal (@length production)) in D; unfold g, g', left_rules, right_rules in D; rewrite app_length in D; cbn [length] in D; lia. Qed.

Lemma unbounded_right m v : m <> b -> unbounded g m v -> unbounded g' m v.
Proof.
  intros N H k. destruct (H k) as (t & Ht & L). exists (turn_tree a b t). split; [exact (turn_parses g1 a b xs ys g2 Ha Hb Hr Hy m v t N Ht)|].
  etransitivity; [exact L|apply turn_size].
Qed.

Lemma live_right n w : n <> b -> ~ live_cycle g' (Nonterminal n) w -> ~ live_cycle g (Nonterminal n) w.
Proof.
  intros Nn Hl (m & u & v & w1 & -> & Hp & Hv & Hs). assert (N : m <> b).
  { intros ->. apply generates_tree in Hv. destruct Hv as (t & Hd & Ht & _). destruct t as [l ks]. cbn in Ht. subst l. apply derives_alternative in Hd. destruct Hd as (e & He & _).
    apply in_alternatives_iff in He. destruct He as (q & Hq & El & _). apply Hb. exists q. auto. }
  apply predicted_right in Hp. destruct (not_live_all g' m v (proj2 left_nonempty)) as (ts & Hts).
  - intro Hl'. apply Hl. exact (live_inside _ _ _ _ _ _ Hp Hl').
  - exact (unbounded_all g' m v ts (unbounded_right m v N (live_unbounded g m v Hv Hs)) Hts).
Qed.

Lemma live_left n w : n <> b -> ~ live_cycle g (Nonterminal n) w -> ~ live_cycle g' (Nonterminal n) w.
Proof.
  intros Nn Hl (m & u & v & w1 & -> & Hp & Hv & Hs). pose proof (live_unbounded g' m v Hv Hs) as U.
  assert (K : forall m u v w1, m <> b -> predicted g (Nonterminal n) (Nonterminal m) u -> ~ live_cycle g (Nonterminal n) (u ++ v ++ w1) -> unbounded g' m v -> False).
  { clear m u v w1 Hl Hp Hv Hs U. intros m u v w1 N Hp Hl U. destruct (not_live_all g m v (proj1 left_nonempty)) as (ts & Hts).
    - intro Hl'. apply Hl. exact (live_inside _ _ _ _ _ _ Hp Hl').
    - apply (unbounded_all g' m v (map (turn_tree a b) ts) U). intros t Ht. destruct (turn_onto g1 a b xs ys g2 Ha Hb Hr Hy m v t N Ht) as (t0 & H0 & <-). apply in_map, Hts, H0. }
  destruct (term_eq_dec (Nonterminal m) (Nonterminal b)) as [E|N].
  - injection E as ->. destruct (proj2 (predicted_left n _ u Nn Hp) eq_refl) as (u0 & u1 & -> & Pa & Hu1).
    apply (K a u0 (u1 ++ v) w1 (different g1 a b xs ys g2 Ha Hb Hr) Pa); [rewrite <- !app_assoc in *; exact Hl|].
    apply generates_tree in Hu1. destruct Hu1 as (t0 & Hd0 & Hr0 & <-). intro k. destruct (U k) as (r & (Hdr & Hrr & <-) & L). exists (turn a b t0 r). split.
    + split; [exact (turned_derives g1 a b xs ys g2 Ha Hb Hr Hy t0 Hd0 r Hdr Hrr)|]. split; [rewrite turn_root; exact Hr0|].
      rewrite yield_turn, Hr0. assert (E1 : term_eqb (Nonterminal a) (Nonterminal a) = true) by (apply term_eqb_eq; reflexivity). rewrite E1. reflexivity.
    + etransitivity; [exact L|]. etransitivity; [apply Nat.le_add_l|apply (proj2 (turn_size t0 r) Hr0)].
  - apply (K m u v w1); [congruence|apply (proj1 (predicted_left n _ u Nn Hp) N)|exact Hl|exact U].
Qed.
End Ends.

Lemma left_ends g1 a b xs ys g2 n w it it' : ~ has_lhs (g1 ++ g2) a -> ~ has_lhs (left_rules g1 a xs ys g2) b -> ~ refers (left_rules g1 a xs ys g2) b -> n <> b ->
  (forall y, In y ys -> ~ begins_with a y) ->
  opens (left_rules g1 a xs ys g2) (Nonterminal n) w it -> opens (right_rules g1 a b xs ys g2) (Nonterminal n) w it' ->
  ((exists ts itf, produces it ts itf /\ exhausted itf) <-> (exists ts itf, produces it' ts itf /\ exhausted itf)).
Proof.
  intros Ha Hb Hr N Hy Ho Ho'. rewrite (ends_iff _ _ _ _ Ho), (ends_iff _ _ _ _ Ho'). split.
  - exact (live_left g1 a b xs ys g2 Ha Hb Hr Hy n w N).
  - exact (live_right g1 a b xs ys g2 Ha Hb Hr Hy n w N).
Qed.
