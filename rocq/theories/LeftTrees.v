(** The trees for rules without left recursion. *)
From Verif Require Export LeftProofs.
From Verif Require Import EarleyInv EarleyMain EarleyExact ExtendProofs CombineProofs SimplifyProofs SimplifyEnds.
From Coq Require Import Lia Permutation.

Section Trees.
Context (g1 : grammar) (a b : str) (xs ys : list expression) (g2 : grammar).
Let g := left_rules g1 a xs ys g2.
Let g' := right_rules g1 a b xs ys g2.
Context (Ha : ~ has_lhs (g1 ++ g2) a) (Hb : ~ has_lhs g b) (Hr : ~ refers g b).
Context (Hy : forall y, In y ys -> ~ begins_with a y).
Let A := Nonterminal a.
Let B := Nonterminal b.
Let tn := turn_node a b.

(** What [turn] does. *)
Lemma turn_other l ks r : l <> A -> turn a b (Node l ks) r = Node l (map tn ks).
Proof. intro N. cbn [turn]. destruct (term_eqb l (Nonterminal a)) eqn:E; [apply term_eqb_eq in E; contradiction|reflexivity]. Qed.
Lemma turn_more t0 rest r : root t0 = A -> turn a b (Node A (Sub t0 :: rest)) r = turn a b t0 (Node B (map tn rest ++ [Sub r])).
Proof.
  intro E. cbn [turn]. assert (E1 : term_eqb A (Nonterminal a) = true) by (apply term_eqb_eq; reflexivity). rewrite E1.
  assert (E2 : term_eqb (root t0) (Nonterminal a) = true) by (apply term_eqb_eq; exact E). rewrite E2. reflexivity.
Qed.
Lemma turn_first y ks r : kids_match g y ks -> In y ys -> turn a b (Node A ks) r = Node A (map tn ks ++ [Sub r]).
Proof.
  intros Hk Hin. cbn [turn]. assert (E1 : term_eqb A (Nonterminal a) = true) by (apply term_eqb_eq; reflexivity). rewrite E1.
  destruct ks as [|[s|t0] rest]; try reflexivity. destruct (term_eqb (root t0) (Nonterminal a)) eqn:E; [|reflexivity]. exfalso.
  apply term_eqb_eq in E. inversion Hk as [| |n t e ks Hrt _ _]; subst. apply (Hy _ Hin). rewrite E in Hrt. injection Hrt as <-. eexists. reflexivity.
Qed.

(** The parts of a tree for [a]. *)
Fixpoint grow (t0 : ptree) (l : list (list pnode)) : ptree := match l with [] => t0 | k :: l => grow (Node A (Sub t0 :: k)) l end.
Fixpoint tails (l : list (list pnode)) (r : ptree) : ptree := match l with [] => r | k :: l => Node B (map tn k ++ [Sub (tails l r)]) end.
Lemma grow_snoc l : forall t0 k, grow t0 (l ++ [k]) = Node A (Sub (grow t0 l) :: k).
Proof. induction l as [|k0 l IH]; intros t0 k; cbn [app grow]; [reflexivity|]. apply IH. Qed.
Lemma tails_snoc l k r : tails (l ++ [k]) r = tails l (Node B (map tn k ++ [Sub r])).
Proof. induction l as [|k0 l IH]; cbn [app tails]; [reflexivity|]. rewrite IH. reflexivity. Qed.

Lemma node_A ks : derives g (Node A ks) -> (exists t0 rest x, ks = Sub t0 :: rest /\ In x xs /\ root t0 = A /\ derives g t0 /\ kids_match g x rest) \/
  (exists y, In y ys /\ kids_match g y ks).
Proof.
  intro H. apply derives_alternative in H. destruct H as (e & He & Hk). apply (left_alternatives g1 a b xs ys g2 Ha Hb Hr) in He. destruct He as [(N & _)|(_ & [(x & Hx & ->)|Hin])].
  - contradiction N; reflexivity.
  - left. inversion Hk as [| |n t r k Hrt Hdt Hk']; subst. exists t, k, x. auto.
  - right. exists e. auto.
Qed.

Lemma spine t : derives g t -> root t = A -> exists ky l, t = grow (Node A ky) l /\ (forall r, turn a b t r = Node A (map tn ky ++ [Sub (tails l r)])) /\
  (exists y, In y ys /\ kids_match g y ky) /\ Forall (fun k => exists x, In x xs /\ kids_match g x k) l /\
  (forall u, In (Sub u) ky -> tsize u < tsize t) /\ (forall k u, In k l -> In (Sub u) k -> tsize u < tsize t).
Proof.
  induction t as [n ks IH] using tree_ind'. intros Hd Hn. cbn [root] in Hn. subst n. destruct (node_A ks Hd) as [(t0 & rest & x & -> & Hx & Ht0 & Hd0 & Hk)|(y & Hin & Hk)].
  - destruct (IH t0 (or_introl eq_refl) Hd0 Ht0) as (ky & l & E & Et & Hky & Hl & S1 & S2). exists ky, (l ++ [rest]).
    assert (L : tsize t0 < tsize (Node A (Sub t0 :: rest) : ptree)) by (apply (tsize_sub A (Sub t0 :: rest)); left; reflexivity).
    split; [rewrite grow_snoc, <- E; reflexivity|]. split; [intro r; rewrite (turn_more t0 rest r Ht0), Et, tails_snoc; reflexivity|]. split; [exact Hky|].
    split; [apply Forall_app; split; [exact Hl|constructor; [exists x; auto|constructor]]|]. split.
    + intros u Hu. specialize (S1 u Hu). etransitivity; [exact S1|exact L].
    + intros k u Hin Hu. apply in_app_iff in Hin. destruct Hin as [Hin|[<-|[]]].
      * etransitivity; [exact (S2 k u Hin Hu)|exact L].
      * apply (tsize_sub A (Sub t0 :: rest)). right. exact Hu.
  - exists ks, []. split; [reflexivity|]. split; [intro r; exact (turn_first y ks r Hk Hin)|]. split; [exists y; auto|]. split; [constructor|]. split; [|intros k u []].
    intros u Hu. apply (tsize_sub A ks u Hu).
Qed.

(** ** The new trees are trees for the new rules *)
Lemma turn_root t r : root (turn a b t r) = root t.
Proof.
  revert r. induction t as [l ks IH] using tree_ind'. intro r. destruct (term_eq_dec l A) as [->|N]; [|rewrite turn_other by exact N; reflexivity].
  cbn [turn]. assert (E1 : term_eqb A (Nonterminal a) = true) by (apply term_eqb_eq; reflexivity). rewrite E1.
  destruct ks as [|[s|t0] rest]; try reflexivity. destruct (term_eqb (root t0) (Nonterminal a)) eqn:E; [|reflexivity]. rewrite (IH t0 (or_introl eq_refl)). apply term_eqb_eq. exact E.
Qed.

Lemma end_derives : derives g' (no_more b) /\ root (no_more b) = B.
Proof.
  split; [|reflexivity]. apply derives_alternative. exists [Terminal []]. split; [|repeat constructor].
  apply (right_alternatives g1 a b xs ys g2 Ha Hb Hr). right. right. split; [reflexivity|right; reflexivity].
Qed.

Lemma turned_kids e ks : kids_match g e ks -> (forall u, In (Sub u) ks -> derives g u -> derives g' (turn_tree a b u)) -> kids_match g' e (map tn ks).
Proof.
  intro H. induction H as [|s r ks H IH|n t r ks Hn Hd H IH]; intro K; [constructor| |]; cbn [map]; constructor.
  - apply IH. intros u Hu. apply K. right. exact Hu.
  - change (root (turn a b t (no_more b)) = Nonterminal n). rewrite turn_root. exact Hn.
  - apply K; [left; reflexivity|exact Hd].
  - apply IH. intros u Hu. apply K. right. exact Hu.
Qed.

Lemma turned_derives t : derives g t -> forall r, derives g' r -> root r = B -> derives g' (turn a b t r).
Proof.
  induction t as [l ks IH] using tree_ind'. intros Hd r Hdr Hrr. destruct (term_eq_dec l A) as [->|N].
  - destruct (node_A ks Hd) as [(t0 & rest & x & -> & Hx & Ht0 & Hd0 & Hk)|(y & Hin & Hk)].
    + rewrite (turn_more t0 rest r Ht0). apply (IH t0 (or_introl eq_refl) Hd0); [|reflexivity]. apply derives_alternative. exists (x ++ [Nonterminal b]).
      split; [apply (right_alternatives g1 a b xs ys g2 Ha Hb Hr); right; right; split; [reflexivity|left; exists x; auto]|]. apply kids_match_app.
      * apply (turned_kids x rest Hk). intros u Hu Hdu. apply (IH u (or_intror Hu) Hdu); apply end_derives.
      * constructor; [exact Hrr|exact Hdr|constructor].
    + rewrite (turn_first y ks r Hk Hin). apply derives_alternative. exists (y ++ [Nonterminal b]).
      split; [apply (right_alternatives g1 a b xs ys g2 Ha Hb Hr); right; left; split; [reflexivity|exists y; auto]|]. apply kids_match_app.
      * apply (turned_kids y ks Hk). intros u Hu Hdu. apply (IH u Hu Hdu); apply end_derives.
      * constructor; [exact Hrr|exact Hdr|constructor].
  - rewrite turn_other by exact N. apply derives_alternative in Hd. destruct Hd as (e & He & Hk). apply derives_alternative. exists e. split.
    + apply in_alternatives_iff in He. destruct He as (p & Hp & Hl & He). apply in_alternatives_iff. exists p. split; [|auto]. apply in_app_iff in Hp. apply in_app_iff.
      destruct Hp as [Hp|[<-|Hp]]; [left; exact Hp|contradiction N; symmetry; exact Hl|right; right; right; exact Hp].
    + apply (turned_kids e ks Hk). intros u Hu Hdu. apply (IH u Hu Hdu); apply end_derives.
Qed.

Lemma yields_tn (ks : list pnode) : (forall u, In (Sub u) ks -> yield (turn a b u (no_more b)) = yield u) -> flat_map yield_node (map tn ks) = flat_map yield_node ks.
Proof.
  induction ks as [|k ks IH]; intro H; [reflexivity|]. cbn [map flat_map]. rewrite IH by (intros u Hu; apply H; right; exact Hu). f_equal.
  destruct k as [s|t]; [reflexivity|]. apply (H t). left. reflexivity.
Qed.
Lemma yield_turn t : forall r, yield (turn a b t r) = yield t ++ (if term_eqb (root t) A then yield r else []).
Proof.
  induction t as [l ks IH] using tree_ind'. intro r.
  assert (K : forall u, In (Sub u) ks -> yield (turn a b u (no_more b)) = yield u).
  { intros u Hu. rewrite (IH u Hu). cbn. destruct (term_eqb (root u) A); apply app_nil_r. }
  assert (F : forall m, yield (Node m (map tn ks ++ [Sub r]) : ptree) = yield (Node m ks) ++ yield r).
  { intro m. rewrite yield_snoc. f_equal. exact (yields_tn ks K). }
  destruct (term_eq_dec l A) as [->|N].
  - cbn [root]. assert (E1 : term_eqb A A = true) by (apply term_eqb_eq; reflexivity). rewrite E1.
    cbn [turn]. change (term_eqb A (Nonterminal a)) with (term_eqb A A). rewrite E1.
    destruct ks as [|[s|t0] rest]; try apply F. destruct (term_eqb (root t0) (Nonterminal a)) eqn:E; [|apply F].
    rewrite (IH t0 (or_introl eq_refl)). change (term_eqb (root t0) A) with (term_eqb (root t0) (Nonterminal a)). rewrite E, yield_snoc.
    change (yield (Node A (Sub t0 :: rest))) with (yield t0 ++ flat_map yield_node rest). rewrite <- app_assoc. apply (f_equal (app (yield t0))). apply (f_equal (fun z => z ++ yield r)).
    apply yields_tn. intros u Hu. apply K. right. exact Hu.
  - rewrite turn_other by exact N. cbn [root]. destruct (term_eqb l A) eqn:E; [apply term_eqb_eq in E; contradiction|]. rewrite app_nil_r.
    exact (yields_tn ks K).
Qed.

(** ** Every tree for the new rules is one *)
Lemma kids_from e ks' : kids_match g' e ks' -> (forall u, In (Sub u) ks' -> derives g' u -> forall n, root u = Nonterminal n -> In (Nonterminal n) e -> exists t, derives g t /\ turn_tree a b t = u) ->
  exists ks, kids_match g e ks /\ map tn ks = ks'.
Proof.
  intro H. induction H as [|s r ks H IH|n u r ks Hn Hd H IH]; intro K; [exists []; split; [constructor|reflexivity]| |].
  - destruct IH as (k & Hk & E); [intros u Hu Hdu m Hm Hin; apply (K u (or_intror Hu) Hdu m Hm); right; exact Hin|]. exists (Leaf s :: k).
    split; [constructor; exact Hk|]. cbn [map]. rewrite E. reflexivity.
  - destruct IH as (k & Hk & E); [intros u' Hu Hdu m Hm Hin; apply (K u' (or_intror Hu) Hdu m Hm); right; exact Hin|].
    destruct (K u (or_introl eq_refl) Hd n Hn (or_introl eq_refl)) as (t & Hdt & Et). exists (Sub t :: k). split.
    + constructor; [rewrite <- Hn, <- Et; symmetry; apply turn_root|exact Hdt|exact Hk].
    + cbn [map]. rewrite E. change (tn (Sub t)) with (Sub (turn_tree a b t)). rewrite Et. reflexivity.
Qed.

Lemma turned_from u : derives g' u -> forall n, root u = Nonterminal n ->
  (n <> b -> exists t, derives g t /\ turn_tree a b t = u) /\
  (n = b -> forall t0, derives g t0 -> root t0 = A -> exists t, derives g t /\ root t = A /\ turn_tree a b t = turn a b t0 u).
Proof.
  induction u as [l ks' IH] using tree_ind'. intros Hd n Hl. cbn [root] in Hl. subst l. apply derives_alternative in Hd. destruct Hd as (e & He & Hk).
  assert (S : forall e0 k0, kids_match g' e0 k0 -> (forall m, In (Nonterminal m) e0 -> m <> b) -> (forall u, In (Sub u) k0 -> In (Sub u) ks') -> exists ks, kids_match g e0 ks /\ map tn ks = k0).
  { intros e0 k0 Hk0 Hm Hin. apply (kids_from e0 k0 Hk0). intros u Hu Hdu m Em Hme. apply (proj1 (IH u (Hin u Hu) Hdu m Em) (Hm m Hme)). }
  apply (right_alternatives g1 a b xs ys g2 Ha Hb Hr) in He. destruct He as [(Na & Nb & He)|[(-> & y & Hin & ->)|(-> & [(x & Hx & ->)| ->])]].
  - split; [|contradiction]. intros _. assert (Hg : In e (alternatives g (Nonterminal n))) by (apply (left_alternatives g1 a b xs ys g2 Ha Hb Hr); left; auto).
    destruct (S e ks' Hk) as (ks & Hks & <-); [intros m Hm; exact (names_old g1 a b xs ys g2 Hr _ _ _ Hg Hm)|auto|]. exists (Node (Nonterminal n) ks).
    split; [apply derives_alternative; exists e; auto|]. apply turn_other. intro D. injection D as D. contradiction.
  - split; [|intro D; destruct (different g1 a b xs ys g2 Ha Hb Hr D)]. intros _. apply kids_match_app_inv in Hk. destruct Hk as (k1 & k2 & -> & H1 & H2).
    inversion H2 as [| |m u r k Hru Hdu Hk]; subst. inversion Hk; subst.
    destruct (S y k1 H1) as (ks & Hks & <-); [intros m Hm; exact (names_y g1 a b xs ys g2 Ha Hb Hr y m Hin Hm)|intros v Hv; apply in_app_iff; left; exact Hv|].
    assert (D0 : derives g (Node A ks)) by (apply derives_alternative; exists y; split; [apply (left_alternatives g1 a b xs ys g2 Ha Hb Hr); right; split; [reflexivity|right; exact Hin]|exact Hks]).
    destruct (proj2 (IH u ltac:(apply in_app_iff; right; left; reflexivity) Hdu b Hru) eq_refl (Node A ks) D0 eq_refl) as (t & Hdt & _ & Et).
    exists t. split; [exact Hdt|]. rewrite Et. exact (turn_first y ks u Hks Hin).
  - split; [intro N; contradiction N; reflexivity|]. intros _ t0 Hd0 Hr0. apply kids_match_app_inv in Hk. destruct Hk as (k1 & k2 & -> & H1 & H2).
    inversion H2 as [| |m u r k Hru Hdu Hk]; subst. inversion Hk; subst.
    destruct (S x k1 H1) as (ks & Hks & <-); [intros m Hm; exact (names_x g1 a b xs ys g2 Ha Hb Hr x m Hx Hm)|intros v Hv; apply in_app_iff; left; exact Hv|].
    assert (D1 : derives g (Node A (Sub t0 :: ks))).
    { apply derives_alternative. exists (Nonterminal a :: x). split; [apply (left_alternatives g1 a b xs ys g2 Ha Hb Hr); right; split; [reflexivity|left; exists x; auto]|]. constructor; assumption. }
    destruct (proj2 (IH u ltac:(apply in_app_iff; right; left; reflexivity) Hdu b Hru) eq_refl (Node A (Sub t0 :: ks)) D1 eq_refl) as (t & Hdt & Hrt & Et).
    exists t. split; [exact Hdt|]. split; [exact Hrt|]. rewrite Et. apply turn_more. exact Hr0.
  - split; [intro N; contradiction N; reflexivity|]. intros _ t0 Hd0 Hr0. inversion Hk as [|s r k Hk'|]; subst. inversion Hk'; subst. exists t0. auto.
Qed.

(** ** Different trees stay different *)
Lemma tails_inj l1 : forall l2, (forall k1 k2, In k1 l1 -> In k2 l2 -> map tn k1 = map tn k2 -> k1 = k2) -> tails l1 (no_more b) = tails l2 (no_more b) -> l1 = l2.
Proof.
  assert (NE : forall k r, Node B (map tn k ++ [Sub r]) <> no_more b).
  { intros k r D. injection D as D. apply (f_equal (@rev pnode)) in D. rewrite rev_app_distr in D. discriminate D. }
  induction l1 as [|k1 l1 IH]; intros [|k2 l2] H E; cbn [tails] in E; [reflexivity|symmetry in E; destruct (NE _ _ E)|destruct (NE _ _ E)|].
  injection E as E. apply app_inj_tail in E. destruct E as [E1 E2]. injection E2 as E2. f_equal.
  - apply H; [left; reflexivity|left; reflexivity|exact E1].
  - apply IH; [|exact E2]. intros k k' Hk Hk'. apply H; right; assumption.
Qed.

Lemma kids_inj e1 ks1 : kids_match g e1 ks1 -> forall e2 ks2, kids_match g e2 ks2 -> (forall u1 u2, In (Sub u1) ks1 -> derives g u1 -> derives g u2 -> turn_tree a b u1 = turn_tree a b u2 -> u1 = u2) ->
  map tn ks1 = map tn ks2 -> ks1 = ks2.
Proof.
  intro H. induction H as [|s r ks H IH|n t r ks Hn Hd H IH]; intros e2 ks2 H2 K E; destruct H2 as [|s' r' ks' H'|n' t' r' ks' Hn' Hd' H']; cbn [map] in E; try discriminate E; [reflexivity| |].
  - injection E as -> E. f_equal. apply (IH _ _ H'); [|exact E]. intros u1 u2 Hu. apply K. right. exact Hu.
  - injection E as E1 E. f_equal; [f_equal; apply K; [left; reflexivity|exact Hd|exact Hd'|exact E1]|]. apply (IH _ _ H'); [|exact E]. intros u1 u2 Hu. apply K. right. exact Hu.
Qed.

Lemma turn_injective t1 t2 : derives g t1 -> derives g t2 -> turn_tree a b t1 = turn_tree a b t2 -> t1 = t2.
Proof.
  remember (tsize t1) as n eqn:En. revert t1 t2 En. induction n as [n IH] using (well_founded_induction Wf_nat.lt_wf). intros t1 t2 En H1 H2 E.
  assert (Rt : root t1 = root t2) by (rewrite <- (turn_root t1 (no_more b)), <- (turn_root t2 (no_more b)); exact (f_equal root E)).
  assert (K : forall e1 ks1 e2 ks2, kids_match g e1 ks1 -> kids_match g e2 ks2 -> (forall u, In (Sub u) ks1 -> tsize u < tsize t1) -> map tn ks1 = map tn ks2 -> ks1 = ks2).
  { intros e1 ks1 e2 ks2 Hk1 Hk2 Hs. apply (kids_inj e1 ks1 Hk1 e2 ks2 Hk2). intros u1 u2 Hu D1 D2. apply (IH (tsize u1)); [rewrite En; apply Hs, Hu|reflexivity|exact D1|exact D2]. }
  destruct (term_eq_dec (root t1) A) as [R1|N1].
  - destruct (spine t1 H1 R1) as (ky1 & l1 & E1 & T1 & (y1 & _ & Hk1) & Hl1 & S1 & S1').
    destruct (spine t2 H2 ltac:(rewrite <- Rt; exact R1)) as (ky2 & l2 & E2 & T2 & (y2 & _ & Hk2) & Hl2 & _ & _).
    unfold turn_tree in E. rewrite T1, T2 in E. injection E as E. apply app_inj_tail in E. destruct E as [Ek Et]. injection Et as Et.
    assert (ky1 = ky2) by (apply (K y1 ky1 y2 ky2 Hk1 Hk2); [exact S1|exact Ek]).
    assert (l1 = l2).
    { apply (tails_inj l1 l2); [|exact Et]. intros k1 k2 I1 I2. rewrite Forall_forall in Hl1, Hl2. destruct (Hl1 k1 I1) as (x1 & _ & M1), (Hl2 k2 I2) as (x2 & _ & M2).
      apply (K x1 k1 x2 k2 M1 M2). intros u Hu. exact (S1' k1 u I1 Hu). }
    rewrite E1, E2. congruence.
  - destruct t1 as [m ks1], t2 as [m2 ks2]. cbn [root] in Rt, N1. subst m2. unfold turn_tree in E. rewrite !turn_other in E by exact N1. injection E as E.
    apply derives_alternative in H1, H2. destruct H1 as (e1 & _ & Hk1), H2 as (e2 & _ & Hk2). f_equal. apply (K e1 ks1 e2 ks2 Hk1 Hk2); [|exact E].
    intros u Hu. apply (tsize_sub m ks1 u Hu).
Qed.

Lemma turn_parses n w t : n <> b -> (parses g (Nonterminal n) w t -> parses g' (Nonterminal n) w (turn_tree a b t)).
Proof.
  intros _ (Hd & Ht & Hw). split; [apply turned_derives; [exact Hd|apply end_derives|apply end_derives]|]. split; [unfold turn_tree; rewrite turn_root; exact Ht|].
  unfold turn_tree. rewrite yield_turn, Hw. cbn. destruct (term_eqb (root t) A); apply app_nil_r.
Qed.
Lemma turn_onto n w u : n <> b -> parses g' (Nonterminal n) w u -> exists t, parses g (Nonterminal n) w t /\ turn_tree a b t = u.
Proof.
  intros N (Hd & Hu & Hw). destruct (proj1 (turned_from u Hd n Hu) N) as (t & Hdt & <-). exists t. split; [|reflexivity]. split; [exact Hdt|].
  unfold turn_tree in *. rewrite turn_root in Hu. split; [exact Hu|]. rewrite yield_turn in Hw. cbn in Hw. destruct (term_eqb (root t) A); rewrite app_nil_r in Hw; exact Hw.
Qed.
End Trees.

Lemma left_returns g1 a b xs ys g2 n w it it' t : ~ has_lhs (g1 ++ g2) a -> ~ has_lhs (left_rules g1 a xs ys g2) b -> ~ refers (left_rules g1 a xs ys g2) b -> n <> b ->
  (forall y, In y ys -> ~ begins_with a y) ->
  opens (left_rules g1 a xs ys g2) (Nonterminal n) w it -> opens (right_rules g1 a b xs ys g2) (Nonterminal n) w it' ->
  (returns it' t <-> exists t0, returns it t0 /\ turn_tree a b t0 = t).
Proof.
  intros Ha Hb Hr N Hy Ho Ho'. rewrite (returns_iff _ _ _ _ _ Ho'). split.
  - intro H. destruct (turn_onto g1 a b xs ys g2 Ha Hb Hr Hy n w t N H) as (t0 & H0 & E). exists t0. split; [apply (returns_iff _ _ _ _ _ Ho); exact H0|exact E].
  - intros (t0 & H0 & <-). apply (returns_iff _ _ _ _ _ Ho) in H0. exact (turn_parses g1 a b xs ys g2 Ha Hb Hr Hy n w t0 N H0).
Qed.
