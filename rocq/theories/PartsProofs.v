(** Parts of parse trees: exchange and repetition. *)
From Verif Require Export PartsSpec.
From Verif Require Import EarleyInv EarleyMain EarleyExact ExtendProofs CombineProofs TreeDepth.
From Coq Require Import Lia.

Lemma yield_plug c s : yield (plug c s) = before c ++ yield s ++ after c.
Proof.
  induction c as [|l a c IH b]; cbn [plug before after]; [rewrite app_nil_r; reflexivity|].
  cbn [yield]. rewrite flat_map_app. cbn [flat_map yield_node]. rewrite IH, <- !app_assoc. reflexivity.
Qed.

Lemma plug_root c s s' : root s' = root s -> root (plug c s') = root (plug c s).
Proof. destruct c; [auto|reflexivity]. Qed.

Lemma plug_derives c g s : derives g (plug c s) -> derives g s.
Proof.
  induction c as [|l a c IH b]; cbn [plug]; [auto|]. intro H. inversion H as [p e ks Hp He Hk]; subst. apply kids_match_spells in Hk.
  apply IH. apply (proj2 Hk). apply in_app_iff. right. left. reflexivity.
Qed.

Lemma plug_exchange c g s s' : derives g (plug c s) -> derives g s' -> root s' = root s -> derives g (plug c s').
Proof.
  intros H Hs Hr. induction c as [|l a c IH b]; cbn [plug] in *; [exact Hs|]. inversion H as [p e ks Hp He Hk]; subst.
  apply (derives_node _ p e); [exact Hp|exact He|]. apply kids_match_spells in Hk. destruct Hk as [Hk Hd]. apply kids_match_spells. split.
  - apply Forall2_app_inv_r in Hk. destruct Hk as (e1 & e2 & H1 & H2 & ->). apply Forall2_app; [exact H1|].
    inversion H2 as [|x k e3 ks Hx H3]; subst. constructor; [|exact H3]. destruct x; [contradiction|]. rewrite (plug_root c s s' Hr). exact Hx.
  - intros t Ht. apply in_app_iff in Ht. destruct Ht as [Ht|[Ht|Ht]].
    + apply Hd. apply in_app_iff. left. exact Ht.
    + injection Ht as <-. apply IH. apply Hd. apply in_app_iff. right. left. reflexivity.
    + apply Hd. apply in_app_iff. right. right. exact Ht.
Qed.

(** ** Parts of returned trees *)
Lemma part_returned g start w it c s it' : opens g start w it -> returns it (plug c s) ->
  opens g (root s) (yield s) it' -> w = before c ++ yield s ++ after c /\ returns it' s.
Proof.
  intros Ho Hr Ho'. apply (returns_iff _ _ _ _ _ Ho) in Hr. destruct Hr as (Hd & _ & Hy). split; [rewrite <- Hy; apply yield_plug|].
  apply (returns_iff _ _ _ _ _ Ho'). split; [eapply plug_derives; exact Hd|auto].
Qed.

Lemma part_exchanged g start w it c s w' it' s' it'' : opens g start w it -> returns it (plug c s) ->
  opens g (root s) w' it' -> opens g start (before c ++ w' ++ after c) it'' ->
  (returns it' s' <-> returns it'' (plug c s') /\ root s' = root s /\ yield s' = w').
Proof.
  intros Ho Hr Ho' Ho''. apply (returns_iff _ _ _ _ _ Ho) in Hr. destruct Hr as (Hd & Hr & Hy).
  rewrite (returns_iff _ _ _ _ _ Ho'), (returns_iff _ _ _ _ _ Ho''). split.
  - intros (Hd' & Hr' & Hy'). split; [|auto]. split; [eapply plug_exchange; eassumption|]. split; [rewrite <- Hr; apply plug_root; exact Hr'|].
    rewrite yield_plug, Hy'. reflexivity.
  - intros ((Hd' & _ & _) & Hr' & Hy'). split; [eapply plug_derives; exact Hd'|auto].
Qed.

(** ** Contexts in contexts *)
Fixpoint within (c d : context) : context := match c with Here => d | Inside l a c b => Inside l a (within c d) b end.
Lemma plug_within c d s : plug (within c d) s = plug c (plug d s).
Proof. induction c as [|l a c IH b]; cbn; [reflexivity|]. rewrite IH. reflexivity. Qed.
Fixpoint pluck (k : nat) (d : context) (s : ptree) : ptree := match k with 0 => s | S k => plug d (pluck k d s) end.

Lemma times_S_r k v : times (S k) v = times k v ++ v.
Proof.
  unfold times. induction k as [|k IH]; [cbn; apply app_nil_r|]. cbn [repeat List.concat] in *. rewrite IH at 1. rewrite app_assoc. reflexivity.
Qed.
Lemma yield_pluck k d s : yield (pluck k d s) = times k (before d) ++ yield s ++ times k (after d).
Proof.
  induction k as [|k IH]; cbn [pluck]; [cbn; rewrite app_nil_r; reflexivity|]. rewrite yield_plug, IH, (times_S_r k (after d)).
  change (times (S k) (before d)) with (before d ++ times k (before d)). rewrite <- !app_assoc. reflexivity.
Qed.
Lemma pluck_derives k g d s : derives g (plug d s) -> root (plug d s) = root s -> derives g (pluck k d s) /\ root (pluck k d s) = root s.
Proof.
  intros H Hr. induction k as [|k [I1 I2]]; cbn [pluck]; [split; [eapply plug_derives; exact H|reflexivity]|].
  split; [eapply plug_exchange; eassumption|]. rewrite (plug_root d s _ I2). exact Hr.
Qed.

(** ** Size and height *)
Lemma mid_size l (a b : list pnode) (t : ptree) : tsize (Node l (a ++ Sub t :: b) : ptree) = S (list_sum (map nsize a) + (tsize t + list_sum (map nsize b))).
Proof. exact (tsize_mid l a t b). Qed.
Lemma plug_size c s s' : tsize s < tsize s' -> tsize (plug c s) < tsize (plug c s').
Proof. intro H. induction c as [|l a c IH b]; cbn [plug]; [exact H|]. rewrite !mid_size. lia. Qed.
Lemma inside_size l a c b s : tsize s < tsize (plug (Inside l a c b) s).
Proof.
  revert l a b. induction c as [|l' a' c IH b']; intros l a b; cbn [plug] in *; rewrite mid_size; [lia|]. specialize (IH l' a' b'). cbn [plug] in IH. lia.
Qed.

Definition below (k : pnode) : nat := match k with Leaf _ => 0 | Sub c => height c end.
Lemma height_Node l (ks : list pnode) : height (Node l ks) = S (list_max (map below ks)).
Proof. reflexivity. Qed.
Lemma below_le (ks : list pnode) t : In (Sub t) ks -> height t <= list_max (map below ks).
Proof.
  intro H. pose proof (proj1 (list_max_le (map below ks) (list_max (map below ks))) (Nat.le_refl _)) as F.
  rewrite Forall_forall in F. apply F. apply in_map_iff. exists (Sub t). auto.
Qed.
Lemma below_max (ks : list pnode) h : S h <= list_max (map below ks) -> exists t, In (Sub t) ks /\ height t = list_max (map below ks).
Proof.
  induction ks as [|k ks IH]; cbn [map]; [cbn; lia|]. change (list_max (below k :: map below ks)) with (Nat.max (below k) (list_max (map below ks))).
  intro H. destruct (Nat.le_gt_cases (list_max (map below ks)) (below k)) as [L|L].
  - rewrite Nat.max_l in * by exact L. destruct k as [s|t]; [cbn in H; lia|]. exists t. split; [left; reflexivity|reflexivity].
  - rewrite Nat.max_r in * by lia. destruct (IH H) as (t & Ht & E). exists t. split; [right; exact Ht|exact E].
Qed.

Lemma widest_pos g : 1 <= widest g.
Proof. unfold widest. change (1 <= Nat.max 1 (list_max (flat_map (fun p => map breadth (p_rhs p)) g))). lia. Qed.
Lemma widest_le g p e : In p g -> In e (p_rhs p) -> breadth e <= widest g.
Proof.
  intros Hp He. unfold widest. set (L := 1 :: _). pose proof (proj1 (list_max_le L (list_max L)) (Nat.le_refl _)) as F.
  rewrite Forall_forall in F. apply F. right. apply in_flat_map. exists p. split; [exact Hp|]. apply in_map. exact He.
Qed.

Lemma longest_le g t h : derives g t -> height t <= h -> List.length (yield t) <= longest g h.
Proof.
  revert h. induction t as [l ks IH] using tree_ind'. intros h H Hh. inversion H as [p e ks' Hp He Hk]; subst.
  rewrite height_Node in Hh. destruct h as [|h]; [lia|]. apply le_S_n in Hh.
  assert (A : List.length (flat_map yield_node ks) <= breadth e * longest g h).
  { pose proof (widest_le g p e Hp He) as _. pose proof (Nat.pow_nonzero (widest g) h) as Nz. pose proof (widest_pos g) as Wp.
    assert (1 <= longest g h) by (unfold longest; lia). apply kids_match_spells in Hk. destruct Hk as [Hs Hd].
    assert (B : forall t, In (Sub t) ks -> List.length (yield t) <= longest g h).
    { intros t Ht. apply IH; [exact Ht|apply Hd, Ht|]. etransitivity; [apply below_le; exact Ht|exact Hh]. }
    clear - B Hs H0. induction Hs as [|x k e ks Hx Hs IHs]; [cbn; lia|]. cbn [flat_map]. rewrite app_length.
    change (breadth (x :: e)) with ((match x with Terminal s => List.length s | Nonterminal _ => 1 end) + breadth e).
    assert (C : List.length (flat_map yield_node ks) <= breadth e * longest g h) by (apply IHs; intros t Ht; apply B; right; exact Ht).
    destruct x as [s|n], k as [s'|t]; try contradiction; cbn [yield_node].
    - subst s'. nia.
    - specialize (B t (or_introl eq_refl)). lia. }
  cbn [yield]. etransitivity; [exact A|]. unfold longest. cbn [Nat.pow]. apply Nat.mul_le_mono_r. exact (widest_le g p e Hp He).
Qed.

(** ** A name twice on a path *)
Lemma in_context (ks : list pnode) l t : In (Sub t) ks -> exists a b, Node l ks = plug (Inside l a Here b) t.
Proof. intro H. apply in_split in H. destruct H as (a & b & ->). exists a, b. reflexivity. Qed.

Lemma reach_height t k : 1 <= k -> k <= height t -> exists c s, t = plug c s /\ height s = k.
Proof.
  intro Hk. induction t as [l ks IH] using tree_ind'. rewrite height_Node. intro H.
  destruct (Nat.eq_dec k (S (list_max (map below ks)))) as [E|E]; [exists Here, (Node l ks); auto|].
  destruct (below_max ks 0) as (t & Ht & Et); [lia|]. destruct (IH t Ht) as (c & s & -> & Hs); [lia|].
  destruct (in_context ks l _ Ht) as (a & b & ->). exists (Inside l a c b), s. auto.
Qed.

Lemma part_with_root (x : term) (t : ptree) : (exists c s, t = plug c s /\ root s = x) \/ (forall c s, t = plug c s -> root s <> x).
Proof.
  induction t as [l ks IH] using tree_ind'. destruct (term_eq_dec l x) as [->|N]; [left; exists Here, (Node x ks); auto|].
  assert (K : (exists t c s, In (Sub t) ks /\ t = plug c s /\ root s = x) \/ (forall t, In (Sub t) ks -> forall c s, t = plug c s -> root s <> x)).
  { clear N. induction ks as [|k ks IHk]; [right; intros t []|].
    destruct IHk as [(t & c & s & Ht & E)|Hn]; [intros t Ht; apply IH; right; exact Ht|left; exists t, c, s; split; [right; exact Ht|exact E]|].
    destruct k as [s|t]; [right; intros t [D|Ht]; [discriminate D|apply Hn; exact Ht]|].
    destruct (IH t (or_introl eq_refl)) as [(c & s & E)|Hn']; [left; exists t, c, s; split; [left; reflexivity|exact E]|].
    right. intros t' [D|Ht]; [injection D as <-; exact Hn'|apply Hn; exact Ht]. }
  destruct K as [(t & c & s & Ht & -> & E)|Hn].
  - left. destruct (in_context ks l _ Ht) as (a & b & ->). exists (Inside l a c b), s. auto.
  - right. intros [|l' a c b] s E; cbn [plug] in E; [subst s; exact N|]. injection E as <- ->. apply (Hn (plug c s)) with (c := c); [|reflexivity].
    apply in_app_iff. right. left. reflexivity.
Qed.

Lemma twice (L : list term) (t : ptree) : (forall c s, t = plug c s -> In (root s) L) -> List.length L < height t ->
  exists c l a d b s, t = plug c (plug (Inside l a d b) s) /\ root s = l.
Proof.
  revert t. induction L as [L IH] using (well_founded_induction (Wf_nat.well_founded_ltof _ (@List.length term))). unfold Wf_nat.ltof in IH.
  intros [l ks] Hin Hh. pose proof (Hin Here _ eq_refl) as Hl. cbn [root] in Hl.
  rewrite height_Node in Hh. destruct (list_max (map below ks)) as [|m] eqn:Em; [destruct L; [destruct Hl|cbn in Hh; lia]|].
  destruct (below_max ks 0) as (t & Ht & Et); [lia|]. destruct (in_context ks l _ Ht) as (a & b & E).
  destruct (part_with_root l t) as [(d & s & -> & Er)|Hn].
  - exists Here, l, a, d, b, s. split; [exact E|exact Er].
  - destruct (IH (remove term_eq_dec l L)) with (t := t) as (c & l' & a' & d & b' & s & -> & Er).
    + apply remove_length_lt. exact Hl.
    + intros c s Es. apply in_in_remove; [apply (Hn c s Es)|]. apply (Hin (Inside l a c b)). rewrite E, Es. reflexivity.
    + pose proof (remove_length_lt term_eq_dec L l Hl). lia.
    + exists (Inside l a c b), l', a', d, b', s. split; [exact E|exact Er].
Qed.

(** ** Repetition *)
Lemma repetition g start w : List.length w > longest g (List.length g) -> (exists t, parses g start w t) ->
  exists u v x y z, w = u ++ v ++ x ++ y ++ z /\ v ++ y <> [] /\ List.length (v ++ x ++ y) <= longest g (S (List.length g)) /\
    forall k, exists t, parses g start (u ++ times k v ++ x ++ times k y ++ z) t.
Proof.
  intros Hw (t & Ht). remember (tsize t) as n eqn:En. revert t Ht En.
  induction n as [n IH] using (well_founded_induction Wf_nat.lt_wf). intros t (Hd & Hr & Hy) En.
  assert (Hh : S (List.length g) <= height t).
  { destruct (Nat.le_gt_cases (height t) (List.length g)) as [L|L]; [|exact L]. pose proof (longest_le g t _ Hd L) as B. rewrite Hy in B. lia. }
  destruct (reach_height t (S (List.length g))) as (c & s & -> & Hs); [lia|exact Hh|].
  pose proof (plug_derives _ _ _ Hd) as Hds.
  destruct (twice (map p_lhs g) s) as (c2 & l & a & d & b & s2 & -> & El).
  { intros c' s' ->. apply plug_derives in Hds. destruct Hds as [p e ks Hp _ _]. exact (in_map p_lhs g p Hp). }
  { rewrite map_length. lia. }
  set (D := Inside l a d b) in *. assert (HD : derives g (plug D s2)) by (eapply plug_derives; exact Hds).
  assert (RD : root (plug D s2) = root s2) by (cbn; symmetry; exact El).
  destruct (list_eq_dec N.eq_dec (before D ++ after D) []) as [Ee|Ne].
  - destruct (app_eq_nil _ _ Ee) as [E1 E2].
    apply (IH (tsize (plug c (plug c2 s2)))) with (t := plug c (plug c2 s2)).
    + rewrite En. apply plug_size, plug_size, inside_size.
    + assert (Hroot : root (plug c2 s2) = root (plug c2 (plug D s2))) by (apply plug_root; symmetry; exact RD).
      split; [|split].
      * eapply plug_exchange; [exact Hd| |exact Hroot]. eapply plug_exchange; [exact Hds|eapply plug_derives; exact HD|symmetry; exact RD].
      * rewrite <- Hr. apply plug_root. exact Hroot.
      * rewrite <- Hy. rewrite !yield_plug, E1, E2. cbn [app]. rewrite app_nil_r. reflexivity.
    + reflexivity.
  - exists (before c ++ before c2), (before D), (yield s2), (after D), (after c2 ++ after c).
    split; [rewrite <- Hy, !yield_plug, <- !app_assoc; reflexivity|]. split; [exact Ne|]. split.
    + pose proof (longest_le g _ (S (List.length g)) Hds) as B. rewrite Hs in B. specialize (B (Nat.le_refl _)).
      rewrite !yield_plug in B. rewrite !app_length in *. lia.
    + intro k. destruct (pluck_derives k g D s2 HD RD) as [P1 P2]. exists (plug c (plug c2 (pluck k D s2))).
      assert (P3 : root (pluck k D s2) = root (plug D s2)) by (rewrite P2; symmetry; exact RD).
      split; [|split].
      * eapply plug_exchange; [exact Hd|eapply plug_exchange; [exact Hds|exact P1|exact P3]|apply plug_root; exact P3].
      * rewrite <- Hr. apply plug_root, plug_root. exact P3.
      * rewrite !yield_plug, yield_pluck, <- !app_assoc. reflexivity.
Qed.

Lemma long_accepted g s w : accepts g s w -> List.length w > longest g (List.length g) ->
  exists u v x y z, w = u ++ v ++ x ++ y ++ z /\ v ++ y <> [] /\ List.length (v ++ x ++ y) <= longest g (S (List.length g)) /\
    forall k, accepts g s (u ++ times k v ++ x ++ times k y ++ z).
Proof.
  intros Ha Hw. apply accepts_iff in Ha. destruct (repetition g _ w Hw Ha) as (u & v & x & y & z & E & Hv & Hl & Hk).
  exists u, v, x, y, z. split; [exact E|]. split; [exact Hv|]. split; [exact Hl|]. intro k. apply accepts_iff. apply Hk.
Qed.

Lemma times_length k v : List.length (times k v) = k * List.length v.
Proof. unfold times. induction k as [|k IH]; [reflexivity|]. cbn [repeat List.concat]. rewrite app_length, IH. reflexivity. Qed.

Lemma unbounded g s : (exists w, accepts g s w /\ List.length w > longest g (List.length g)) <-> forall m, exists w, accepts g s w /\ List.length w > m.
Proof.
  split; [|intro H; apply H]. intros (w & Ha & Hw) m. destruct (long_accepted g s w Ha Hw) as (u & v & x & y & z & _ & Hv & _ & Hk).
  exists (u ++ times (S m) v ++ x ++ times (S m) y ++ z). split; [apply Hk|]. rewrite !app_length, !times_length.
  assert (List.length v + List.length y > 0) by (rewrite <- app_length; destruct (v ++ y); [congruence|cbn; lia]). nia.
Qed.

Lemma some_short g s : (exists w, accepts g s w) <-> exists w, accepts g s w /\ List.length w <= longest g (List.length g).
Proof.
  split; [|intros (w & H & _); exists w; exact H]. intros (w & Ha). remember (List.length w) as n eqn:En. revert w Ha En.
  induction n as [n IH] using (well_founded_induction Wf_nat.lt_wf). intros w Ha En.
  destruct (Nat.le_gt_cases (List.length w) (longest g (List.length g))) as [L|L]; [exists w; auto|].
  destruct (long_accepted g s w Ha L) as (u & v & x & y & z & E & Hv & _ & Hk). specialize (Hk 0). cbn [times repeat List.concat app] in Hk.
  assert (List.length v + List.length y > 0) by (rewrite <- app_length; destruct (v ++ y); [congruence|cbn; lia]).
  apply (IH (List.length (u ++ x ++ z))) with (w := u ++ x ++ z); [|exact Hk|reflexivity]. rewrite En, E, !app_length. lia.
Qed.

Lemma unbounded_short g s : (forall m, exists w, accepts g s w /\ List.length w > m) <->
  exists w, accepts g s w /\ longest g (List.length g) < List.length w <= longest g (List.length g) + longest g (S (List.length g)).
Proof.
  rewrite <- unbounded. split; [|intros (w & H & L & _); exists w; auto]. intros (w & Ha & Hw). remember (List.length w) as n eqn:En. revert w Ha Hw En.
  induction n as [n IH] using (well_founded_induction Wf_nat.lt_wf). intros w Ha Hw En.
  destruct (Nat.le_gt_cases n (longest g (List.length g) + longest g (S (List.length g)))) as [L|L]; [exists w; rewrite <- En; auto|].
  rewrite En in Hw. destruct (long_accepted g s w Ha Hw) as (u & v & x & y & z & E & Hv & Hl & Hk). specialize (Hk 0). cbn [times repeat List.concat app] in Hk.
  assert (List.length v + List.length y > 0) by (rewrite <- app_length; destruct (v ++ y); [congruence|cbn; lia]).
  apply (f_equal (@List.length char)) in E. rewrite !app_length in *.
  apply (IH (List.length (u ++ x ++ z))) with (w := u ++ x ++ z); [|exact Hk| |reflexivity]; rewrite !app_length; lia.
Qed.

(** ** What no grammar accepts *)
Lemma count_repeat (c d : char) n : count_occ N.eq_dec (repeat c n) d = if N.eq_dec c d then n else 0.
Proof.
  induction n as [|n IH]; cbn [repeat count_occ]; [destruct (N.eq_dec c d); reflexivity|]. rewrite IH. destruct (N.eq_dec c d); reflexivity.
Qed.

Definition abc (a b c : char) (n : nat) : str := repeat a n ++ repeat b n ++ repeat c n.

Lemma abc_count a b c n : a <> b -> b <> c -> a <> c ->
  count_occ N.eq_dec (abc a b c n) a = n /\ count_occ N.eq_dec (abc a b c n) c = n /\ List.length (abc a b c n) = 3 * n.
Proof.
  intros H1 H2 H3. unfold abc. rewrite !count_occ_app, !count_repeat, !app_length, !repeat_length.
  destruct (N.eq_dec a a), (N.eq_dec b a), (N.eq_dec c a), (N.eq_dec a c), (N.eq_dec b c), (N.eq_dec c c); try congruence. lia.
Qed.

Lemma abc_window a b c n u m z : a <> b -> b <> c -> a <> c -> abc a b c n = u ++ m ++ z -> List.length m <= n -> In a m -> In c m -> False.
Proof.
  intros Hab Hbc Hac E Hm Ia Ic. apply In_nth_error in Ia. apply In_nth_error in Ic. destruct Ia as (i & Hi), Ic as (j & Hj).
  assert (Li : i < List.length m) by (apply nth_error_Some; congruence). assert (Lj : j < List.length m) by (apply nth_error_Some; congruence).
  assert (Ei : nth_error (abc a b c n) (List.length u + i) = Some a).
  { rewrite E, nth_error_app2 by lia. replace (List.length u + i - List.length u) with i by lia. rewrite nth_error_app1 by exact Li. exact Hi. }
  assert (Ej : nth_error (abc a b c n) (List.length u + j) = Some c).
  { rewrite E, nth_error_app2 by lia. replace (List.length u + j - List.length u) with j by lia. rewrite nth_error_app1 by exact Lj. exact Hj. }
  set (p := List.length u + i) in *. set (q := List.length u + j) in *.
  assert (Pa : p < n).
  { destruct (Nat.lt_ge_cases p n) as [L|L]; [exact L|]. unfold abc in Ei. rewrite nth_error_app2 in Ei by (rewrite repeat_length; lia).
    apply nth_error_In in Ei. apply in_app_iff in Ei. destruct Ei as [Ei|Ei]; apply repeat_spec in Ei; congruence. }
  assert (Qc : 2 * n <= q).
  { destruct (Nat.le_gt_cases (2 * n) q) as [L|L]; [exact L|]. unfold abc in Ej. rewrite app_assoc, nth_error_app1 in Ej by (rewrite app_length, !repeat_length; lia).
    apply nth_error_In in Ej. apply in_app_iff in Ej. destruct Ej as [Ej|Ej]; apply repeat_spec in Ej; congruence. }
  unfold p, q in *. lia.
Qed.

Lemma no_counting (a b c : char) : a <> b -> b <> c -> a <> c ->
  forall g s, ~ forall w, accepts g s w <-> exists n, w = repeat a n ++ repeat b n ++ repeat c n.
Proof.
  intros Hab Hbc Hac g s H. set (n := longest g (S (List.length g))).
  assert (Hn : longest g (List.length g) <= n) by (unfold n, longest; cbn [Nat.pow]; pose proof (widest_pos g); nia).
  assert (Hp : 1 <= n) by (unfold n, longest; pose proof (widest_pos g); pose proof (Nat.pow_nonzero (widest g) (S (List.length g))); lia).
  destruct (abc_count a b c n Hab Hbc Hac) as (Ca & Cc & Cl).
  destruct (long_accepted g s (abc a b c n)) as (u & v & x & y & z & E & Hv & Hl & Hk).
  { apply H. exists n. reflexivity. } { lia. }
  specialize (Hk 0). cbn [times repeat List.concat app] in Hk. apply H in Hk. destruct Hk as (k & Ek). change (u ++ x ++ z = abc a b c k) in Ek.
  destruct (abc_count a b c k Hab Hbc Hac) as (Ka & Kc & Kl). rewrite <- Ek in Ka, Kc, Kl.
  rewrite E in Ca, Cc, Cl. rewrite !count_occ_app in *. rewrite !app_length in *.
  assert (Lv : List.length v + List.length y > 0) by (rewrite <- app_length; destruct (v ++ y); [congruence|cbn; lia]).
  destruct (in_dec N.eq_dec a (v ++ x ++ y)) as [Ia|Na].
  - assert (Nc : ~ In c (v ++ x ++ y)).
    { intro Ic. apply (abc_window a b c n u (v ++ x ++ y) z Hab Hbc Hac); [rewrite E, <- !app_assoc; reflexivity| |exact Ia|exact Ic]. rewrite !app_length. exact Hl. }
    apply (count_occ_not_In N.eq_dec) in Nc. rewrite !count_occ_app in Nc. lia.
  - apply (count_occ_not_In N.eq_dec) in Na. rewrite !count_occ_app in Na. lia.
Qed.
