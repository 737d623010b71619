(** Grammars put together from others. *)
From Verif Require Export CombineSpec.
From Verif Require Import EarleyInv EarleyMain ExtendProofs ParseGrammarProofs Facts_Parsing ParseExamples.
From Coq Require Import Permutation.
From Coq Require String.
Import String.StringSyntax.

(** ** Rules that do not matter *)

Lemma foreign_tree a g h k : foreign a g h -> (forall p, In p k -> In p g \/ In p h) ->
  forall t n, called a g n -> root t = Nonterminal n -> derives k t -> derives g t.
Proof.
  intros Hf Hk. induction t as [l ks IH] using tree_ind'. intros n Hn Hr Hd.
  inversion Hd as [p e ks' Hp He Hm]; subst. cbn [root] in Hr.
  destruct (Hk p Hp) as [Hg|Hh]; [|exfalso; apply (Hf n Hn); exists p; auto].
  apply (derives_node g p e); [exact Hg|exact He|]. apply kids_match_spells in Hm. destruct Hm as [Hs Hd'].
  apply kids_match_spells. split; [exact Hs|]. intros t Ht.
  assert (exists m, In (Nonterminal m) e /\ root t = Nonterminal m) as (m & Hm & Hrm).
  { clear - Hs Ht. induction Hs as [|x y e ks Hx Hs IHs]; [destruct Ht|]. destruct Ht as [->|Ht].
    - destruct x as [s|m]; [destruct Hx|]. exists m. split; [left; reflexivity|exact Hx].
    - destruct (IHs Ht) as (m & H1 & H2). exists m. split; [right; exact H1|exact H2]. }
  apply (IH t Ht m); [right; exists p, e; auto|exact Hrm|auto].
Qed.

Lemma foreign_parses a g h k w t : foreign a g h -> incl g k -> (forall p, In p k -> In p g \/ In p h) ->
  (derives k t /\ root t = Nonterminal a /\ yield t = w <-> parses g (Nonterminal a) w t).
Proof.
  intros Hf Hi Hk. unfold parses. split; intros (H1 & H2 & H3); repeat split; auto.
  - eapply foreign_tree; eauto. left. reflexivity.
  - eapply GenSameCases.derives_incl; eassumption.
Qed.

Lemma has_lhs_cons p g n : has_lhs (p :: g) n <-> p_lhs p = Nonterminal n \/ has_lhs g n.
Proof.
  split.
  - intros (q & [<-|Hq] & H); [left; exact H|right; exists q; auto].
  - intros [H|(q & Hq & H)]; [exists p; split; [left; reflexivity|exact H]|exists q; split; [right; exact Hq|exact H]].
Qed.
Lemma has_lhs_app g h n : has_lhs (g ++ h) n <-> has_lhs g n \/ has_lhs h n.
Proof.
  split.
  - intros (q & Hq & H). apply in_app_iff in Hq. destruct Hq; [left|right]; exists q; auto.
  - intros [(q & Hq & H)|(q & Hq & H)]; exists q; (split; [apply in_app_iff; auto|exact H]).
Qed.

(** The trees below the new rule. *)
Section Two.
  Variables (n a b : str) (g h : grammar) (r : production).
  Hypothesis Hr : p_lhs r = Nonterminal n.
  Hypothesis Hsep : separate n a b g h.

  Lemma left_foreign : foreign a g (r :: h).
  Proof.
    destruct Hsep as (H1 & H2 & H3 & H4 & H5). intros x Hx Hl. apply has_lhs_cons in Hl. destruct Hl as [E|Hl]; [|exact (H1 x Hx Hl)].
    rewrite Hr in E. injection E as <-. contradiction.
  Qed.
  Lemma right_foreign : foreign b h (r :: g).
  Proof.
    destruct Hsep as (H1 & H2 & H3 & H4 & H5). intros x Hx Hl. apply has_lhs_cons in Hl. destruct Hl as [E|Hl]; [|exact (H2 x Hx Hl)].
    rewrite Hr in E. injection E as <-. contradiction.
  Qed.
  Lemma left_parses w t : derives (r :: g ++ h) t /\ root t = Nonterminal a /\ yield t = w <-> parses g (Nonterminal a) w t.
  Proof.
    apply (foreign_parses a g (r :: h)); [exact left_foreign| |].
    - intros p Hp. right. apply in_app_iff. auto.
    - intros p [<-|Hp]; [right; left; reflexivity|]. apply in_app_iff in Hp. destruct Hp; [left; assumption|right; right; assumption].
  Qed.
  Lemma right_parses w t : derives (r :: g ++ h) t /\ root t = Nonterminal b /\ yield t = w <-> parses h (Nonterminal b) w t.
  Proof.
    apply (foreign_parses b h (r :: g)); [exact right_foreign| |].
    - intros p Hp. right. apply in_app_iff. auto.
    - intros p [<-|Hp]; [right; left; reflexivity|]. apply in_app_iff in Hp. destruct Hp; [right; right; assumption|left; assumption].
  Qed.

  Lemma new_node t : derives (r :: g ++ h) t -> root t = Nonterminal n ->
    exists e ks, t = Node (Nonterminal n) ks /\ In e (p_rhs r) /\ kids_match (r :: g ++ h) e ks.
  Proof.
    intros Hd Hroot. inversion Hd as [p e ks Hp He Hm]; subst. cbn [root] in Hroot. destruct Hp as [<-|Hp].
    - exists e, ks. rewrite Hroot. auto.
    - exfalso. destruct Hsep as (_ & _ & _ & _ & H5). apply H5. exists p. auto.
  Qed.
End Two.

Lemma yield_one {L} (l : L) u : yield (Node l [Sub u]) = yield u.
Proof. cbn. apply app_nil_r. Qed.
Lemma yield_two {L} (l : L) u v : yield (Node l [Sub u; Sub v]) = yield u ++ yield v.
Proof. cbn. rewrite app_nil_r. reflexivity. Qed.

Lemma km_one g n ks : kids_match g [Nonterminal n] ks <-> exists u, ks = [Sub u] /\ root u = Nonterminal n /\ derives g u.
Proof.
  split.
  - intro H. inversion H as [| |m u r ks' Hr Hd Hk]; subst. inversion Hk; subst. eauto.
  - intros (u & -> & Hr & Hd). constructor; auto. constructor.
Qed.
Lemma km_two g a b ks : kids_match g [Nonterminal a; Nonterminal b] ks <->
  exists u v, ks = [Sub u; Sub v] /\ root u = Nonterminal a /\ derives g u /\ root v = Nonterminal b /\ derives g v.
Proof.
  split.
  - intro H. inversion H as [| |m u r ks' Hr Hd Hk]; subst. apply km_one in Hk. destruct Hk as (v & -> & Hv & Hdv). exists u, v. auto.
  - intros (u & v & -> & Hr & Hd & Hv & Hdv). constructor; auto. apply km_one. eauto.
Qed.

(** ** Alternation *)

Lemma either_parses n a b g h w t : separate n a b g h ->
  (parses (either n a b g h) (Nonterminal n) w t <->
   exists u, t = Node (Nonterminal n) [Sub u] /\ (parses g (Nonterminal a) w u \/ parses h (Nonterminal b) w u)).
Proof.
  intro Hsep. split.
  - intros (Hd & Hr & Hy). destruct (new_node n a b g h _ Hsep t Hd Hr) as (e & ks & -> & He & Hk).
    destruct He as [<-|[<-|[]]]; apply km_one in Hk; destruct Hk as (u & -> & Hru & Hdu); rewrite yield_one in Hy; exists u;
      (split; [reflexivity|]); [left|right].
    + apply (left_parses n a b g h (mkProd (Nonterminal n) [[Nonterminal a]; [Nonterminal b]]) eq_refl Hsep). auto.
    + apply (right_parses n a b g h (mkProd (Nonterminal n) [[Nonterminal a]; [Nonterminal b]]) eq_refl Hsep). auto.
  - intros (u & -> & [Hu|Hu]).
    + apply (left_parses n a b g h (mkProd (Nonterminal n) [[Nonterminal a]; [Nonterminal b]]) eq_refl Hsep) in Hu. destruct Hu as (H1 & H2 & H3).
      split; [|split; [reflexivity|rewrite yield_one; exact H3]].
      apply (derives_node _ (mkProd (Nonterminal n) [[Nonterminal a]; [Nonterminal b]]) [Nonterminal a]); [left; reflexivity|left; reflexivity|].
      apply km_one. eauto.
    + apply (right_parses n a b g h (mkProd (Nonterminal n) [[Nonterminal a]; [Nonterminal b]]) eq_refl Hsep) in Hu. destruct Hu as (H1 & H2 & H3).
      split; [|split; [reflexivity|rewrite yield_one; exact H3]].
      apply (derives_node _ (mkProd (Nonterminal n) [[Nonterminal a]; [Nonterminal b]]) [Nonterminal b]); [left; reflexivity|right; left; reflexivity|].
      apply km_one. eauto.
Qed.

Lemma either_returns n a b g h w it it1 it2 t : separate n a b g h ->
  opens (either n a b g h) (Nonterminal n) w it -> opens g (Nonterminal a) w it1 -> opens h (Nonterminal b) w it2 ->
  (returns it t <-> exists u, t = Node (Nonterminal n) [Sub u] /\ (returns it1 u \/ returns it2 u)).
Proof.
  intros Hsep Ho H1 H2. rewrite (returns_iff _ _ _ _ _ Ho), either_parses by exact Hsep.
  split; intros (u & E & H); exists u; (split; [exact E|]); [rewrite (returns_iff _ _ _ _ _ H1), (returns_iff _ _ _ _ _ H2)|
    rewrite <- (returns_iff _ _ _ _ _ H1), <- (returns_iff _ _ _ _ _ H2)]; exact H.
Qed.

Lemma all_trees_iff g s w ts : all_trees g s w ts -> forall t, In t ts <-> parses g (Nonterminal s) w t.
Proof.
  intros (it & itf & Ho & Hp & He) t. split; intro H.
  - exact (soundness _ _ _ _ _ _ _ Ho Hp H).
  - exact (exhaustive _ _ _ _ _ _ _ Ho Hp He H).
Qed.
Lemma all_trees_nodup g s w ts : NoDup (flat_prods g) -> all_trees g s w ts -> NoDup ts.
Proof. intros Hn (it & itf & Ho & Hp & He). exact (no_duplicates _ _ _ _ _ _ Hn Ho Hp). Qed.

Lemma flat_prods_app g h : flat_prods (g ++ h) = flat_prods g ++ flat_prods h.
Proof. apply flat_map_app. Qed.

Lemma NoDup_app_l {A} (l l' : list A) : NoDup (l ++ l') -> NoDup l /\ NoDup l'.
Proof.
  induction l as [|x l IH]; intro H; [split; [constructor|exact H]|]. inversion H as [|? ? Hx H']; subst. destruct (IH H') as [I1 I2].
  split; [|exact I2]. constructor; [|exact I1]. intro Hi. apply Hx, in_app_iff. auto.
Qed.
Lemma NoDup_app_r {A} (l l' : list A) : NoDup l -> NoDup l' -> (forall x, In x l -> ~ In x l') -> NoDup (l ++ l').
Proof.
  induction l as [|x l IH]; intros H1 H2 H; [exact H2|]. inversion H1 as [|? ? Hx H']; subst. cbn [app]. constructor.
  - intro Hi. apply in_app_iff in Hi. destruct Hi as [Hi|Hi]; [exact (Hx Hi)|exact (H x (or_introl eq_refl) Hi)].
  - apply IH; auto. intros y Hy. apply H. right. exact Hy.
Qed.

Lemma either_all n a b g h w ts ts1 ts2 : separate n a b g h -> NoDup (flat_prods (either n a b g h)) ->
  all_trees (either n a b g h) n w ts -> all_trees g a w ts1 -> all_trees h b w ts2 ->
  Permutation ts (map (fun u => Node (Nonterminal n) [Sub u]) (ts1 ++ ts2)).
Proof.
  intros Hsep Hnd H H1 H2.
  assert (Hs : NoDup (flat_prods g) /\ NoDup (flat_prods h) /\ a <> b).
  { unfold either in Hnd. cbn [flat_prods flat_map map p_lhs p_rhs app] in Hnd. fold (flat_prods (g ++ h)) in Hnd. rewrite flat_prods_app in Hnd.
    inversion Hnd as [|? ? Hx Hnd']; subst. inversion Hnd' as [|? ? Hx' Hnd'']; subst. apply NoDup_app_l in Hnd''.
    split; [apply Hnd''|]. split; [apply Hnd''|]. intros ->. apply Hx. left. reflexivity. }
  destruct Hs as (N1 & N2 & Hab). apply NoDup_Permutation.
  - exact (all_trees_nodup _ _ _ _ Hnd H).
  - apply FinFun.Injective_map_NoDup; [intros u v E; cbn in E; congruence|]. apply NoDup_app_r; [exact (all_trees_nodup _ _ _ _ N1 H1)|exact (all_trees_nodup _ _ _ _ N2 H2)|].
    intros u Hu Hu'. apply (all_trees_iff _ _ _ _ H1) in Hu. apply (all_trees_iff _ _ _ _ H2) in Hu'. destruct Hu as (_ & E1 & _), Hu' as (_ & E2 & _). congruence.
  - intro t. rewrite (all_trees_iff _ _ _ _ H), in_map_iff, either_parses by exact Hsep. split.
    + intros (u & -> & [Hu|Hu]); exists u; (split; [reflexivity|]); apply in_app_iff; [left; apply (all_trees_iff _ _ _ _ H1)|right; apply (all_trees_iff _ _ _ _ H2)]; exact Hu.
    + intros (u & <- & Hu). exists u. split; [reflexivity|]. apply in_app_iff in Hu. destruct Hu as [Hu|Hu]; [left; apply (all_trees_iff _ _ _ _ H1)|right; apply (all_trees_iff _ _ _ _ H2)]; exact Hu.
Qed.

(** ** Sequence *)

Lemma sequence_parses n a b g h w t : separate n a b g h ->
  (parses (in_sequence n a b g h) (Nonterminal n) w t <->
   exists u v x y, t = Node (Nonterminal n) [Sub u; Sub v] /\ w = x ++ y /\ parses g (Nonterminal a) x u /\ parses h (Nonterminal b) y v).
Proof.
  intro Hsep. split.
  - intros (Hd & Hr & Hy). destruct (new_node n a b g h _ Hsep t Hd Hr) as (e & ks & -> & He & Hk).
    destruct He as [<-|[]]. apply km_two in Hk. destruct Hk as (u & v & -> & Hru & Hdu & Hrv & Hdv). rewrite yield_two in Hy.
    exists u, v, (yield u), (yield v). split; [reflexivity|]. split; [symmetry; exact Hy|]. split.
    + apply (left_parses n a b g h (mkProd (Nonterminal n) [[Nonterminal a; Nonterminal b]]) eq_refl Hsep). auto.
    + apply (right_parses n a b g h (mkProd (Nonterminal n) [[Nonterminal a; Nonterminal b]]) eq_refl Hsep). auto.
  - intros (u & v & x & y & -> & -> & Hu & Hv).
    apply (left_parses n a b g h (mkProd (Nonterminal n) [[Nonterminal a; Nonterminal b]]) eq_refl Hsep) in Hu. destruct Hu as (H1 & H2 & H3).
    apply (right_parses n a b g h (mkProd (Nonterminal n) [[Nonterminal a; Nonterminal b]]) eq_refl Hsep) in Hv. destruct Hv as (H4 & H5 & H6).
    split; [|split; [reflexivity|rewrite yield_two; congruence]].
    apply (derives_node _ (mkProd (Nonterminal n) [[Nonterminal a; Nonterminal b]]) [Nonterminal a; Nonterminal b]); [left; reflexivity|left; reflexivity|].
    apply km_two. exists u, v. auto.
Qed.

Lemma nonempty_opens g s w : g <> [] -> exists it, opens g s w it.
Proof. intro H. destruct (proj2 (opens_deprecated_ok g w s) H) as [_ [it E]]. exists it. apply opens_deprecated_with. exact E. Qed.

Lemma parses_nonempty g s w t : parses g s w t -> g <> [].
Proof. intros [H _] ->. inversion H as [p e ks []]. Qed.

Lemma accepts_iff g s w : accepts g s w <-> exists t, parses g (Nonterminal s) w t.
Proof.
  split.
  - intros (it & t & Ho & H). exists t. apply (returns_iff _ _ _ _ _ Ho). exact H.
  - intros (t & H). destruct (nonempty_opens g (Nonterminal s) w (parses_nonempty _ _ _ _ H)) as [it Ho].
    exists it, t. split; [exact Ho|]. apply (returns_iff _ _ _ _ _ Ho). exact H.
Qed.

Lemma sequence_returns n a b g h w it t : separate n a b g h -> opens (in_sequence n a b g h) (Nonterminal n) w it ->
  (returns it t <-> exists u v x y it1 it2, t = Node (Nonterminal n) [Sub u; Sub v] /\ w = x ++ y /\
     opens g (Nonterminal a) x it1 /\ returns it1 u /\ opens h (Nonterminal b) y it2 /\ returns it2 v).
Proof.
  intros Hsep Ho. rewrite (returns_iff _ _ _ _ _ Ho), sequence_parses by exact Hsep. split.
  - intros (u & v & x & y & E & Ew & Hu & Hv).
    destruct (nonempty_opens g (Nonterminal a) x (parses_nonempty _ _ _ _ Hu)) as [it1 H1].
    destruct (nonempty_opens h (Nonterminal b) y (parses_nonempty _ _ _ _ Hv)) as [it2 H2].
    exists u, v, x, y, it1, it2. repeat split; auto; [apply (returns_iff _ _ _ _ _ H1)|apply (returns_iff _ _ _ _ _ H2)]; assumption.
  - intros (u & v & x & y & it1 & it2 & E & Ew & H1 & Hu & H2 & Hv). exists u, v, x, y.
    apply (returns_iff _ _ _ _ _ H1) in Hu. apply (returns_iff _ _ _ _ _ H2) in Hv. auto.
Qed.

Definition pairs (n : str) (l l' : list ptree) : list ptree := map (fun x => Node (Nonterminal n) [Sub (fst x); Sub (snd x)]) (list_prod l l').

Lemma in_pairs n l l' t : In t (pairs n l l') <-> exists u v, t = Node (Nonterminal n) [Sub u; Sub v] /\ In u l /\ In v l'.
Proof.
  unfold pairs. rewrite in_map_iff. split.
  - intros ([u v] & <- & H). apply in_prod_iff in H. exists u, v. auto.
  - intros (u & v & -> & Hu & Hv). exists (u, v). split; [reflexivity|]. apply in_prod_iff. auto.
Qed.
Lemma NoDup_list_prod {A B} (l : list A) (l' : list B) : NoDup l -> NoDup l' -> NoDup (list_prod l l').
Proof.
  intros H H'. induction H as [|x l Hx H IH]; [constructor|]. cbn [list_prod]. apply NoDup_app_r; [|exact IH|].
  - apply FinFun.Injective_map_NoDup; [intros u v E; cbn in E; congruence|exact H'].
  - intros [u v] Hi Hi'. apply in_map_iff in Hi. destruct Hi as (y & E & _). injection E as <- _. apply in_prod_iff in Hi'. tauto.
Qed.
Lemma NoDup_pairs n l l' : NoDup l -> NoDup l' -> NoDup (pairs n l l').
Proof. intros H H'. apply FinFun.Injective_map_NoDup; [intros [u v] [u' v'] E; cbn in E; congruence|apply NoDup_list_prod; assumption]. Qed.

Lemma NoDup_flat_map {A B} (f : A -> list B) l : NoDup l -> (forall x, In x l -> NoDup (f x)) ->
  (forall x y z, In x l -> In y l -> In z (f x) -> In z (f y) -> x = y) -> NoDup (flat_map f l).
Proof.
  intro H. induction H as [|x l Hx H IH]; intros H1 H2; [constructor|]. cbn [flat_map]. apply NoDup_app_r.
  - apply H1. left. reflexivity.
  - apply IH; [intros y Hy; apply H1; right; exact Hy|]. intros y z v Hy Hz. apply H2; right; assumption.
  - intros z Hz Hz'. apply in_flat_map in Hz'. destruct Hz' as (y & Hy & Hzy). apply Hx.
    rewrite (H2 x y z (or_introl eq_refl) (or_intror Hy) Hz Hzy). exact Hy.
Qed.

(** All the trees, where the input can be cut at any place. *)
Lemma sequence_all n a b g h w ts (left right : nat -> list ptree) : separate n a b g h -> NoDup (flat_prods (in_sequence n a b g h)) ->
  all_trees (in_sequence n a b g h) n w ts ->
  (forall i, i <= length w -> all_trees g a (firstn i w) (left i)) -> (forall i, i <= length w -> all_trees h b (skipn i w) (right i)) ->
  Permutation ts (flat_map (fun i => pairs n (left i) (right i)) (seq 0 (S (length w)))).
Proof.
  intros Hsep Hnd H Hl Hr.
  assert (Hs : NoDup (flat_prods g) /\ NoDup (flat_prods h)).
  { unfold in_sequence in Hnd. cbn [flat_prods flat_map map p_lhs p_rhs app] in Hnd. fold (flat_prods (g ++ h)) in Hnd. rewrite flat_prods_app in Hnd.
    inversion Hnd as [|? ? Hx Hnd']; subst. apply NoDup_app_l in Hnd'. exact Hnd'. }
  destruct Hs as (N1 & N2). apply NoDup_Permutation.
  - exact (all_trees_nodup _ _ _ _ Hnd H).
  - apply NoDup_flat_map; [apply seq_NoDup| |].
    + intros i Hi. apply in_seq in Hi. apply NoDup_pairs; eapply all_trees_nodup; [exact N1|apply Hl; lia|exact N2|apply Hr; lia].
    + intros i j t Hi Hj Ht Ht'. apply in_seq in Hi, Hj. apply in_pairs in Ht, Ht'. destruct Ht as (u & v & -> & Hu & Hv), Ht' as (u' & v' & E & Hu' & Hv').
      injection E as <- <-. apply (all_trees_iff _ _ _ _ (Hl i ltac:(lia))) in Hu. apply (all_trees_iff _ _ _ _ (Hl j ltac:(lia))) in Hu'.
      destruct Hu as (_ & _ & E1), Hu' as (_ & _ & E2). assert (length (firstn i w) = length (firstn j w)) by congruence. rewrite !firstn_length in *. lia.
  - intro t. rewrite (all_trees_iff _ _ _ _ H), sequence_parses, in_flat_map by exact Hsep. split.
    + intros (u & v & x & y & -> & -> & Hu & Hv). exists (length x). rewrite app_length in *.
      assert (E1 : firstn (length x) (x ++ y) = x) by (rewrite firstn_app, Nat.sub_diag, firstn_all, app_nil_r; reflexivity).
      assert (E2 : skipn (length x) (x ++ y) = y) by (rewrite skipn_app, Nat.sub_diag, skipn_all; reflexivity).
      split; [apply in_seq; lia|]. apply in_pairs. exists u, v. split; [reflexivity|].
      split; [apply (all_trees_iff _ _ _ _ (Hl (length x) ltac:(lia)))|apply (all_trees_iff _ _ _ _ (Hr (length x) ltac:(lia)))]; congruence.
    + intros (i & Hi & Ht). apply in_seq in Hi. apply in_pairs in Ht. destruct Ht as (u & v & -> & Hu & Hv).
      exists u, v, (firstn i w), (skipn i w). split; [reflexivity|]. split; [symmetry; apply firstn_skipn|].
      split; [apply (all_trees_iff _ _ _ _ (Hl i ltac:(lia))); exact Hu|apply (all_trees_iff _ _ _ _ (Hr i ltac:(lia))); exact Hv].
Qed.

(** ** Repetition *)

Lemma repeated_sub n a g w u : ~ called a g n ->
  derives (repeated n a g) u /\ root u = Nonterminal a /\ yield u = w <-> parses g (Nonterminal a) w u.
Proof.
  intros Hn. apply (foreign_parses a g [mkProd (Nonterminal n) [[Terminal []]; [Nonterminal a; Nonterminal n]]]).
  - intros x Hx (p & [<-|[]] & E). injection E as <-. contradiction.
  - intros p Hp. right. exact Hp.
  - intros p [<-|Hp]; [right; left; reflexivity|left; exact Hp].
Qed.

Lemma repeated_tree n a g : ~ called a g n -> ~ has_lhs g n -> forall t, derives (repeated n a g) t -> root t = Nonterminal n ->
  exists ws, yield t = concat ws /\ Forall (accepts g a) ws.
Proof.
  intros Hn Hl. induction t as [l ks IH] using tree_ind'. intros Hd Hr. cbn [root] in Hr. subst l.
  inversion Hd as [p e ks' Hp He Hm E]; subst. destruct Hp as [<-|Hp]; [|exfalso; apply Hl; exists p; auto].
  destruct He as [<-|[<-|[]]].
  - inversion Hm as [|s r ks' Hk|]; subst. inversion Hk; subst. exists []. split; [reflexivity|constructor].
  - apply km_two in Hm. destruct Hm as (u & v & -> & Hru & Hdu & Hrv & Hdv).
    destruct (IH v (or_intror (or_introl eq_refl)) Hdv Hrv) as (ws & Ew & Hws). exists (yield u :: ws). split.
    + change (p_lhs _) with (Nonterminal n). rewrite yield_two, Ew. reflexivity.
    + constructor; [|exact Hws]. apply accepts_iff. exists u. apply (repeated_sub n a g _ u Hn). auto.
Qed.

Lemma repeated_accepts n a g w : ~ called a g n -> ~ has_lhs g n ->
  (accepts (repeated n a g) n w <-> exists ws, w = concat ws /\ Forall (accepts g a) ws).
Proof.
  intros Hn Hl. rewrite accepts_iff. split.
  - intros (t & Hd & Hr & <-). exact (repeated_tree n a g Hn Hl t Hd Hr).
  - intros (ws & -> & H). set (r := mkProd (Nonterminal n) [[Terminal []]; [Nonterminal a; Nonterminal n]]).
    induction H as [|x ws Hx H IH].
    + exists (Node (Nonterminal n) [Leaf []]). split; [|split; reflexivity].
      apply (derives_node _ r [Terminal []]); [left; reflexivity|left; reflexivity|]. repeat constructor.
    + destruct IH as (v & Hv). apply accepts_iff in Hx. destruct Hx as (u & Hu). apply (repeated_sub n a g _ u Hn) in Hu.
      destruct Hu as (H1 & H2 & H3), Hv as (H4 & H5 & H6). exists (Node (Nonterminal n) [Sub u; Sub v]).
      split; [|split; [reflexivity|rewrite yield_two; cbn [concat]; congruence]].
      apply (derives_node _ r [Nonterminal a; Nonterminal n]); [left; reflexivity|right; left; reflexivity|]. apply km_two. exists u, v. auto.
Qed.

(** ** Reversal *)

Lemma mirror_tree_Node l ks : mirror_tree (Node l ks) = Node l (rev (map mirror_node ks)).
Proof. reflexivity. Qed.
Lemma mirror_node_Sub t : mirror_node (Sub t) = Sub (mirror_tree t).
Proof. reflexivity. Qed.

Lemma mirror_root t : root (mirror_tree t) = root t.
Proof. destruct t as [l ks]. reflexivity. Qed.

Lemma flat_map_rev {A B} (f h : A -> list B) l : (forall x, In x l -> h x = rev (f x)) -> flat_map h (rev l) = rev (flat_map f l).
Proof.
  induction l as [|x l IH]; intro H; [reflexivity|]. cbn [rev flat_map]. rewrite flat_map_app, rev_app_distr, IH by (intros y Hy; apply H; right; exact Hy).
  cbn [flat_map]. rewrite app_nil_r, H by (left; reflexivity). reflexivity.
Qed.

Lemma mirror_yield t : yield (mirror_tree t) = rev (yield t).
Proof.
  induction t as [l ks IH] using tree_ind'. rewrite mirror_tree_Node. cbn [yield]. rewrite <- map_rev, flat_map_concat_map, map_map, <- flat_map_concat_map.
  apply flat_map_rev. intros [s|t] Hk; [reflexivity|]. rewrite mirror_node_Sub. cbn [yield_node]. apply IH, Hk.
Qed.

Lemma mirror_mirror_tree t : mirror_tree (mirror_tree t) = t.
Proof.
  induction t as [l ks IH] using tree_ind'. rewrite !mirror_tree_Node. f_equal. rewrite map_rev, rev_involutive, map_map.
  rewrite <- (map_id ks) at 2. apply map_ext_in. intros [s|t] Hk; [cbn; rewrite rev_involutive; reflexivity|].
  rewrite !mirror_node_Sub, IH by exact Hk. reflexivity.
Qed.

Lemma mirror_mirror_expression e : mirror_expression (mirror_expression e) = e.
Proof.
  unfold mirror_expression. rewrite map_rev, rev_involutive, map_map. rewrite <- (map_id e) at 2. apply map_ext.
  intros [s|n]; cbn; [rewrite rev_involutive|]; reflexivity.
Qed.
Lemma mirror_mirror g : mirror (mirror g) = g.
Proof.
  unfold mirror. rewrite map_map. rewrite <- (map_id g) at 2. apply map_ext. intros [l es]. cbn [p_lhs p_rhs]. f_equal.
  rewrite map_map. rewrite <- (map_id es) at 2. apply map_ext, mirror_mirror_expression.
Qed.

Lemma mirror_spells e ks : spells_alternative e ks -> spells_alternative (mirror_expression e) (rev (map mirror_node ks)).
Proof.
  unfold spells_alternative, mirror_expression. intro H. induction H as [|x k e ks Hx H IH]; [constructor|]. cbn [map rev].
  apply Forall2_app; [exact IH|]. constructor; [|constructor].
  destruct x as [s|n], k as [s'|t]; try contradiction; cbn [mirror_term]; [cbn; congruence|]. rewrite mirror_node_Sub, mirror_root. exact Hx.
Qed.

Lemma mirror_derives_1 g t : derives g t -> derives (mirror g) (mirror_tree t).
Proof.
  induction t as [l ks IH] using tree_ind'. intro H. inversion H as [p e ks' Hp He Hm]; subst. rewrite mirror_tree_Node.
  apply (derives_node _ (mkProd (p_lhs p) (map mirror_expression (p_rhs p))) (mirror_expression e)).
  - unfold mirror. apply in_map_iff. exists p. auto.
  - cbn [p_rhs]. apply in_map. exact He.
  - apply kids_match_spells in Hm. destruct Hm as [Hs Hd]. apply kids_match_spells. split; [apply mirror_spells, Hs|].
    intros t Ht. apply in_rev in Ht. apply in_map_iff in Ht. destruct Ht as ([s|u] & E & Hu); [discriminate|].
    rewrite mirror_node_Sub in E. injection E as <-. auto.
Qed.
Lemma mirror_derives g t : derives (mirror g) (mirror_tree t) <-> derives g t.
Proof.
  split; [|apply mirror_derives_1]. intro H. apply mirror_derives_1 in H. rewrite mirror_mirror, mirror_mirror_tree in H. exact H.
Qed.

Lemma mirror_parses g s w t : parses (mirror g) s (rev w) (mirror_tree t) <-> parses g s w t.
Proof.
  unfold parses. rewrite mirror_derives, mirror_root, mirror_yield. split; intros (H1 & H2 & H3); repeat split; auto.
  - rewrite <- (rev_involutive w), <- H3, rev_involutive. reflexivity.
  - congruence.
Qed.

Lemma mirror_returns g s w it it' t : opens g s w it -> opens (mirror g) s (rev w) it' ->
  (returns it' (mirror_tree t) <-> returns it t).
Proof. intros H H'. rewrite (returns_iff _ _ _ _ _ H), (returns_iff _ _ _ _ _ H'). apply mirror_parses. Qed.

Lemma mirror_flat g : flat_prods (mirror g) = map (fun x => (fst x, mirror_expression (snd x))) (flat_prods g).
Proof.
  unfold flat_prods, mirror. rewrite flat_map_concat_map, map_map, <- flat_map_concat_map. induction g as [|p g IH]; [reflexivity|].
  cbn [flat_map]. rewrite map_app, IH. f_equal. cbn [p_lhs p_rhs]. rewrite !map_map. reflexivity.
Qed.
Lemma mirror_nodup g : NoDup (flat_prods g) -> NoDup (flat_prods (mirror g)).
Proof.
  intro H. rewrite mirror_flat. apply FinFun.Injective_map_NoDup; [|exact H]. intros [l e] [l' e'] E. cbn [fst snd] in E. injection E as -> E. change (mirror_expression e = mirror_expression e') in E.
  rewrite <- (mirror_mirror_expression e), E, mirror_mirror_expression. reflexivity.
Qed.

Lemma mirror_all g s w ts ts' : NoDup (flat_prods g) -> all_trees g s w ts -> all_trees (mirror g) s (rev w) ts' ->
  Permutation ts' (map mirror_tree ts).
Proof.
  intros Hn H H'. apply NoDup_Permutation.
  - eapply all_trees_nodup; [apply mirror_nodup, Hn|exact H'].
  - apply FinFun.Injective_map_NoDup; [|eapply all_trees_nodup; eassumption]. intros u v E. rewrite <- (mirror_mirror_tree u), E. apply mirror_mirror_tree.
  - intro t. rewrite (all_trees_iff _ _ _ _ H'), in_map_iff. rewrite <- (mirror_mirror_tree t) at 1. rewrite mirror_parses. split.
    + intro Hp. exists (mirror_tree t). split; [apply mirror_mirror_tree|]. apply (all_trees_iff _ _ _ _ H). exact Hp.
    + intros (u & <- & Hu). rewrite mirror_mirror_tree. apply (all_trees_iff _ _ _ _ H). exact Hu.
Qed.

(** ** Validity *)

Lemma has_alt_incl g k x : incl g k -> has_alt g x -> has_alt k x.
Proof. intros Hi (p & e & Hp & H). exists p, e. split; [apply Hi, Hp|exact H]. Qed.

Lemma sound_iff g : sound g <-> g <> [] /\ forall x, refers g x -> has_alt g x.
Proof.
  split.
  - intro H. apply (proj1 (build_parser_spec id_order g)), H.
  - intros H ho. apply (proj1 (build_parser_spec ho g)), H.
Qed.

Lemma two_sound r g h a b : sound g -> sound h -> has_alt g a -> has_alt h b ->
  (forall e x, In e (p_rhs r) -> In (Nonterminal x) e -> x = a \/ x = b) -> sound (r :: g ++ h).
Proof.
  intros Hg Hh Ha Hb Hr. apply sound_iff in Hg, Hh. apply sound_iff. split; [discriminate|].
  assert (Ig : incl g (r :: g ++ h)) by (intros p Hp; right; apply in_app_iff; auto).
  assert (Ih : incl h (r :: g ++ h)) by (intros p Hp; right; apply in_app_iff; auto).
  intros x (p & e & [<-|Hp] & He & Hx).
  - destruct (Hr e x He Hx) as [->| ->]; [apply (has_alt_incl g)|apply (has_alt_incl h)]; assumption.
  - apply in_app_iff in Hp. destruct Hp as [Hp|Hp].
    + apply (has_alt_incl g); [exact Ig|]. apply Hg. exists p, e. auto.
    + apply (has_alt_incl h); [exact Ih|]. apply Hh. exists p, e. auto.
Qed.

Lemma combined_sound n a b g h : sound g -> sound h -> has_alt g a -> has_alt h b ->
  sound (either n a b g h) /\ sound (in_sequence n a b g h) /\ sound (repeated n a g) /\ sound (mirror g).
Proof.
  intros Hg Hh Ha Hb. split; [|split; [|split]].
  - apply (two_sound _ g h a b); auto. cbn [p_rhs]. intros e x [<-|[<-|[]]] [E|[]]; injection E as <-; auto.
  - apply (two_sound _ g h a b); auto. cbn [p_rhs]. intros e x [<-|[]] [E|[E|[]]]; injection E as <-; auto.
  - apply sound_iff in Hg. apply sound_iff. split; [discriminate|].
    assert (Ig : incl g (repeated n a g)) by (intros p Hp; right; exact Hp).
    intros x (p & e & [<-|Hp] & He & Hx).
    + destruct He as [<-|[<-|[]]]; [destruct Hx as [E|[]]; discriminate|]. destruct Hx as [E|[E|[]]]; injection E as <-.
      * apply (has_alt_incl g); assumption.
      * eexists _, [Terminal []]. split; [left; reflexivity|]. split; [reflexivity|left; reflexivity].
    + apply (has_alt_incl g); [exact Ig|]. apply Hg. exists p, e. auto.
  - apply sound_iff in Hg. apply sound_iff. destruct Hg as [Hne Hg]. split; [intro E; apply Hne; apply map_eq_nil in E; exact E|].
    intros x (p & e & Hp & He & Hx). unfold mirror in Hp. apply in_map_iff in Hp. destruct Hp as (q & <- & Hq). cbn [p_rhs] in He.
    apply in_map_iff in He. destruct He as (e' & <- & He'). apply in_rev in Hx. apply in_map_iff in Hx. destruct Hx as ([s|m] & E & Hm); [discriminate|].
    injection E as ->. destruct (Hg x) as (q' & e'' & Hq' & El & He''); [exists q, e'; auto|].
    exists (mkProd (p_lhs q') (map mirror_expression (p_rhs q'))), (mirror_expression e''). split; [apply in_map_iff; eauto|]. split; [exact El|apply in_map; exact He''].
Qed.

(** ** Example *)

(** One or more "+a". *)
Definition plus_grammar : grammar := [mkProd (N_ "d") [[T_ "+a"]; [N_ "d"; T_ "+a"]]].

Lemma sum_plus_separate : separate (lit "s") (lit "e") (lit "d") sum_grammar plus_grammar.
Proof.
  assert (Hc : forall x, called (lit "e") sum_grammar x -> x = lit "e").
  { intros x [->|(p & e & [<-|[]] & [<-|[<-|[]]] & Hx)]; [reflexivity| |]; cbn in Hx;
      repeat destruct Hx as [Hx|Hx]; try discriminate; try contradiction; injection Hx as <-; reflexivity. }
  assert (Hc' : forall x, called (lit "d") plus_grammar x -> x = lit "d").
  { intros x [->|(p & e & [<-|[]] & [<-|[<-|[]]] & Hx)]; [reflexivity| |]; cbn in Hx;
      repeat destruct Hx as [Hx|Hx]; try discriminate; try contradiction; injection Hx as <-; reflexivity. }
  split; [|split; [|split; [|split]]].
  - intros x Hx (p & [<-|[]] & E). apply Hc in Hx. subst x. discriminate.
  - intros x Hx (p & [<-|[]] & E). apply Hc' in Hx. subst x. discriminate.
  - intro H. apply Hc in H. discriminate.
  - intro H. apply Hc' in H. discriminate.
  - intros (p & [<-|[<-|[]]] & E); discriminate.
Qed.

Lemma ran g start input k : is_Ok (grammar_parse_input_starting_with g (lit input) (Nonterminal start)) = true ->
  is_Ok (drive k 1000 (start_of g (Nonterminal start) input)) = true -> snd (fst (run_of g (Nonterminal start) input k)) = true ->
  all_trees g start (lit input) (trees_of g (Nonterminal start) input k).
Proof.
  intros H1 H2 H3. destruct (run_facts g (Nonterminal start) input k H1 H2) as (Ho & Hp & He).
  eexists _, _. split; [exact Ho|]. split; [exact Hp|auto].
Qed.

Arguments ran g start input%string_scope k.

Lemma combined_examples :
  separate (lit "s") (lit "e") (lit "d") sum_grammar plus_grammar /\
  NoDup (flat_prods (either (lit "s") (lit "e") (lit "d") sum_grammar plus_grammar)) /\
  NoDup (flat_prods (in_sequence (lit "s") (lit "e") (lit "d") sum_grammar plus_grammar)) /\
  sound sum_grammar /\ sound plus_grammar /\ has_alt sum_grammar (lit "e") /\ has_alt plus_grammar (lit "d") /\
  (exists ts, all_trees (either (lit "s") (lit "e") (lit "d") sum_grammar plus_grammar) (lit "s") (lit "a+a+a") ts /\ length ts = 2) /\
  (exists ts, all_trees (in_sequence (lit "s") (lit "e") (lit "d") sum_grammar plus_grammar) (lit "s") (lit "a+a+a+a") ts /\ length ts = 4) /\
  accepts (repeated (lit "s") (lit "e") sum_grammar) (lit "s") (lit "aa+a") /\
  (exists ts, all_trees (mirror plus_grammar) (lit "d") (rev (lit "+a+a")) ts /\
     ts = [Node (N_ "d") [Leaf (lit "a+"); Sub (Node (N_ "d") [Leaf (lit "a+")])]]).
Proof.
  assert (S1 : sound sum_grammar).
  { apply sound_iff. split; [discriminate|]. intros x (p & e & [<-|[]] & [<-|[<-|[]]] & Hx); cbn in Hx;
      repeat destruct Hx as [Hx|Hx]; try discriminate; try contradiction; injection Hx as <-;
      (eexists _, _; split; [left; reflexivity|]; split; [reflexivity|left; reflexivity]). }
  assert (S2 : sound plus_grammar).
  { apply sound_iff. split; [discriminate|]. intros x (p & e & [<-|[]] & [<-|[<-|[]]] & Hx); cbn in Hx;
      repeat destruct Hx as [Hx|Hx]; try discriminate; try contradiction; injection Hx as <-;
      (eexists _, _; split; [left; reflexivity|]; split; [reflexivity|left; reflexivity]). }
  split; [exact sum_plus_separate|].
  split; [repeat constructor; cbn; intuition discriminate|]. split; [repeat constructor; cbn; intuition discriminate|].
  split; [exact S1|]. split; [exact S2|].
  split; [eexists _, _; split; [left; reflexivity|]; split; [reflexivity|left; reflexivity]|].
  split; [eexists _, _; split; [left; reflexivity|]; split; [reflexivity|left; reflexivity]|].
  split; [|split; [|split]].
  - eexists. split; [apply (ran _ _ "a+a+a" 5); vm_compute; reflexivity|]. vm_compute. reflexivity.
  - eexists. split; [apply (ran _ _ "a+a+a+a" 9); vm_compute; reflexivity|]. vm_compute. reflexivity.
  - apply repeated_accepts.
    + intros [H|(p & e & [<-|[]] & [<-|[<-|[]]] & Hx)]; [discriminate| |]; cbn in Hx;
      repeat destruct Hx as [Hx|Hx]; try discriminate; contradiction.
    + intros (p & [<-|[]] & E). discriminate.
    + exists [lit "a"; lit "a+a"]. split; [reflexivity|]. constructor; [|constructor; [|constructor]]; (apply accepts_iff; eexists).
      * assert (H : all_trees sum_grammar (lit "e") (lit "a") (trees_of sum_grammar (Nonterminal (lit "e")) "a" 3)) by (apply ran; vm_compute; reflexivity).
        refine (proj1 (all_trees_iff _ _ _ _ H _) _). clear H. vm_compute. left. reflexivity.
      * assert (H : all_trees sum_grammar (lit "e") (lit "a+a") (trees_of sum_grammar (Nonterminal (lit "e")) "a+a" 3)) by (apply ran; vm_compute; reflexivity).
        refine (proj1 (all_trees_iff _ _ _ _ H _) _). clear H. vm_compute. left. reflexivity.
  - eexists. split; [apply (ran (mirror plus_grammar) (lit "d") "a+a+" 5); vm_compute; reflexivity|]. vm_compute. reflexivity.
Qed.
