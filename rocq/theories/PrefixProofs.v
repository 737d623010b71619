(** How far into the input the parser gets: proofs. *)
From Verif Require Export PrefixSpec AmbiguityProofs WorkNumbered.
From Coq Require Import Lia.

Lemma leaves_yield : forall t : ptree, concat (leaves t) = yield t.
Proof.
  induction t as [l ks IH] using tree_ind'. cbn [leaves yield]. induction ks as [|k ks IHk]; [reflexivity|].
  cbn [flat_map]. rewrite concat_app, IHk by (intros t Ht; apply IH; right; exact Ht). f_equal.
  destruct k as [s|t]; [cbn; apply app_nil_r|]. apply IH. left. reflexivity.
Qed.
Lemma leaves_yields (ks : list pnode) : concat (flat_map leaves_node ks) = yields ks.
Proof.
  induction ks as [|k ks IH]; [reflexivity|]. unfold yields in *. cbn [flat_map]. rewrite concat_app, IH. f_equal.
  destruct k as [s|t]; [cbn; apply app_nil_r|]. apply leaves_yield.
Qed.

(** ** From a partial parse to a tree *)

Lemma kids_seq_generates g e ks : kids_match g e ks -> seq_generates g e (yields ks).
Proof.
  intro H. destruct (kids_match_rewrites g _ _ H) as (ss & H1 & H2); [intros c _ Hd m Hm; apply derives_rewrites; assumption|].
  exists ss. split; [exact H1|symmetry; exact H2].
Qed.

(** The leaves around a predicted nonterminal. *)
Lemma context_leaves g start l u : fruitful g start -> predicted g start l u ->
  exists (C : ptree -> ptree) before after, concat before = u /\
    forall t, derives g t -> root t = l -> derives g (C t) /\ root (C t) = start /\ leaves (C t) = before ++ leaves t ++ after.
Proof.
  intro Hf. induction 1 as [|l u p x m y v H IH Hp Hl Hr Hg].
  - exists (fun t => t), [], []. split; [reflexivity|]. intros t Hd Hroot. rewrite app_nil_r. auto.
  - destruct IH as (C & bf & af & Hu & H1). destruct Hg as (ss & Hg & ->). destruct (rewrites_kids _ _ _ Hg ss eq_refl) as (kx & Hkx & Hyx).
    destruct (fruitful_kids g start l p (x ++ [Nonterminal m]) y Hf) as [ky Hky];
      [eapply predicted_reachable; eassumption|exact Hp|exact Hl|rewrite <- app_assoc; exact Hr|].
    exists (fun t => C (Node l (kx ++ Sub t :: ky))), (bf ++ flat_map leaves_node kx), (flat_map leaves_node ky ++ af). split.
    + rewrite concat_app, leaves_yields, Hu, Hyx. reflexivity.
    + intros t Hd Hroot. destruct (H1 (Node l (kx ++ Sub t :: ky))) as (D & R & E).
      * rewrite <- Hl. eapply derives_node; [exact Hp|exact Hr|]. apply kids_match_app; [exact Hkx|]. constructor; assumption.
      * reflexivity.
      * split; [exact D|]. split; [exact R|]. rewrite E. cbn [leaves]. rewrite flat_map_app. cbn [flat_map leaves_node].
        rewrite <- !app_assoc. reflexivity.
Qed.

Lemma partial_leads g start l u p dn todo ks : fruitful g start -> predicted g start l u -> In p g -> p_lhs p = l ->
  In (dn ++ todo) (p_rhs p) -> kids_match g dn ks -> leads g start (u ++ yields ks).
Proof.
  intros Hf Hpr Hp Hl Hr Hk. destruct (context_leaves g start l u Hf Hpr) as (C & bf & af & Hu & HC).
  destruct (fruitful_kids g start l p dn todo Hf) as [kt Hkt]; [eapply predicted_reachable; eassumption|exact Hp|exact Hl|exact Hr|].
  destruct (HC (Node l (ks ++ kt))) as (D & R & E).
  - rewrite <- Hl. eapply derives_node; [exact Hp|exact Hr|]. apply kids_match_app; assumption.
  - reflexivity.
  - exists (C (Node l (ks ++ kt))), (bf ++ flat_map leaves_node ks), (flat_map leaves_node kt ++ af).
    split; [exact D|]. split; [exact R|]. split.
    + rewrite E. cbn [leaves]. rewrite flat_map_app, <- !app_assoc. reflexivity.
    + rewrite concat_app, leaves_yields, Hu. reflexivity.
Qed.

(** ** From a tree to a partial parse *)

Lemma cut_kids : forall (ks : list pnode) before after, flat_map leaves_node ks = before ++ after ->
  exists k1 k2, ks = k1 ++ k2 /\
    (before = flat_map leaves_node k1 \/
     exists t k3 b a, k2 = Sub t :: k3 /\ leaves t = b ++ a /\ before = flat_map leaves_node k1 ++ b).
Proof.
  induction ks as [|k ks IH]; intros before after E.
  - exists [], []. split; [reflexivity|]. left. symmetry in E. apply app_eq_nil in E. apply E.
  - cbn [flat_map] in E. destruct k as [s|t]; cbn [leaves_node] in E.
    + destruct before as [|s' before]; [exists [], (Leaf s :: ks); split; [reflexivity|]; left; reflexivity|].
      cbn [app] in E. injection E as <- E. destruct (IH _ _ E) as (k1 & k2 & -> & H). exists (Leaf s :: k1), k2.
      split; [reflexivity|]. destruct H as [->|(t & k3 & b & a & H1 & H2 & ->)]; [left; reflexivity|].
      right. exists t, k3, b, a. auto.
    + apply app_eq_app in E. destruct E as (m & [[E1 E2]|[E1 E2]]).
      * exists [], (Sub t :: ks). split; [reflexivity|]. right. exists t, ks, before, m. auto.
      * destruct (IH _ _ E2) as (k1 & k2 & -> & H). exists (Sub t :: k1), k2. split; [reflexivity|].
        destruct H as [->|(t' & k3 & b & a & H1 & H2 & ->)]; [left; exact E1|].
        right. exists t', k3, b, a. split; [exact H1|]. split; [exact H2|]. cbn [flat_map leaves_node]. rewrite <- app_assoc. exact E1.
Qed.

Lemma kids_match_split g : forall k1 k2 e, kids_match g e (k1 ++ k2) -> exists e1 e2, e = e1 ++ e2 /\ kids_match g e1 k1 /\ kids_match g e2 k2.
Proof.
  induction k1 as [|k k1 IH]; intros k2 e Hk; cbn [app] in Hk.
  - exists [], e. repeat split; [constructor|exact Hk].
  - inversion Hk as [|a r ks H|n c r ks H1 H2 H]; subst; destruct (IH _ _ H) as (e1 & e2 & -> & A & B).
    + exists (Terminal a :: e1), e2. repeat split; [constructor|]; assumption.
    + exists (Nonterminal n :: e1), e2. repeat split; [constructor|]; assumption.
Qed.

Lemma cut_partial g start : forall t, derives g t -> forall u before after, predicted g start (root t) u -> leaves t = before ++ after ->
  exists v p dn todo ks, predicted g start (p_lhs p) v /\ In p g /\ In (dn ++ todo) (p_rhs p) /\ kids_match g dn ks /\
    v ++ yields ks = u ++ concat before.
Proof.
  induction t as [l ks IH] using tree_ind'. intros Hd u before after Hu E. inversion Hd as [p rhs kids Hp Hr Hk E1]; subst l kids.
  cbn [root leaves] in *. destruct (cut_kids _ _ _ E) as (k1 & k2 & -> & H).
  destruct (kids_match_split _ _ _ _ Hk) as (e1 & e2 & -> & Hk1 & Hk2).
  destruct H as [->|(t & k3 & b & a & -> & Ht & ->)].
  - exists u, p, e1, e2, k1. rewrite leaves_yields. auto.
  - inversion Hk2 as [| |n c r k' Hroot Hdt Hk3 E2 E3]; subst c e2 k'.
    destruct (IH t (proj2 (in_app_iff _ _ _) (or_intror (in_eq _ _))) Hdt (u ++ yields k1) b a) as (v & q & dn & todo & ks' & H1 & H2 & H3 & H4 & H5).
    + rewrite Hroot. eapply predicted_in; [exact Hu|exact Hp|reflexivity|exact Hr|]. apply kids_seq_generates. exact Hk1.
    + exact Ht.
    + exists v, q, dn, todo, ks'. split; [exact H1|]. split; [exact H2|]. split; [exact H3|]. split; [exact H4|].
      rewrite H5, concat_app, leaves_yields. symmetry. apply app_assoc.
Qed.

(** ** The stored traversals *)

Section Stored.
  Variable g : grammar.
  Variable input : str.
  Variable start : term.
  Let pg := pg_new_unchecked g.
  Let Heq : pg_prods pg = flat_prods g := proj2 (pg_new_unchecked_ok g).

  Lemma in_prods_nth p e : In p g -> In e (p_rhs p) -> exists k, nth_error (flat_prods g) k = Some (p_lhs p, e).
  Proof.
    intros Hp He. apply In_nth_error. unfold flat_prods. apply in_flat_map. exists p. split; [exact Hp|].
    apply in_map_iff. exists e. auto.
  Qed.

  Lemma arrives_item tr gh t : TInv pg input start tr gh -> In t (tt_arena tr) ->
    exists x, In x gh /\ total_len (t_range t) = i_end x.
  Proof.
    intros HT Hin. apply In_nth_error in Hin. destruct Hin as [i Hi].
    assert (Hlt : i < length gh). { rewrite <- (ti_len _ _ _ _ _ HT). apply nth_error_Some. congruence. }
    destruct (nth_error gh i) as [x|] eqn:Ex; [|apply nth_error_None in Ex; lia].
    exists x. split; [eapply nth_error_In; exact Ex|]. rewrite (tr_range _ _ _ _ _ _ _ (ti_rel _ _ _ _ _ HT _ _ _ Hi Ex)). reflexivity.
  Qed.
  Lemma item_arrives tr gh x : TInv pg input start tr gh -> In x gh ->
    exists t, In t (tt_arena tr) /\ total_len (t_range t) = i_end x.
  Proof.
    intros HT Hin. apply In_nth_error in Hin. destruct Hin as [i Hi]. destruct (TInv_arena _ _ _ _ _ _ _ HT Hi) as (t & Ht & Hr).
    exists t. split; [eapply nth_error_In; exact Ht|]. rewrite (tr_range _ _ _ _ _ _ _ Hr). reflexivity.
  Qed.

  Lemma item_leads x : fruitful g start -> ireach pg input start x ->
    exists w v, input = w ++ v /\ byte_len w = i_end x /\ leads g start w.
  Proof.
    intros Hf Hx. destruct (ireach_partial g input start x Hx) as (u & l & pre & rest & H1 & H2 & H3 & H4 & w & H5).
    exists (u ++ yields (i_kids x)), w. split; [rewrite <- app_assoc; exact H5|]. split; [rewrite byte_len_app; unfold i_end; congruence|].
    fold pg in H1. rewrite Heq in H1. apply nth_error_In in H1. unfold flat_prods in H1. apply in_flat_map in H1. destruct H1 as (p & Hp & H1).
    apply in_map_iff in H1. destruct H1 as (e & E & He). injection E as E ->.
    rewrite <- (yields_erase g (i_kids x)).
    eapply partial_leads; [exact Hf|exact H3|exact Hp|exact E|exact He|]. apply dkids_kids_match. exact H2.
  Qed.

  Lemma leads_item st gh w v : Inv pg input start st gh (length gh) -> input = w ++ v -> leads g start w ->
    exists x, In x gh /\ i_end x = byte_len w.
  Proof.
    intros HI Ei (t & before & after & Hd & Hroot & Hl & ->).
    destruct (cut_partial g start t Hd [] before after) as (u & p & dn & todo & ks & Hu & Hp & Hr & Hk & E); [rewrite Hroot; constructor|exact Hl|].
    destruct (in_prods_nth p _ Hp Hr) as [k Hn]. destruct (kids_match_dkids g _ _ Hk) as (dks & Hdk & <-).
    rewrite (yields_erase g dks) in E.
    cbn [app] in E.
    assert (Hx : In (k, u, dks) (map (number_of input) gh)).
    { apply (numbered_closed g input start st gh); [exact HI|]. exists (p_lhs p), dn, todo, v. split; [exact Hn|]. split; [exact Hu|].
      split; [exact (proj2 (dkids_numbered g) _ _ Hdk)|]. rewrite Ei, <- E, <- app_assoc. reflexivity. }
    apply in_map_iff in Hx. destruct Hx as (x & Ex & Hx). exists x. split; [exact Hx|].
    destruct (ireach_partial g input start x (ti_reach _ _ _ _ _ (inv_t _ _ _ _ _ _ HI) x Hx)) as (u' & l' & pre & rest & _ & _ & _ & H4 & w' & H5).
    rewrite (number_of_eq input x u' w' H4 H5) in Ex. injection Ex as _ Eu Ek. unfold i_end. rewrite <- H4, Eu, Ek, <- byte_len_app, E. reflexivity.
  Qed.
End Stored.

(** The state at the end. *)
Lemma ended_state g start input it ts it1 f it2 : opens g start input it -> produces it ts it1 -> iter_next f it1 = Ok (None, it2) ->
  exists gh, Inv (pg_new_unchecked g) input start (it_state it2) gh (length gh).
Proof.
  intros Ho Hp He. destruct (run_summary _ _ _ _ _ _ Ho Hp) as (st0 & gh & d & ids & Hpar & HI & _).
  destruct (pg_new_unchecked_ok g) as [Hok _]. destruct it1 as [p st]; cbn [it_parser it_state] in *. subst p.
  destruct (iter_next_spec _ Hok input start (mkGP st0 (pg_new_unchecked g)) eq_refl f st gh d HI)
    as [(E & _)|[(st' & new & E & Hq & HI' & Hno)|(st' & new & id & x & E & _)]]; rewrite E in He; try discriminate.
  injection He as <-. exists (gh ++ new). exact HI'.
Qed.

(** ** The theorems *)

Lemma arrives_leads g start input it ts it1 k : fruitful g start -> opens g start input it -> produces it ts it1 -> arrives it1 k ->
  exists w v, input = w ++ v /\ byte_len w = k /\ leads g start w.
Proof.
  intros Hf Ho Hp (t & Ht & Hk). destruct (run_summary _ _ _ _ _ _ Ho Hp) as (st0 & gh & d & ids & Hpar & HI & _).
  pose proof (inv_t _ _ _ _ _ _ HI) as HT. destruct (arrives_item g input start _ _ _ HT Ht) as (x & Hx & Ex).
  destruct (item_leads g input start x Hf (ti_reach _ _ _ _ _ HT x Hx)) as (w & v & H1 & H2 & H3). exists w, v. split; [exact H1|].
  split; [congruence|exact H3].
Qed.

Lemma ended_arrives g start input it ts it1 f it2 : fruitful g start -> opens g start input it -> produces it ts it1 ->
  iter_next f it1 = Ok (None, it2) ->
  forall k, arrives it2 k <-> exists w v, input = w ++ v /\ byte_len w = k /\ leads g start w.
Proof.
  intros Hf Ho Hp He k. destruct (ended_state _ _ _ _ _ _ _ _ Ho Hp He) as [gh HI]. pose proof (inv_t _ _ _ _ _ _ HI) as HT. split.
  - intros (t & Ht & Hk). destruct (arrives_item g input start _ _ _ HT Ht) as (x & Hx & Ex).
    destruct (item_leads g input start x Hf (ti_reach _ _ _ _ _ HT x Hx)) as (w & v & H1 & H2 & H3). exists w, v. split; [exact H1|].
    split; [congruence|exact H3].
  - intros (w & v & Ei & Ew & Hl). destruct (leads_item g input start _ gh w v HI Ei Hl) as (x & Hx & Ex).
    destruct (item_arrives g input start _ _ x HT Hx) as (t & Ht & Et). exists t. split; [exact Ht|congruence].
Qed.

(** Without the assumption that every nonterminal generates something. *)
Lemma leads_arrives g start input it ts it1 f it2 w v : opens g start input it -> produces it ts it1 ->
  iter_next f it1 = Ok (None, it2) -> input = w ++ v -> leads g start w -> arrives it2 (byte_len w).
Proof.
  intros Ho Hp He Ei Hl. destruct (ended_state _ _ _ _ _ _ _ _ Ho Hp He) as [gh HI]. pose proof (inv_t _ _ _ _ _ _ HI) as HT.
  destruct (leads_item g input start _ gh w v HI Ei Hl) as (x & Hx & Ex).
  destruct (item_arrives g input start _ _ x HT Hx) as (t & Ht & Et). exists t. split; [exact Ht|congruence].
Qed.

Lemma leads_viable g start w : leads g start w -> viable g start w.
Proof.
  intros (t & b & a & Hd & Hr & Hl & ->). exists (concat a), t. split; [exact Hd|]. split; [exact Hr|].
  rewrite <- leaves_yield, Hl, concat_app. reflexivity.
Qed.

Lemma concat_cut : forall (ls : list str) w z, (forall s, In s ls -> length s <= 1) -> concat ls = w ++ z ->
  exists b a, ls = b ++ a /\ concat b = w.
Proof.
  induction ls as [|s ls IH]; intros w z Hs E.
  - symmetry in E. apply app_eq_nil in E. exists [], []. split; [reflexivity|]. symmetry. apply E.
  - destruct w as [|c w]; [exists [], (s :: ls); auto|]. cbn [concat] in E.
    pose proof (Hs s (or_introl eq_refl)) as H1. destruct s as [|c' [|? ?]]; [| |cbn in H1; lia].
    + destruct (IH (c :: w) z) as (b & a & -> & Hb); [intros; apply Hs; right; assumption|exact E|]. exists ([] :: b), a. auto.
    + cbn [app] in E. injection E as -> E. destruct (IH w z) as (b & a & -> & Hb); [intros; apply Hs; right; assumption|exact E|].
      exists ([c] :: b), a. split; [reflexivity|]. cbn [concat app]. congruence.
Qed.

Lemma leaves_terminals g : forall t, derives g t -> forall s, In s (leaves t) -> exists p e, In p g /\ In e (p_rhs p) /\ In (Terminal s) e.
Proof.
  induction t as [l ks IH] using tree_ind'. intros Hd s Hs. inversion Hd as [p rhs kids Hp Hr Hk E1]; subst l kids.
  cbn [leaves] in Hs. apply in_flat_map in Hs. destruct Hs as (k & Hin & Hs).
  assert (H : forall e, kids_match g e ks -> forall k, In k ks -> match k with Leaf s => In (Terminal s) e | Sub t => derives g t end).
  { clear. induction 1 as [|s r ks Hk IH|n t r ks Hroot Ht Hk IH]; intros k Hin; [destruct Hin|destruct Hin as [<-|Hin]..].
    - left. reflexivity.
    - specialize (IH k Hin). destruct k; [right|]; exact IH.
    - exact Ht.
    - specialize (IH k Hin). destruct k; [right|]; exact IH. }
  specialize (H rhs Hk k Hin). destruct k as [s'|t]; cbn [leaves_node] in Hs.
  - destruct Hs as [->|[]]. exists p, rhs. auto.
  - exact (IH t Hin H s Hs).
Qed.

Lemma viable_leads g start w : short_terminals g -> viable g start w -> leads g start w.
Proof.
  intros Hs (z & t & Hd & Hr & Hy). destruct (concat_cut (leaves t) w z) as (b & a & H1 & H2).
  - intros s Hin. destruct (leaves_terminals g t Hd s Hin) as (p & e & H1 & H2 & H3). exact (Hs p e s H1 H2 H3).
  - rewrite leaves_yield. exact Hy.
  - exists t, b, a. auto.
Qed.

Lemma ended_viable g start input it ts it1 f it2 : fruitful g start -> short_terminals g -> opens g start input it -> produces it ts it1 ->
  iter_next f it1 = Ok (None, it2) ->
  forall k, arrives it2 k <-> exists w v, input = w ++ v /\ byte_len w = k /\ viable g start w.
Proof.
  intros Hf Hs Ho Hp He k. rewrite (ended_arrives _ _ _ _ _ _ _ _ Hf Ho Hp He k).
  split; intros (w & v & H1 & H2 & H3); exists w, v; (split; [exact H1|]; split; [exact H2|]);
    [apply leads_viable|apply viable_leads]; assumption.
Qed.

(** ** What follows a mistake does not matter *)

Lemma wrong_prefix g start w x a b : wrong_after g start w x -> w ++ x = a ++ b -> leads g start a -> exists c, w = a ++ c /\ b = c ++ x.
Proof.
  intros Hw E Ha. apply app_eq_app in E. destruct E as (m & [[E1 E2]|[E1 E2]]).
  - exists m. auto.
  - rewrite E1 in Ha. pose proof (Hw _ _ E2 Ha) as ->. rewrite app_nil_r in E1. subst w. cbn in E2. exists []. rewrite app_nil_r. cbn. auto.
Qed.

Lemma wrong_numbered g start w x y : fruitful g start -> wrong_after g start w x ->
  forall z, numbered_parse g start (w ++ x) z -> numbered_parse g start (w ++ y) z.
Proof.
  intros Hf Hw [[k u] ks] (l & dn & todo & v & Hk & Hpr & Hks & E). exists l, dn, todo.
  assert (Hl : leads g start (u ++ flat_map yield_node ks)).
  { pose proof (nth_error_In _ _ Hk) as Hin. unfold flat_prods in Hin. apply in_flat_map in Hin. destruct Hin as (p & Hp & Hin).
    apply in_map_iff in Hin. destruct Hin as (e & E1 & He). injection E1 as E1 ->.
    change (flat_map yield_node ks) with (yields ks). rewrite <- (yields_erase g ks).
    eapply partial_leads; [exact Hf|exact Hpr|exact Hp|exact E1|exact He|]. apply dkids_kids_match. exact (proj2 (numbered_dkids g) _ _ Hks). }
  destruct (wrong_prefix g start w x (u ++ flat_map yield_node ks) v Hw) as (c & Ec & _); [rewrite <- app_assoc; exact E|exact Hl|].
  exists (c ++ y). split; [exact Hk|]. split; [exact Hpr|]. split; [exact Hks|]. rewrite Ec, <- !app_assoc. reflexivity.
Qed.

Lemma wrong_live g start w x y : fruitful g start -> wrong_after g start w x -> live_cycle g start (w ++ x) -> live_cycle g start (w ++ y).
Proof.
  intros Hf Hw (a & u & v & r & E & Hpr & Hg & Hc).
  assert (Hl : leads g start (u ++ v)).
  { pose proof Hg as Hg'. apply generates_parses in Hg'. destruct Hg' as ([l ks] & Hd & Hroot & Hy). cbn [root] in Hroot. subst l. inversion Hd as [p rhs kids Hp Hr Hk E1].
    subst kids. rewrite <- Hy. change (yield (Node (Nonterminal a) ks)) with (yields ks).
    eapply (partial_leads g start _ u p rhs []); [exact Hf|exact Hpr|exact Hp|assumption|rewrite app_nil_r; exact Hr|exact Hk]. }
  destruct (wrong_prefix g start w x (u ++ v) r Hw) as (c & Ec & _); [rewrite <- app_assoc; exact E|exact Hl|].
  exists a, u, v, (c ++ y). split; [rewrite Ec, <- !app_assoc; reflexivity|]. auto.
Qed.

Lemma wrong_same_work g start w x y it it' ts it1 f it2 : fruitful g start -> wrong_after g start w x -> wrong_after g start w y ->
  opens g start (w ++ x) it -> opens g start (w ++ y) it' -> produces it ts it1 -> iter_next f it1 = Ok (None, it2) ->
  exists ts' it1' f' it2', produces it' ts' it1' /\ iter_next f' it1' = Ok (None, it2') /\
    length (tt_arena (s_tree (it_state it2'))) = length (tt_arena (s_tree (it_state it2))).
Proof.
  intros Hf Hx Hy Ho Ho' Hp He.
  assert (Hn : ~ live_cycle g start (w ++ x)). { apply (ends_iff _ _ _ _ Ho). exists ts, it1. split; [exact Hp|]. exists f, it2. exact He. }
  assert (Hn' : ~ live_cycle g start (w ++ y)). { intro H. apply Hn. exact (wrong_live g start w y x Hf Hy H). }
  apply (ends_iff _ _ _ _ Ho') in Hn'. destruct Hn' as (ts' & it1' & Hp' & f' & it2' & He'). exists ts', it1', f', it2'.
  split; [exact Hp'|]. split; [exact He'|].
  destruct (numbered_exact _ _ _ _ _ _ _ _ Ho Hp He) as (F & N & HF & ->).
  destruct (numbered_exact _ _ _ _ _ _ _ _ Ho' Hp' He') as (F' & N' & HF' & ->).
  apply Nat.le_antisymm; apply NoDup_incl_length; try assumption; intros z Hz.
  - apply HF. apply HF' in Hz. exact (wrong_numbered g start w y x Hf Hy z Hz).
  - apply HF'. apply HF in Hz. exact (wrong_numbered g start w x y Hf Hx z Hz).
Qed.

(** Nothing is returned for a text with a mistake. *)
Lemma wrong_refused g start w x it ts it1 : wrong_after g start w x -> x <> [] -> opens g start (w ++ x) it -> produces it ts it1 -> ts = [].
Proof.
  intros Hw Hx Ho Hp. destruct ts as [|t ts]; [reflexivity|]. exfalso. apply Hx.
  destruct (soundness _ _ _ _ _ _ t Ho Hp (or_introl eq_refl)) as (Hd & Hr & Hy).
  apply (Hw x []); [rewrite app_nil_r; reflexivity|]. exists t, (leaves t), []. split; [exact Hd|]. split; [exact Hr|].
  split; [rewrite app_nil_r; reflexivity|]. rewrite leaves_yield. symmetry. exact Hy.
Qed.
