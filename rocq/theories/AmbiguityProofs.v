(** Work of the parser on unambiguous grammars. *)
From Verif Require Export AmbiguitySpec LinearProofs.
From Coq Require Import Lia.

Lemma in_alternatives g p e : In p g -> In e (p_rhs p) -> In e (alternatives g (p_lhs p)).
Proof.
  intros Hp He. unfold alternatives. apply in_flat_map. exists p. split; [exact Hp|].
  destruct (term_eqb (p_lhs p) (p_lhs p)) eqn:E; [exact He|]. exfalso.
  assert (H : term_eqb (p_lhs p) (p_lhs p) = true) by (apply term_eqb_eq; reflexivity). congruence.
Qed.

Lemma predicted_reachable g start l u : predicted g start l u -> reachable g start l.
Proof.
  induction 1 as [|l u p x m y v H IH Hp Hl Hr Hg]; [constructor|].
  eapply reachable_in; [exact IH|rewrite <- Hl; apply in_alternatives; eassumption|]. apply in_or_app. right. left. reflexivity.
Qed.

Lemma fruitful_kids g start l p e e' : fruitful g start -> reachable g start l -> In p g -> p_lhs p = l -> In (e ++ e') (p_rhs p) ->
  exists ks, kids_match g e' ks.
Proof.
  intros Hf Hl Hp <- Hr.
  assert (H : forall n, In (Nonterminal n) e' -> exists t, derives g t /\ root t = Nonterminal n).
  { intros n Hn. destruct (Hf n) as [v Hv].
    - eapply reachable_in; [exact Hl|apply in_alternatives; eassumption|]. apply in_or_app. right. exact Hn.
    - apply generates_parses in Hv. destruct Hv as (t & H1 & H2 & _). eauto. }
  clear Hr. induction e' as [|t e' IH]; [exists []; constructor|].
  destruct IH as [ks Hk]; [intros; apply H; right; assumption|]. destruct t as [s|n].
  - exists (Leaf s :: ks). constructor. assumption.
  - destruct (H n) as (tr & Hd & Hroot); [left; reflexivity|]. exists (Sub tr :: ks). constructor; assumption.
Qed.

(** The tree around a predicted nonterminal. *)
Lemma context g start l u : fruitful g start -> predicted g start l u ->
  exists (C : ptree -> ptree) v,
    (forall t, derives g t -> root t = l -> parses g start (u ++ yield t ++ v) (C t)) /\
    (forall t t', C t = C t' -> t = t').
Proof.
  intro Hf. induction 1 as [|l u p x m y v H IH Hp Hl Hr Hg].
  - exists (fun t => t), []. split; [|auto]. intros t Hd Hroot. split; [exact Hd|]. split; [exact Hroot|]. rewrite app_nil_r. reflexivity.
  - destruct IH as (C & v' & H1 & H2). destruct Hg as (ss & Hg & ->). destruct (rewrites_kids _ _ _ Hg ss eq_refl) as (kx & Hkx & Hyx).
    destruct (fruitful_kids g start l p (x ++ [Nonterminal m]) y Hf) as [ky Hky]; [eapply predicted_reachable; eassumption|exact Hp|exact Hl|rewrite <- app_assoc; exact Hr|].
    exists (fun t => C (Node l (kx ++ Sub t :: ky))), (yields ky ++ v'). split.
    + intros t Hd Hroot.
      replace ((u ++ concat ss) ++ yield t ++ yields ky ++ v') with (u ++ yield (Node l (kx ++ Sub t :: ky)) ++ v').
      * apply H1; [|reflexivity]. rewrite <- Hl. eapply derives_node; [exact Hp|exact Hr|]. apply kids_match_app; [exact Hkx|]. constructor; assumption.
      * rewrite <- Hyx. change (yield (Node l (kx ++ Sub t :: ky))) with (yields (kx ++ Sub t :: ky)). unfold yields. rewrite flat_map_app. cbn [flat_map yield_node].
        rewrite <- !app_assoc. reflexivity.
    + intros t t' E. apply H2 in E. injection E as E. apply app_inv_head in E. congruence.
Qed.

(** A partial parse is determined by its rule, place, and the text and number of its subtrees. *)
Lemma partial_one g start input l e u ks ks' : unambiguous g start -> fruitful g start ->
  partial_parse g start input (l, e, u, ks) -> partial_parse g start input (l, e, u, ks') ->
  length ks = length ks' -> yields ks = yields ks' -> ks = ks'.
Proof.
  intros Hu Hf (Hin & Hp & dn & todo & w & E1 & Hk & Ei) (_ & _ & dn' & todo' & w' & E1' & Hk' & Ei') Hlen Hy.
  assert (dn = dn' /\ todo = todo') as [<- <-].
  { apply kids_match_length in Hk. apply kids_match_length in Hk'. rewrite <- Hlen, <- Hk in Hk'. rewrite E1 in E1'. clear - Hk' E1'.
    revert dn' Hk' E1'. induction dn as [|x dn IH]; intros [|x' dn'] Hl E; cbn in *; try discriminate; [auto|].
    injection E as -> E. injection Hl as Hl. destruct (IH dn' Hl E) as [-> ->]. auto. }
  unfold flat_prods in Hin. apply in_flat_map in Hin. destruct Hin as (p & Hpg & Hin). apply in_map_iff in Hin. destruct Hin as (e0 & E & He). injection E as E <-.
  subst e0. destruct (fruitful_kids g start l p dn todo Hf) as [kt Hkt]; [eapply predicted_reachable; eassumption|exact Hpg|exact E|exact He|].
  destruct (context g start l u Hf Hp) as (C & v & H1 & H2).
  assert (Hd : forall k, kids_match g dn k -> derives g (Node l (k ++ kt))).
  { intros k H. rewrite <- E. eapply derives_node; [exact Hpg|exact He|]. apply kids_match_app; assumption. }
  pose proof (H1 _ (Hd ks Hk) eq_refl) as P. pose proof (H1 _ (Hd ks' Hk') eq_refl) as P'.
  replace (yield (Node l (ks' ++ kt))) with (yield (Node l (ks ++ kt))) in P'.
  - apply (Hu _ _ _ P) in P'. apply H2 in P'. injection P' as P'. apply app_inv_tail in P'. exact P'.
  - change (yields (ks ++ kt) = yields (ks' ++ kt)). unfold yields in *. rewrite !flat_map_app. f_equal. exact Hy.
Qed.

Lemma unambiguous_partial g start input l : unambiguous g start -> fruitful g start -> NoDup l ->
  (forall x, In x l -> partial_parse g start input x) -> length l <= quadratic_bound g input.
Proof.
  intros Hu Hf Hnd Hp.
  set (key := fun x : (term * expression) * str * list pnode => let '(pe, u, ks) := x in (pe, length ks, (length u, length (yields ks)))).
  set (keys := flat_map (fun pe => map (fun ki => (pe, fst ki, snd ki))
    (list_prod (seq 0 (S (length (snd pe)))) (list_prod (seq 0 (S (length input))) (seq 0 (S (length input)))))) (flat_prods g)).
  assert (Hkeys : length keys = quadratic_bound g input).
  { unfold keys, quadratic_bound. generalize (flat_prods g). intro ps. induction ps as [|pe ps IH]; [reflexivity|].
    cbn [flat_map]. rewrite app_length, IH, map_length, !prod_length, !seq_length.
    change (list_sum (map (fun pe => S (length (snd pe))) (pe :: ps))) with (S (length (snd pe)) + list_sum (map (fun pe : term * expression => S (length (snd pe))) ps)).
    rewrite Nat.mul_add_distr_r. reflexivity. }
  assert (Hcut : forall u v u' v' : str, u ++ v = u' ++ v' -> length u = length u' -> u = u' /\ v = v').
  { induction u as [|c u IH]; intros v [|c' u'] v' E El; cbn in *; try discriminate; [auto|].
    injection E as -> E. injection El as El. destruct (IH v u' v' E El) as [-> ->]. auto. }
  rewrite <- Hkeys, <- (map_length key l). apply NoDup_incl_length.
  - apply NoDup_map_inj; [|exact Hnd]. intros [[[a e] u] ks] [[[a' e'] u'] ks'] Hx Hy E. cbn in E. injection E as <- <- El Eu Ey.
    pose proof (Hp _ Hx) as Px. pose proof (Hp _ Hy) as Py.
    destruct Px as (_ & _ & dn & todo & w & E1 & Hk & Ei). destruct Py as (_ & _ & dn' & todo' & w' & E1' & Hk' & Ei').
    rewrite Ei in Ei'. destruct (Hcut _ _ _ _ Ei' Eu) as [<- Er]. destruct (Hcut _ _ _ _ Er Ey) as [Ek _].
    f_equal. exact (partial_one g start input a e u ks ks' Hu Hf (Hp _ Hx) (Hp _ Hy) El Ek).
  - intros k Hk. apply in_map_iff in Hk. destruct Hk as ([[[a e] u] ks] & <- & Hx). destruct (Hp _ Hx) as (Hin & _ & dn & todo & w & E1 & Hk & Ei).
    unfold keys. apply in_flat_map. exists (a, e). split; [exact Hin|]. apply in_map_iff. exists (length ks, (length u, length (yields ks))). split; [reflexivity|].
    assert (Hl : length u + length (yields ks) <= length input) by (rewrite Ei, !app_length; unfold yields, str, char in *; lia).
    unfold str, char in *. repeat apply in_prod; apply in_seq; cbn [snd]; [|lia|lia].
    apply kids_match_length in Hk. rewrite E1, app_length. lia.
Qed.
