(** Work of the parser on predictive grammars. *)
From Verif Require Export LinearSpec EarleyWork EarleyBounds.
From Coq Require Import Lia.
From Coq Require String.
Import String.StringSyntax.

(** ** From a bound on partial parses to a bound on the work *)

Lemma inv_partial g input start st gh d : NoDup (flat_prods g) -> Inv (pg_new_unchecked g) input start st gh d ->
  NoDup (map (work_of g input) gh) /\ forall x, In x (map (work_of g input) gh) -> partial_parse g start input x.
Proof.
  intros Hnd HI. pose proof (inv_t _ _ _ _ _ _ HI) as HT. split.
  - apply NoDup_map_inj; [|exact (ti_nodup _ _ _ _ _ HT)]. intros a b Ha Hb.
    apply (work_inj g input start); [assumption|exact (ti_reach _ _ _ _ _ HT a Ha)|exact (ti_reach _ _ _ _ _ HT b Hb)].
  - intros x Hx. apply in_map_iff in Hx. destruct Hx as (a & <- & Ha). apply work_partial. exact (ti_reach _ _ _ _ _ HT a Ha).
Qed.

Lemma bounded_work g start input B it ts it1 : NoDup (flat_prods g) ->
  (forall l, NoDup l -> (forall x, In x l -> partial_parse g start input x) -> length l <= B) ->
  opens g start input it -> produces it ts it1 ->
  length (tt_arena (s_tree (it_state it1))) <= B /\ exists r, iter_next (S B) it1 = Ok r.
Proof.
  intros Hnd HB Ho Hp. destruct (run_summary _ _ _ _ _ _ Ho Hp) as (st0 & gh & d & ids & Hpar & HI & _).
  assert (Hlen : forall st gh d, Inv (pg_new_unchecked g) input start st gh d -> length gh <= B).
  { intros st' gh' d' HI'. destruct (inv_partial g input start st' gh' d' Hnd HI') as [H1 H2].
    pose proof (HB _ H1 H2) as H. rewrite map_length in H. exact H. }
  destruct (pg_new_unchecked_ok g) as [Hok _]. destruct it1 as [p st]; simpl in Hpar, HI |- *. subst p. split.
  - rewrite (ti_len _ _ _ _ _ (inv_t _ _ _ _ _ _ HI)). eapply Hlen; eassumption.
  - destruct (iter_next_spec _ Hok input start (mkGP st0 (pg_new_unchecked g)) eq_refl (S B) st gh d HI)
      as [(E & st' & new & HI' & _)|[(st' & new & E & _)|(st' & new & id & x & E & _)]]; [exfalso|eauto|eauto].
    pose proof (Inv_le _ _ _ _ _ _ HI') as H1. pose proof (Hlen _ _ _ HI') as H2. lia.
Qed.

(** ** Predictive grammars match in one way *)

Scheme derives_mind := Induction for derives Sort Prop
  with kids_match_mind := Induction for kids_match Sort Prop.
Combined Scheme derives_mutind from derives_mind, kids_match_mind.

Lemma in_flat g p rhs : In p g -> In rhs (p_rhs p) -> In (p_lhs p, rhs) (flat_prods g).
Proof. intros Hp Hr. unfold flat_prods. apply in_flat_map. exists p. split; [exact Hp|]. apply in_map_iff. eauto. Qed.

Section Predictive.
  Variable g : grammar.
  Variable first : term -> char -> Prop.
  Hypothesis Hfirst : forall l e, In (l, e) (flat_prods g) ->
    e <> [] /\ hd_error e <> Some (Terminal []) /\
    (forall c, begins first e c -> first l c) /\
    (forall e' c, In (l, e') (flat_prods g) -> begins first e c -> begins first e' c -> e = e').

  Lemma begins_derives :
    (forall t, derives g t -> exists c w, yield t = c :: w /\ first (root t) c) /\
    (forall e ks, kids_match g e ks -> e <> [] -> hd_error e <> Some (Terminal []) ->
       exists c w, flat_map yield_node ks = c :: w /\ begins first e c).
  Proof.
    apply derives_mutind.
    - intros p rhs kids Hp Hr _ IH. pose proof (in_flat g p rhs Hp Hr) as Hin.
      destruct (Hfirst _ _ Hin) as (H1 & H2 & H3 & _). destruct (IH H1 H2) as (c & w & E & Hb).
      exists c, w. split; [exact E|]. apply H3, Hb.
    - intros H. contradiction.
    - intros s r ks _ _ _ Hs. destruct s as [|c s]; [exfalso; apply Hs; reflexivity|]. exists c, (s ++ flat_map yield_node ks).
      split; reflexivity.
    - intros n t r ks Hroot _ (c & w & E & Hc) _ _ _ _. exists c, (w ++ flat_map yield_node ks).
      split; [cbn; rewrite E; reflexivity|]. cbn. rewrite <- Hroot. exact Hc.
  Qed.

  Lemma one_way :
    (forall t, derives g t -> forall t' w w', derives g t' -> root t = root t' -> yield t ++ w = yield t' ++ w' -> t = t') /\
    (forall e ks, kids_match g e ks -> forall ks' w w', kids_match g e ks' ->
       flat_map yield_node ks ++ w = flat_map yield_node ks' ++ w' -> ks = ks').
  Proof.
    apply derives_mutind.
    - intros p rhs kids Hp Hr Hk IH t' w w' Hd Hroot E. inversion Hd as [p' rhs' kids' Hp' Hr' Hk' Et]; subst t'. cbn [root] in Hroot.
      f_equal; [exact Hroot|].
      pose proof (in_flat g p rhs Hp Hr) as Hin. pose proof (in_flat g p' rhs' Hp' Hr') as Hin'. rewrite <- Hroot in Hin'.
      destruct (Hfirst _ _ Hin) as (H1 & H2 & _ & H4). destruct (Hfirst _ _ Hin') as (H1' & H2' & _).
      destruct (proj2 begins_derives _ _ Hk H1 H2) as (c & v & Ec & Hb).
      destruct (proj2 begins_derives _ _ Hk' H1' H2') as (c' & v' & Ec' & Hb').
      change (flat_map yield_node kids ++ w = flat_map yield_node kids' ++ w') in E.
      assert (c = c') by (rewrite Ec, Ec' in E; cbn in E; congruence). subst c'.
      assert (rhs = rhs') by (eapply H4; eassumption). subst rhs'. eapply IH; eassumption.
    - intros ks' w w' Hk _. inversion Hk. reflexivity.
    - intros s r ks _ IH ks' w w' Hk E. inversion Hk as [|s' r' ks2 Hk2|]; subst. f_equal. cbn in E. rewrite <- !app_assoc in E.
      apply app_inv_head in E. eapply IH; eassumption.
    - intros n t r ks Hroot Hd IHt _ IHk ks' w w' Hk E. inversion Hk as [| |n' t' r' ks2 Hroot' Hd' Hk2]; subst.
      cbn in E. rewrite <- !app_assoc in E.
      assert (t = t') by (eapply IHt; [exact Hd'|congruence|exact E]). subst t'. f_equal.
      apply app_inv_head in E. eapply IHk; eassumption.
  Qed.
End Predictive.

Lemma predictive_one g start w t t' : predictive g -> parses g start w t -> parses g start w t' -> t = t'.
Proof.
  intros (first & Hf) (H1 & H2 & H3) (H1' & H2' & H3'). apply (proj1 (one_way g first Hf) t H1 t' [] [] H1'); [congruence|].
  rewrite H3, H3'. reflexivity.
Qed.

Lemma kids_match_length g e ks : kids_match g e ks -> length e = length ks.
Proof. revert ks. induction e as [|t e IH]; intros ks H; inversion H; subst; cbn; auto. Qed.

Lemma predictive_partial g start input l : predictive g -> NoDup l -> (forall x, In x l -> partial_parse g start input x) ->
  length l <= linear_bound g input.
Proof.
  intros (first & Hf) Hnd Hp.
  set (key := fun x : (term * expression) * str * list pnode => let '(pe, u, ks) := x in (pe, length ks, length u)).
  set (keys := flat_map (fun pe => map (fun ki => (pe, fst ki, snd ki)) (list_prod (seq 0 (S (length (snd pe)))) (seq 0 (S (length input))))) (flat_prods g)).
  assert (Hkeys : length keys = linear_bound g input).
  { unfold keys, linear_bound. generalize (flat_prods g). intro ps. induction ps as [|pe ps IH]; [reflexivity|].
    cbn [flat_map]. rewrite app_length, IH, map_length, prod_length, !seq_length.
    change (list_sum (map (fun pe => S (length (snd pe))) (pe :: ps))) with (S (length (snd pe)) + list_sum (map (fun pe : term * expression => S (length (snd pe))) ps)).
    rewrite Nat.mul_add_distr_r. reflexivity. }
  rewrite <- Hkeys, <- (map_length key l). apply NoDup_incl_length.
  - apply NoDup_map_inj; [|exact Hnd]. intros [[[a e] u] ks] [[[a' e'] u'] ks'] Hx Hy E. cbn in E. injection E as <- <- El Eu.
    destruct (Hp _ Hx) as (Hin & _ & dn & todo & w & E1 & Hk & Ei). destruct (Hp _ Hy) as (_ & _ & dn' & todo' & w' & E1' & Hk' & Ei').
    assert (u = u' /\ flat_map yield_node ks ++ w = flat_map yield_node ks' ++ w') as [-> Er].
    { rewrite Ei in Ei'. clear - Eu Ei'. revert u' Eu Ei'. induction u as [|c u IH]; intros [|c' u'] Eu E; cbn in *; try discriminate; [auto|].
      injection Eu as Eu. injection E as -> E. destruct (IH u' Eu E) as [-> ?]. auto. }
    assert (dn = dn').
    { apply kids_match_length in Hk. apply kids_match_length in Hk'. rewrite <- El, <- Hk in Hk'. rewrite E1 in E1'. clear - Hk' E1'.
      revert dn' Hk' E1'. induction dn as [|x dn IH]; intros [|x' dn'] Hl E; cbn in *; try discriminate; [reflexivity|].
      injection E as -> E. f_equal. apply IH; [congruence|exact E]. }
    subst dn'. rewrite (proj2 (one_way g first Hf) _ _ Hk _ _ _ Hk' Er). reflexivity.
  - intros k Hk. apply in_map_iff in Hk. destruct Hk as ([[[a e] u] ks] & <- & Hx). destruct (Hp _ Hx) as (Hin & _ & dn & todo & w & E1 & Hk & Ei).
    unfold keys. apply in_flat_map. exists (a, e). split; [exact Hin|]. apply in_map_iff. exists (length ks, length u). split; [reflexivity|].
    apply in_prod; apply in_seq; cbn [snd].
    + apply kids_match_length in Hk. rewrite E1, app_length. lia.
    + rewrite Ei, app_length. unfold str, char in *. lia.
Qed.
