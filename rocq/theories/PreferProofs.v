(** The order of the trees: every matched traversal is created while the later one of its two parts
    is processed, in the order of the earlier ones. *)
From Verif Require Export PreferSpec EarleyMain EarleyExact.
From Coq Require Import Sorting.Sorted.

Definition mkey (e : tedge) : nat * nat :=
  match fst e with
  | MTerminal _ => (snd e, 0)
  | MNonterminal c => (Nat.max (snd e) c, Nat.min (snd e) c)
  end.
Definition kle (a b : nat * nat) : Prop := fst a < fst b \/ (fst a = fst b /\ snd a <= snd b).

Lemma kle_refl a : kle a a.
Proof. right. auto. Qed.

Definition ids_ok (tr : ttree) : Prop := forall i t, nth_error (tt_arena tr) i = Some t -> t_id t = i.
Definition ord (tr : ttree) : Prop := forall i j t1 t2 e1 e2, i < j ->
  nth_error (tt_arena tr) i = Some t1 -> nth_error (tt_arena tr) j = Some t2 ->
  t_from t1 = Some e1 -> t_from t2 = Some e2 -> kle (mkey e1) (mkey e2).
Definition edges (P : tedge -> Prop) (tr : ttree) : Prop := forall i t e,
  nth_error (tt_arena tr) i = Some t -> t_from t = Some e -> P e.
Notation below tr k := (edges (fun e => kle (mkey e) k) tr).

Lemma tt_predict_ord tr range pid rhs starting id tr' : tt_predict tr range pid rhs starting = (id, tr') ->
  ids_ok tr -> ord tr -> ids_ok tr' /\ ord tr' /\ forall P, edges P tr -> edges P tr'.
Proof.
  unfold tt_predict. destruct (hm_get troot_eqb (tt_roots tr) (pid, total_len range)); intros E Hi Ho; injection E as <- <-; [auto|].
  split; [|split].
  - intros i t H. cbn [tt_arena] in H. apply nth_error_snoc in H. destruct H as [H|[-> ->]]; [exact (Hi _ _ H)|reflexivity].
  - intros i j t1 t2 e1 e2 Hij H1 H2 F1 F2. cbn [tt_arena] in *. apply nth_error_snoc in H1. apply nth_error_snoc in H2.
    destruct H1 as [H1|[_ ->]]; [|discriminate]. destruct H2 as [H2|[_ ->]]; [|discriminate]. exact (Ho i j _ _ _ _ Hij H1 H2 F1 F2).
  - intros k Hb i t e H F. cbn [tt_arena] in H. apply nth_error_snoc in H. destruct H as [H|[_ ->]]; [exact (Hb _ _ _ H F)|discriminate].
Qed.

Lemma predict_all_ord pg range starting pids : forall tr q tr' q', predict_all pg range starting pids tr q = Ok (tr', q') ->
  ids_ok tr -> ord tr -> ids_ok tr' /\ ord tr' /\ forall P, edges P tr -> edges P tr'.
Proof.
  induction pids as [|pid pids IH]; intros tr q tr' q' H Hi Ho; cbn [predict_all] in H; [injection H as <- <-; auto|].
  destruct (get_production_by_id pg pid) as [pr| |]; cbn [rbind] in H; try discriminate.
  destruct (tt_predict tr range pid (snd pr) starting) as [id tr1] eqn:E.
  destruct (tt_predict_ord _ _ _ _ _ _ _ E Hi Ho) as (Hi1 & Ho1 & Hb1).
  destruct (IH _ _ _ _ H Hi1 Ho1) as (Hi2 & Ho2 & Hb2). auto.
Qed.

Lemma tt_match_ord tr par m id tr' : tt_match_term tr par m = Ok (id, tr') ->
  ids_ok tr -> ord tr -> below tr (mkey (m, par)) ->
  ids_ok tr' /\ ord tr' /\ forall k, below tr k -> kle (mkey (m, par)) k -> below tr' k.
Proof.
  intros H Hi Ho Hb. unfold tt_match_term in H.
  destruct (nth_error (tt_arena tr) par) as [pt|] eqn:Ep; cbn [expect rbind] in H; try discriminate.
  match type of H with rbind ?x _ = _ => destruct x as [r| |] eqn:Er end; cbn [rbind] in H; try discriminate.
  match type of H with rbind ?x _ = _ => destruct x as [un| |] eqn:Eu end; cbn [rbind] in H; try discriminate.
  rewrite (Hi _ _ Ep) in H.
  destruct (hm_get tedge_eqb (tt_edges tr) (m, par)); injection H as <- <-; [auto|].
  split; [|split].
  - intros i t H. cbn [tt_arena] in H. apply nth_error_snoc in H. destruct H as [H|[-> ->]]; [exact (Hi _ _ H)|reflexivity].
  - intros i j t1 t2 e1 e2 Hij H1 H2 F1 F2. cbn [tt_arena] in *. apply nth_error_snoc in H1. apply nth_error_snoc in H2.
    destruct H1 as [H1|[-> ->]], H2 as [H2|[-> ->]].
    + exact (Ho i j _ _ _ _ Hij H1 H2 F1 F2).
    + injection F2 as <-. exact (Hb _ _ _ H1 F1).
    + apply nth_error_lt in H2. lia.
    + lia.
  - intros k Hk Hle i t e H F. cbn [tt_arena] in H. apply nth_error_snoc in H. destruct H as [H|[_ ->]]; [exact (Hk _ _ _ H F)|].
    injection F as <-. exact Hle.
Qed.

Definition pkey (x : nat * tmatch) : nat * nat := mkey (snd x, fst x).
Lemma match_all_ord l : forall tr q tr' q', match_all l tr q = Ok (tr', q') ->
  ids_ok tr -> ord tr -> (forall x, In x l -> below tr (pkey x)) -> StronglySorted kle (map pkey l) ->
  ids_ok tr' /\ ord tr' /\ forall k, below tr k -> (forall x, In x l -> kle (pkey x) k) -> below tr' k.
Proof.
  induction l as [|[par m] l IH]; intros tr q tr' q' H Hi Ho Hb Hs; cbn [match_all] in H; [injection H as <- <-; auto|].
  destruct (tt_match_term tr par m) as [[id tr1]| |] eqn:E; cbn [rbind] in H; try discriminate.
  destruct (tt_match_ord _ _ _ _ _ E Hi Ho (Hb (par, m) (or_introl eq_refl))) as (Hi1 & Ho1 & Hb1).
  cbn [map] in Hs. inversion Hs as [|? ? Hs' Hf]; subst. rewrite Forall_forall in Hf.
  assert (Hb' : forall x, In x l -> below tr1 (pkey x)).
  { intros x Hx. apply Hb1; [exact (Hb x (or_intror Hx))|]. apply Hf. apply in_map. exact Hx. }
  destruct (IH _ _ _ _ H Hi1 Ho1 Hb' Hs') as (Hi2 & Ho2 & Hb2).
  split; [exact Hi2|]. split; [exact Ho2|]. intros k Hk Hle. apply Hb2; [|intros x Hx; apply Hle; right; exact Hx].
  apply Hb1; [exact Hk|]. exact (Hle (par, m) (or_introl eq_refl)).
Qed.

Lemma sorted_map {A} (f : nat -> A) (R : A -> A -> Prop) l : (forall x y, x < y -> R (f x) (f y)) -> StronglySorted lt l -> StronglySorted R (map f l).
Proof.
  intros H. induction 1 as [|x l Hs IH Hf]; cbn [map]; constructor; [exact IH|].
  rewrite Forall_forall in *. intros y Hy. apply in_map_iff in Hy. destruct Hy as (z & <- & Hz). apply H. exact (Hf z Hz).
Qed.
Lemma sorted_map_in {A} (f : nat -> A) (R : A -> A -> Prop) l : StronglySorted lt l ->
  (forall x y, In x l -> In y l -> x < y -> R (f x) (f y)) -> StronglySorted R (map f l).
Proof.
  induction 1 as [|x l Hs IH Hf]; intro H; cbn [map]; constructor.
  - apply IH. intros; apply H; [right|right|]; assumption.
  - rewrite Forall_forall in *. intros y Hy. apply in_map_iff in Hy. destruct Hy as (z & <- & Hz).
    apply H; [left; reflexivity|right; exact Hz|exact (Hf z Hz)].
Qed.

Section Whole.
  Variable pg : parse_grammar.
  Notation iview := (iview pg).
  Notation dvalid := (dvalid pg).
  Notation dkids := (dkids pg).

  Lemma item_tree y y' : i_tree y = i_tree y' -> i_start y = i_start y' -> y = y'.
  Proof. destruct y, y'. unfold i_tree. cbn. intros E ->. injection E as -> ->. reflexivity. Qed.

  (** The item of a whole tree at a position. *)
  Definition whole (t : dtree) (pos : nat) : item := match t with Node pid ks => mkItem pid pos ks end.
  Lemma whole_tree t pos : i_tree (whole t pos) = t.
  Proof. destruct t. reflexivity. Qed.
  Lemma whole_start t pos : i_start (whole t pos) = pos.
  Proof. destruct t. reflexivity. Qed.
  Lemma whole_item y : whole (i_tree y) (i_start y) = y.
  Proof. destruct y. reflexivity. Qed.

  Lemma subtree_yield (s t : dtree) : subtree s t -> byte_len (yield s) <= byte_len (yield t).
  Proof.
    induction 1 as [t|s l ks t Hin Hs IH]; [lia|]. apply in_split in Hin. destruct Hin as (a & b & ->).
    change (yield (Node l (a ++ Sub t :: b))) with (yields (a ++ Sub t :: b)). rewrite yields_app, byte_len_app.
    change (yields (Sub t :: b)) with (yield t ++ yields b). rewrite byte_len_app. lia.
  Qed.
  (** Exchange on trees labelled with production ids. *)
  Inductive dexch (u v : dtree) : str -> dtree -> dtree -> Prop :=
  | dexch_here : dexch u v [] u v
  | dexch_in pid a t t' b w : dexch u v w t t' ->
      dexch u v (yields a ++ w) (Node pid (a ++ Sub t :: b)) (Node pid (a ++ Sub t' :: b)).

  Definition same (u v : dtree) : Prop := dvalid v /\ lhs_of pg (root v) = lhs_of pg (root u) /\ yield v = yield u.

  Lemma dkids_replace e : forall a t t' b, dkids e (a ++ Sub t :: b) -> dvalid t' -> lhs_of pg (root t') = lhs_of pg (root t) -> dkids e (a ++ Sub t' :: b).
  Proof.
    intros a t t' b H Hv Hl. revert e H. induction a as [|k a IH]; intros e H; cbn [app] in *.
    - inversion H as [| |n pid rhs kids r ks Hpid Hd Hk]; subst. inversion Hv as [pid' l' rhs' kids' Hpid' Hk']; subst.
      cbn [root] in Hl. unfold lhs_of in Hl. rewrite Hpid', Hpid in Hl. cbn in Hl. econstructor; [rewrite Hpid', Hl; reflexivity|exact Hv|exact Hk].
    - inversion H; subst; econstructor; eauto.
  Qed.
  Lemma dexch_same u v : same u v -> forall w t t', dexch u v w t t' -> dvalid t -> same t t'.
  Proof.
    intros Huv w t t' H. induction H as [|pid a t t' b w H IH]; intro Ht; [exact Huv|].
    inversion Ht as [? l rhs ? Hpid Hk]; subst.
    assert (Hdt : dvalid t) by (eapply dkids_Sub; [exact Hk|apply in_or_app; right; left; reflexivity]).
    destruct (IH Hdt) as (Hv & Hl & Hy). split; [|split].
    - econstructor; [exact Hpid|]. exact (dkids_replace _ _ _ _ _ Hk Hv Hl).
    - reflexivity.
    - change (yields (a ++ Sub t' :: b) = yields (a ++ Sub t :: b)). rewrite !yields_app. f_equal.
      change (yield t' ++ yields b = yield t ++ yields b). rewrite Hy. reflexivity.
  Qed.

  Lemma whole_view t pos : dvalid t -> iview (whole t pos) (lhs_of pg (root t)) [].
  Proof.
    intro H. inversion H as [pid l rhs kids Hpid Hk]; subst. cbn [root]. unfold lhs_of. rewrite Hpid. exists rhs. rewrite app_nil_r.
    cbn [whole i_pid i_kids]. auto.
  Qed.

End Whole.

Section Prefer.
  Variable pg : parse_grammar.
  Hypothesis Hpg : pg_ok pg.
  Variable input : str.
  Variable start : term.

  Notation prods := (pg_prods pg).
  Notation TInv := (TInv pg input start).
  Notation Inv := (Inv pg input start).
  Notation iview := (iview pg).
  Notation at_pos := (at_pos input).
  Notation full := (full pg input start).
  Notation dvalid := (dvalid pg).
  Notation dkids := (dkids pg).
  Notation erase := (erase pg).
  Notation nofull := (nofull pg input start).

  Definition OInv (st : pstate) (d : nat) : Prop :=
    ids_ok (s_tree st) /\ ord (s_tree st) /\
    forall i t e, nth_error (tt_arena (s_tree st)) i = Some t -> t_from t = Some e -> fst (mkey e) < d.

  Lemma OInv_below st d k : OInv st d -> fst k = d -> below (s_tree st) k.
  Proof. intros (_ & _ & H) E i t e Ht Hf. left. rewrite E. exact (H i t e Ht Hf). Qed.

  Lemma process_ord st gh d rest found st' : Inv st gh d -> OInv st d ->
    process pg (s_tree st) (mkQ (q_processed (s_queue st)) rest) (s_comp st) d = Ok (found, st') -> OInv st' (S d).
  Proof.
    intros HI HO H. pose proof HO as (Hi & Ho & Hd). unfold process in H.
    destruct (tt_get (s_tree st) d) as [t| |] eqn:Et; cbn [rbind] in H; try discriminate.
    assert (Hfin : forall tr q cm k, ids_ok tr -> ord tr -> below tr k -> fst k = d -> OInv (mkS tr q cm) (S d)).
    { intros tr q cm k Hi' Ho' Hb Hk. split; [exact Hi'|]. split; [exact Ho'|]. intros i t0 e Ht0 Hf. cbn [s_tree] in Ht0.
      destruct (Hb i t0 e Ht0 Hf) as [Hlt|[He _]]; rewrite Hk in *; lia. }
    destruct (next_unmatched t) as [[s|n]|] eqn:En.
    - destruct (starts_with (range_next (t_range t)) s); [|injection H as <- <-].
      + destruct (match_all [(d, MTerminal s)] (s_tree st) (mkQ (q_processed (s_queue st)) rest)) as [[tr q]| |] eqn:Em; cbn [rbind] in H; try discriminate.
        injection H as <- <-.
        destruct (match_all_ord _ _ _ _ _ Em Hi Ho) as (Hi' & Ho' & Hb').
        { intros x [<-|[]]. apply (OInv_below st d); [exact HO|reflexivity]. }
        { cbn [map]. repeat constructor. }
        apply (Hfin _ _ _ (d, 0)); try assumption; [|reflexivity].
        apply Hb'; [apply (OInv_below st d); [exact HO|reflexivity]|]. intros x [<-|[]]. apply kle_refl.
      + split; [exact Hi|]. split; [exact Ho|]. intros i t0 e Ht0 Hf. specialize (Hd i t0 e Ht0 Hf). lia.
    - destruct (get_production_by_id pg (t_pid t)) as [pr| |]; cbn [rbind] in H; try discriminate.
      match type of H with rbind ?x _ = _ => destruct x as [[tr1 q1]| |] eqn:Ep end; cbn [rbind] in H; try discriminate.
      match type of H with rbind ?x _ = _ => destruct x as [[tr2 q2]| |] eqn:Em end; cbn [rbind] in H; try discriminate.
      injection H as <- <-.
      destruct (predict_all_ord _ _ _ _ _ _ _ _ Ep Hi Ho) as (Hi1 & Ho1 & Hb1).
      assert (Hl : get_complete (cm_insert (s_comp st) t (fst pr)) (Nonterminal n) (t_range t) =
                   cm_lookup (cm_complete (s_comp st)) (key_total (Nonterminal n) (t_range t))).
      { unfold get_complete, cm_insert. rewrite En. reflexivity. }
      rewrite Hl in Em. set (l := cm_lookup (cm_complete (s_comp st)) (key_total (Nonterminal n) (t_range t))) in *.
      assert (Hlt : forall c, In c l -> c < d).
      { intros c Hc. unfold l, key_total in Hc. apply (inv_comp _ _ _ _ _ _ HI) in Hc. tauto. }
      assert (Hkey : forall c, In c l -> pkey (d, MNonterminal c) = (d, c)).
      { intros c Hc. apply Hlt in Hc. unfold pkey, mkey. cbn [fst snd]. f_equal; lia. }
      destruct (match_all_ord _ _ _ _ _ Em Hi1 Ho1) as (Hi' & Ho' & Hb').
      { intros x Hx. apply in_map_iff in Hx. destruct Hx as (c & <- & Hc). rewrite (Hkey c Hc). apply Hb1.
        apply (OInv_below st d); [exact HO|reflexivity]. }
      { rewrite map_map. apply sorted_map_in; [apply (inv_sorted _ _ _ _ _ _ HI)|]. intros x y Hx Hy Hxy.
        rewrite (Hkey x Hx), (Hkey y Hy). right. cbn [fst snd]. lia. }
      apply (Hfin _ _ _ (d, d)); try assumption; [|reflexivity].
      apply Hb'; [apply Hb1; apply (OInv_below st d); [exact HO|reflexivity]|].
      intros x Hx. apply in_map_iff in Hx. destruct Hx as (c & <- & Hc). rewrite (Hkey c Hc). apply Hlt in Hc. right. cbn [fst snd]. lia.
    - destruct (get_production_by_id pg (t_pid t)) as [pr| |]; cbn [rbind] in H; try discriminate.
      match type of H with rbind ?x _ = _ => destruct x as [[tr2 q2]| |] eqn:Em end; cbn [rbind] in H; try discriminate.
      injection H as <- <-.
      assert (Hl : get_incomplete (cm_insert (s_comp st) t (fst pr)) (fst pr) t =
                   cm_lookup (cm_incomplete (s_comp st)) (key_start (fst pr) (t_range t))).
      { unfold get_incomplete, cm_insert. rewrite En. reflexivity. }
      rewrite Hl in Em. set (l := cm_lookup (cm_incomplete (s_comp st)) (key_start (fst pr) (t_range t))) in *.
      assert (Hlt : forall c, In c l -> c < d).
      { intros c Hc. unfold l, key_start in Hc. apply (inv_inc _ _ _ _ _ _ HI) in Hc. tauto. }
      assert (Hkey : forall c, In c l -> pkey (c, MNonterminal d) = (d, c)).
      { intros c Hc. apply Hlt in Hc. unfold pkey, mkey. cbn [fst snd]. f_equal; lia. }
      destruct (match_all_ord _ _ _ _ _ Em Hi Ho) as (Hi' & Ho' & Hb').
      { intros x Hx. apply in_map_iff in Hx. destruct Hx as (c & <- & Hc). rewrite (Hkey c Hc).
        apply (OInv_below st d); [exact HO|reflexivity]. }
      { rewrite map_map. apply sorted_map_in; [apply (inv_sorted _ _ _ _ _ _ HI)|]. intros x y Hx Hy Hxy.
        rewrite (Hkey x Hx), (Hkey y Hy). right. cbn [fst snd]. lia. }
      apply (Hfin _ _ _ (d, d)); try assumption; [|reflexivity].
      apply Hb'; [apply (OInv_below st d); [exact HO|reflexivity]|].
      intros x Hx. apply in_map_iff in Hx. destruct Hx as (c & <- & Hc). rewrite (Hkey c Hc). apply Hlt in Hc. right. cbn [fst snd]. lia.
  Qed.

  Lemma Inv_d st gh d gh' d' : Inv st gh d -> Inv st gh' d' -> d = d'.
  Proof.
    intros H H'. pose proof (inv_q _ _ _ _ _ _ H) as Q. pose proof (inv_q _ _ _ _ _ _ H') as Q'.
    assert (El : length gh = length gh') by (rewrite <- (ti_len _ _ _ _ _ (inv_t _ _ _ _ _ _ H)); apply (ti_len _ _ _ _ _ (inv_t _ _ _ _ _ _ H'))).
    pose proof (qi_queue _ _ _ Q) as E. rewrite (qi_queue _ _ _ Q') in E.
    apply (f_equal (@length nat)) in E. rewrite !seq_length in E. pose proof (qi_le _ _ _ Q). pose proof (qi_le _ _ _ Q'). lia.
  Qed.

  Lemma earley_ord fuel : forall st gh d found st', Inv st gh d -> OInv st d -> earley fuel pg st = Ok (found, st') ->
    exists gh' d', Inv st' gh' d' /\ OInv st' d'.
  Proof.
    induction fuel as [|fuel IH]; intros st gh d found st' HI HO H; cbn [earley] in H; [discriminate|].
    destruct (q_queue (s_queue st)) as [|id rest] eqn:Eq; [injection H as <- <-; eauto|].
    destruct (process_inv pg Hpg input start st gh d id rest HI Eq) as (-> & it & Hit & fnd & st1 & new1 & E & HI1 & Hf).
    rewrite E, rbind_Ok in H. pose proof (process_ord _ _ _ _ _ _ HI HO E) as HO1.
    destruct fnd as [id|]; [injection H as <- <-; eauto|]. exact (IH _ _ _ _ _ HI1 HO1 H).
  Qed.

  (** ** Indices of items *)

  Section State.
  Notation same := (same pg).
  Variables (st : pstate) (gh : list item) (d : nat).
  Hypothesis HI : Inv st gh d.
  Hypothesis HO : OInv st d.
  Let HT : TInv (s_tree st) gh := inv_t _ _ _ _ _ _ HI.
  Let Hnd : NoDup gh := ti_nodup _ _ _ _ _ HT.

  (** What was matched last, with the key of the match. *)
  Lemma last_leaf c x s : nth_error gh c = Some (i_snoc x (Leaf s)) ->
    exists p t, nth_error gh p = Some x /\ p < c /\ nth_error (tt_arena (s_tree st)) c = Some t /\ t_from t = Some (MTerminal s, p).
  Proof.
    intro Hc. destruct (TInv_arena _ _ _ _ _ _ _ HT Hc) as (t & Et & Rt). pose proof (tr_from _ _ _ _ _ _ _ Rt) as Hf.
    unfold from_ok in Hf. destruct (t_from t) as [[m par]|] eqn:Ef.
    - destruct Hf as (Hlt & pit & k & H1 & H2 & H3). apply i_snoc_inj in H2. destruct H2 as [<- <-].
      destruct m as [s'|c']; [injection H3 as <-; eauto 8|]. destruct H3 as (_ & ? & _ & E & _). discriminate.
    - unfold i_snoc in Hf. cbn in Hf. destruct (i_kids x); discriminate.
  Qed.
  Lemma last_sub c x u : nth_error gh c = Some (i_snoc x (Sub u)) ->
    exists p m t y, nth_error gh p = Some x /\ p < c /\ nth_error gh m = Some y /\ m < c /\ u = i_tree y /\ i_start y = i_end x /\
      nth_error (tt_arena (s_tree st)) c = Some t /\ t_from t = Some (MNonterminal m, p).
  Proof.
    intro Hc. destruct (TInv_arena _ _ _ _ _ _ _ HT Hc) as (t & Et & Rt). pose proof (tr_from _ _ _ _ _ _ _ Rt) as Hf.
    unfold from_ok in Hf. destruct (t_from t) as [[m par]|] eqn:Ef.
    - destruct Hf as (Hlt & pit & k & H1 & H2 & H3). apply i_snoc_inj in H2. destruct H2 as [<- <-].
      destruct m as [s'|c']; [discriminate|]. destruct H3 as (Hlt' & y & Hy & E & Hs). injection E as ->.
      exists par, c', t, y. auto 10.
    - unfold i_snoc in Hf. cbn in Hf. destruct (i_kids x); discriminate.
  Qed.

  (** Earlier parts make an earlier whole. *)
  Lemma step_leaf c x s p : nth_error gh c = Some (i_snoc x (Leaf s)) -> nth_error gh p = Some x ->
    forall x' p' lhs rest, nth_error gh p' = Some x' -> p' < p -> iview x' lhs (Terminal s :: rest) -> at_pos (i_end x') s ->
    exists c', c' < c /\ nth_error gh c' = Some (i_snoc x' (Leaf s)).
  Proof.
    intros Hc Hpx x' p' lhs rest Hx' Hlt Hv Hat.
    destruct (last_leaf _ _ _ Hc) as (p0 & t & Hp0 & _ & Et & Ef). assert (p0 = p) by (eapply nth_error_NoDup; eassumption). subst p0.
    destruct HO as (_ & Ho & Hb). pose proof (Hb _ _ _ Et Ef) as Hpd. cbn in Hpd.
    assert (Hin : In (i_snoc x' (Leaf s)) gh) by (eapply (inv_scan _ _ _ _ _ _ HI p'); eauto; lia).
    apply In_nth_error in Hin. destruct Hin as [c' Hc']. exists c'. split; [|exact Hc'].
    destruct (last_leaf _ _ _ Hc') as (p1 & t1 & Hp1 & _ & Et1 & Ef1). assert (p1 = p') by (eapply nth_error_NoDup; eassumption). subst p1.
    destruct (lt_eq_lt_dec c' c) as [[H|E]|H]; [exact H| |]; exfalso.
    - subst c'. rewrite Et in Et1. injection Et1 as <-. rewrite Ef in Ef1. injection Ef1 as E. lia.
    - destruct (Ho _ _ _ _ _ _ H Et Et1 Ef Ef1) as [K|[K _]]; cbn in K; lia.
  Qed.
  Lemma step_sub c x y p m : nth_error gh c = Some (i_snoc x (Sub (i_tree y))) -> nth_error gh p = Some x -> nth_error gh m = Some y -> i_start y = i_end x ->
    forall x' y' p' m' lhs n rest, nth_error gh p' = Some x' -> nth_error gh m' = Some y' -> p' <= p -> m' <= m -> p' < p \/ m' < m ->
    iview x' lhs (Nonterminal n :: rest) -> iview y' (Nonterminal n) [] -> i_start y' = i_end x' ->
    exists c', c' < c /\ nth_error gh c' = Some (i_snoc x' (Sub (i_tree y'))).
  Proof.
    intros Hc Hpx Hmy Hst x' y' p' m' lhs n rest Hx' Hy' Hlep Hlem Hlt Hv Hvy Hst'.
    destruct (last_sub _ _ _ Hc) as (p0 & m0 & t & y0 & Hp0 & _ & Hm0 & _ & Ey & Es & Et & Ef).
    assert (p0 = p) by (eapply nth_error_NoDup; eassumption). subst p0.
    assert (y0 = y) by (apply item_tree; congruence). subst y0. assert (m0 = m) by (eapply nth_error_NoDup; eassumption). subst m0.
    destruct HO as (_ & Ho & Hb). pose proof (Hb _ _ _ Et Ef) as Hpd. cbn in Hpd.
    assert (Hin : In (i_snoc x' (Sub (i_tree y'))) gh) by (eapply (inv_compl _ _ _ _ _ _ HI p' x' lhs n rest m' y'); eauto; lia).
    apply In_nth_error in Hin. destruct Hin as [c' Hc']. exists c'. split; [|exact Hc'].
    destruct (last_sub _ _ _ Hc') as (p1 & m1 & t1 & y1 & Hp1 & _ & Hm1 & _ & Ey1 & Es1 & Et1 & Ef1).
    assert (p1 = p') by (eapply nth_error_NoDup; eassumption). subst p1.
    assert (y1 = y') by (apply item_tree; congruence). subst y1. assert (m1 = m') by (eapply nth_error_NoDup; eassumption). subst m1.
    destruct (lt_eq_lt_dec c' c) as [[H|E]|H]; [exact H| |]; exfalso.
    - subst c'. rewrite Et in Et1. injection Et1 as <-. rewrite Ef in Ef1. injection Ef1 as E1 E2. lia.
    - destruct (Ho _ _ _ _ _ _ H Et Et1 Ef Ef1) as [K|[K K']]; cbn in *; lia.
  Qed.

  (** Subtrees come before the trees that contain them. *)
  Lemma kid_index pid pos b : forall c a u, nth_error gh c = Some (mkItem pid pos (a ++ Sub u :: b)) ->
    exists m, m < c /\ nth_error gh m = Some (whole u (pos + byte_len (yields a))).
  Proof.
    induction b as [|k b IH] using rev_ind; intros c a u Hc.
    - change (mkItem pid pos (a ++ [Sub u])) with (i_snoc (mkItem pid pos a) (Sub u)) in Hc.
      destruct (last_sub _ _ _ Hc) as (p0 & m & t & y & _ & _ & Hm & Hlt & -> & Hs & _). exists m. split; [exact Hlt|].
      unfold i_end in Hs. cbn [i_start i_kids] in Hs. rewrite <- Hs, whole_item. exact Hm.
    - replace (mkItem pid pos (a ++ Sub u :: b ++ [k])) with (i_snoc (mkItem pid pos (a ++ Sub u :: b)) k) in Hc
        by (unfold i_snoc; cbn [i_pid i_start i_kids]; rewrite <- app_assoc; reflexivity).
      destruct k as [s|v].
      + destruct (last_leaf _ _ _ Hc) as (p0 & t & Hp0 & Hlt & _). destruct (IH _ _ _ Hp0) as (m & Hm & Hg). exists m. split; [lia|exact Hg].
      + destruct (last_sub _ _ _ Hc) as (p0 & m0 & t & y & Hp0 & Hlt & _). destruct (IH _ _ _ Hp0) as (m & Hm & Hg). exists m. split; [lia|exact Hg].
  Qed.
  Lemma subtree_index s t : subtree s t -> forall c pos, nth_error gh c = Some (whole t pos) -> byte_len (yield s) = byte_len (yield t) ->
    s = t \/ exists m, m < c /\ nth_error gh m = Some (whole s pos).
  Proof.
    induction 1 as [t|s l ks t Hin Hs IH]; intros c pos Hc Hy; [left; reflexivity|right].
    apply in_split in Hin. destruct Hin as (a & b & ->). cbn [whole] in Hc. destruct (kid_index _ _ _ _ _ _ Hc) as (m & Hm & Hg).
    pose proof (subtree_yield _ _ Hs) as Hle.
    change (yield (Node l (a ++ Sub t :: b))) with (yields (a ++ Sub t :: b)) in Hy. rewrite yields_app, byte_len_app in Hy.
    change (yields (Sub t :: b)) with (yield t ++ yields b) in Hy. rewrite byte_len_app in Hy.
    replace (pos + byte_len (yields a)) with pos in Hg by lia.
    destruct (IH _ _ Hg ltac:(lia)) as [->|(m' & Hm' & Hg')]; [eauto|]. exists m'. split; [lia|exact Hg'].
  Qed.

  (** If [v] is before [u] at a place, then what contains [v] there is before what contains [u]. *)
  Lemma exchange_index u v pos : same u v ->
    (forall iu, nth_error gh iu = Some (whole u pos) -> exists iv, iv < iu /\ nth_error gh iv = Some (whole v pos)) ->
    forall w t t', dexch u v w t t' -> dvalid t -> forall q c, q + byte_len w = pos -> nth_error gh c = Some (whole t q) ->
    exists c', c' < c /\ nth_error gh c' = Some (whole t' q).
  Proof.
    intros Huv Hbase w t t' H. induction H as [|pid a t t' b w H IH]; intros Ht q c Hq Hc.
    - cbn in Hq. rewrite Nat.add_0_r in Hq. subst q. exact (Hbase c Hc).
    - inversion Ht as [? l rhs ? Hpid Hk]; subst pid0 kids. rewrite byte_len_app in Hq.
      assert (Hdt : dvalid t) by (eapply dkids_Sub; [exact Hk|apply in_or_app; right; left; reflexivity]).
      pose proof (dexch_same _ _ _ Huv _ _ _ H Hdt) as (Hv' & Hl' & Hy').
      cbn [whole] in *.
      assert (Hpre : forall b0 e0 rest, nth_error prods pid = Some (l, e0 ++ rest) -> dkids e0 (a ++ Sub t :: b0) -> forall c0,
        nth_error gh c0 = Some (mkItem pid q (a ++ Sub t :: b0)) -> exists c', c' < c0 /\ nth_error gh c' = Some (mkItem pid q (a ++ Sub t' :: b0))).
      { induction b0 as [|k b0 IHb] using rev_ind; intros e0 rest He Hk0 c0 Hc0.
        - change (mkItem pid q (a ++ [Sub t])) with (i_snoc (mkItem pid q a) (Sub t)) in Hc0.
          destruct (last_sub _ _ _ Hc0) as (p0 & m & t0 & y & Hp0 & _ & Hm & _ & Ey & Es & _ & _).
          assert (Hy : y = whole t (q + byte_len (yields a))) by (rewrite <- (whole_item y), <- Ey, Es; reflexivity).
          rewrite Hy in Hm. destruct (IH Hdt _ _ ltac:(rewrite <- Nat.add_assoc; exact Hq) Hm) as (m' & Hlt & Hm').
          assert (Hview : exists e1 n r, iview (mkItem pid q a) l (Nonterminal n :: r) /\ e0 = e1 ++ [Nonterminal n] /\ lhs_of pg (root t) = Nonterminal n).
          { apply dkids_length in Hk0 as Hlen. rewrite app_length in Hlen. cbn [length] in Hlen.
            assert (Hne : e0 <> []) by (intros ->; cbn in Hlen; lia). destruct (exists_last Hne) as (e1 & x & ->).
            apply dkids_app_inv in Hk0. destruct Hk0 as (k1 & k2 & E & D1 & D2). pose proof (dkids_length _ _ _ D2) as L2. cbn in L2.
            destruct k2 as [|k2 [|]]; try discriminate. apply app_inj_tail in E. destruct E as [<- <-].
            inversion D2 as [| |n pid' rhs' kids' r' ks' Hpid' Hd' _]; subst. exists e1, n, rest.
            split; [|split; [reflexivity|cbn [root]; unfold lhs_of; rewrite Hpid'; reflexivity]].
            exists e1. cbn [i_pid i_kids]. rewrite <- app_assoc in He. auto. }
          destruct Hview as (e1 & n & r & Hvx & -> & Hln).
          replace (i_snoc (mkItem pid q a) (Sub t)) with (i_snoc (mkItem pid q a) (Sub (i_tree (whole t (q + byte_len (yields a)))))) in Hc0
            by (rewrite whole_tree; reflexivity).
          destruct (step_sub c0 (mkItem pid q a) (whole t (q + byte_len (yields a))) p0 m Hc0 Hp0 Hm ltac:(rewrite whole_start; reflexivity)
                     (mkItem pid q a) (whole t' (q + byte_len (yields a))) p0 m' l n r Hp0 Hm') as (c' & Hlt' & Hc'); try lia.
          { exact Hvx. }
          { rewrite <- Hln, <- Hl'. apply whole_view. exact Hv'. }
          { rewrite whole_start. reflexivity. }
          exists c'. split; [exact Hlt'|]. rewrite Hc', whole_tree. reflexivity.
        - assert (Hsplit : exists e1 x, e0 = e1 ++ [x] /\ dkids e1 (a ++ Sub t :: b0) /\ dkids [x] [k]).
          { rewrite app_comm_cons, app_assoc in Hk0. apply dkids_length in Hk0 as Hlen. rewrite app_length in Hlen. cbn [length] in Hlen.
            assert (Hne : e0 <> []) by (intros ->; cbn in Hlen; lia). destruct (exists_last Hne) as (e1 & x & ->).
            apply dkids_app_inv in Hk0. destruct Hk0 as (k1 & k2 & E & D1 & D2). pose proof (dkids_length _ _ _ D2) as L2. cbn in L2.
            destruct k2 as [|k2 [|]]; try discriminate. apply app_inj_tail in E. destruct E as [<- <-]. eauto. }
          destruct Hsplit as (e1 & x & -> & D1 & D2). rewrite <- app_assoc in He. cbn [app] in He.
          assert (Hvx : iview (mkItem pid q (a ++ Sub t' :: b0)) l (x :: rest)).
          { exists e1. cbn [i_pid i_kids]. split; [exact He|]. exact (dkids_replace _ _ _ _ _ _ D1 Hv' Hl'). }
          assert (Hend : i_end (mkItem pid q (a ++ Sub t' :: b0)) = i_end (mkItem pid q (a ++ Sub t :: b0))).
          { unfold i_end. cbn [i_start i_kids]. f_equal. f_equal. rewrite !yields_app. f_equal.
            change (yield t' ++ yields b0 = yield t ++ yields b0). rewrite Hy'. reflexivity. }
          replace (mkItem pid q (a ++ Sub t :: b0 ++ [k])) with (i_snoc (mkItem pid q (a ++ Sub t :: b0)) k) in Hc0
            by (unfold i_snoc; cbn [i_pid i_start i_kids]; rewrite <- app_assoc; reflexivity).
          replace (mkItem pid q (a ++ Sub t' :: b0 ++ [k])) with (i_snoc (mkItem pid q (a ++ Sub t' :: b0)) k)
            by (unfold i_snoc; cbn [i_pid i_start i_kids]; rewrite <- app_assoc; reflexivity).
          destruct k as [s|z].
          + inversion D2 as [|s' r' ks' _| ]; subst.
            destruct (last_leaf _ _ _ Hc0) as (p0 & t0 & Hp0 & _ & _ & _).
            destruct (IHb _ _ He D1 _ Hp0) as (p' & Hlt & Hp').
            apply (step_leaf c0 _ s p0 Hc0 Hp0 _ p' l rest Hp' Hlt Hvx).
            rewrite Hend. destruct (TInv_arena _ _ _ _ _ _ _ HT Hc0) as (t1 & _ & R1). pose proof (tr_pos _ _ _ _ _ _ _ R1) as Hpos.
            unfold i_snoc in Hpos. cbn [i_start i_kids] in Hpos. rewrite yields_snoc in Hpos. apply at_pos_split in Hpos. exact (proj2 Hpos).
          + inversion D2 as [| |n pid' rhs' kids' r' ks' Hpid' Hd' _]; subst.
            destruct (last_sub _ _ _ Hc0) as (p0 & m & t0 & y & Hp0 & _ & Hm & _ & Ey & Es & _ & _).
            destruct (IHb _ _ He D1 _ Hp0) as (p' & Hlt & Hp'). rewrite Ey in Hc0 |- *.
            apply (step_sub c0 _ y p0 m Hc0 Hp0 Hm Es _ y p' m l n rest Hp' Hm); try lia.
            * exact Hvx.
            * rewrite <- (whole_item y), <- Ey. replace (Nonterminal n) with (lhs_of pg (root (Node pid' kids'))) by (cbn [root]; unfold lhs_of; rewrite Hpid'; reflexivity).
              apply whole_view. exact Hd'. }
      apply (Hpre b rhs [] ltac:(rewrite app_nil_r; exact Hpid) Hk c Hc).
  Qed.

  (** Where the exchanged tree is. *)
  Lemma exchange_at u v w t t' : dexch u v w t t' -> forall q c, nth_error gh c = Some (whole t q) ->
    exists i, nth_error gh i = Some (whole u (q + byte_len w)).
  Proof.
    induction 1 as [|pid a t t' b w H IH]; intros q c Hc.
    - cbn. rewrite Nat.add_0_r. eauto.
    - cbn [whole] in Hc. destruct (kid_index _ _ _ _ _ _ Hc) as (m & _ & Hm). destruct (IH _ _ Hm) as (i & Hi).
      exists i. rewrite byte_len_app, Nat.add_assoc. exact Hi.
  Qed.
  End State.

  Variable prs : grammar_parser.
  Hypothesis Hp : gp_pg prs = pg.

  Lemma iter_next_ord fuel st gh d o it' : Inv st gh d -> OInv st d -> iter_next fuel (mkI prs st) = Ok (o, it') ->
    it_parser it' = prs /\ exists gh' d', Inv (it_state it') gh' d' /\ OInv (it_state it') d'.
  Proof.
    intros HI HO H. unfold iter_next in H. cbn [it_parser it_state] in H. rewrite Hp in H.
    destruct (earley fuel pg st) as [[[id|] st1]| |] eqn:E; cbn [rbind] in H; try discriminate.
    - match type of H with rbind ?x _ = _ => destruct x as [t| |] end; cbn [rbind] in H; try discriminate.
      injection H as <- <-. split; [reflexivity|]. exact (earley_ord _ _ _ _ _ _ HI HO E).
    - injection H as <- <-. split; [reflexivity|]. exact (earley_ord _ _ _ _ _ _ HI HO E).
  Qed.

  Lemma produces_ord it ts it' : produces it ts it' -> it_parser it = prs -> forall gh d, Inv (it_state it) gh d -> OInv (it_state it) d ->
    it_parser it' = prs /\ exists gh' d', Inv (it_state it') gh' d' /\ OInv (it_state it') d'.
  Proof.
    induction 1 as [it|it t it1 ts it2 fuel Hn Hprod IH]; intros Hpar gh d HI HO; [eauto|].
    destruct it as [p0 st]; cbn [it_parser it_state] in *. subst p0.
    destruct (iter_next_ord _ _ _ _ _ _ HI HO Hn) as (Hp1 & gh1 & d1 & HI1 & HO1). exact (IH Hp1 gh1 d1 HI1 HO1).
  Qed.


  (** The trees of a run have increasing indices. *)
  Lemma produces_sorted it ts it' : produces it ts it' -> it_parser it = prs -> forall gh d,
    Inv (it_state it) gh d -> OInv (it_state it) d ->
    it_parser it' = prs /\
    exists new d' ids, Inv (it_state it') (gh ++ new) d' /\ OInv (it_state it') d' /\ d <= d' /\ (forall i, In i ids -> d <= i < d') /\ StronglySorted lt ids /\
      Forall2 (fun i t => exists x, nth_error (gh ++ new) i = Some x /\ full x /\ t = erase (i_tree x)) ids ts /\
      (forall i x, d <= i < d' -> nth_error (gh ++ new) i = Some x -> full x -> In i ids).
  Proof.
    induction 1 as [it|it t it1 ts it2 fuel Hn Hprod IH]; intros Hpar gh d HI HO.
    - split; [assumption|]. exists [], d, []. rewrite app_nil_r. split; [assumption|]. split; [assumption|]. split; [lia|].
      split; [intros i []|]. split; [constructor|]. split; [constructor|]. intros; lia.
    - destruct it as [p0 st]; cbn [it_parser it_state] in *. subst p0.
      destruct (iter_next_ord _ _ _ _ _ _ HI HO Hn) as (_ & gh1 & d1 & HI1 & HO1).
      destruct (iter_next_spec pg Hpg input start prs Hp fuel st gh d HI)
        as [(E & _)|[(st' & new & E & _)|(st' & new & id & x & E & H1 & H2 & H3 & H4 & H5)]];
        rewrite E in Hn; try discriminate. injection Hn as <- <-. cbn [it_state] in *.
      rewrite (Inv_d _ _ _ _ _ HI1 H1) in HO1.
      destruct (IH eq_refl (gh ++ new) (S id) H1 HO1) as (Hp2 & new2 & d' & ids & G1 & GO & G2 & G3 & G4 & G5 & G6).
      split; [assumption|]. exists (new ++ new2), d', (id :: ids). rewrite app_assoc.
      split; [assumption|]. split; [assumption|]. split; [lia|]. split.
      { intros i [<-|Hi]; [lia|]. apply G3 in Hi. lia. }
      split. { constructor; [assumption|]. apply Forall_forall. intros i Hi. apply G3 in Hi. lia. }
      split. { constructor; [|assumption]. exists x. split; [apply nth_error_ext; assumption|auto]. }
      intros i y Hi Hy Hfy. destruct (lt_eq_lt_dec i id) as [[Hlt| ->]|Hgt].
      + exfalso. apply (nth_error_ext_lt (gh ++ new)) in Hy; [|apply nth_error_lt in H3; lia].
        eapply H5; [|exact Hy|exact Hfy]. lia.
      + left; reflexivity.
      + right. eapply G6; [|exact Hy|exact Hfy]. lia.
  Qed.
End Prefer.

(** A fresh iterator holds roots only. *)
Lemma iter_new_ord g st0 input start it : iter_new (mkGP st0 (pg_new_unchecked g)) input (Some start) = Ok it -> OInv (it_state it) 0.
Proof.
  unfold iter_new. intro H. match type of H with rbind ?x _ = _ => destruct x as [[tr q]| |] eqn:E end; cbn [rbind] in H; try discriminate.
  injection H as <-. cbn [it_state]. unfold OInv. cbn [s_tree].
  destruct (predict_all_ord _ _ _ _ _ _ _ _ E) as (Hi & Ho & Hb).
  - intros i t H. destruct i; discriminate.
  - intros i j t1 t2 e1 e2 _ H. destruct i; discriminate.
  - split; [exact Hi|]. split; [exact Ho|]. intros i t e Ht Hf. exfalso.
    refine (Hb (fun _ => False) _ i t e Ht Hf). intros i' t' e' H. destruct i'; discriminate.
Qed.

Lemma run_sorted g start input it ts it' : opens g start input it -> produces it ts it' ->
  let pg := pg_new_unchecked g in
  exists gh d ids, Inv pg input start (it_state it') gh d /\ OInv (it_state it') d /\ StronglySorted lt ids /\ (forall i, In i ids -> i < d) /\
    Forall2 (fun i t => exists x, nth_error gh i = Some x /\ full pg input start x /\ t = erase pg (i_tree x)) ids ts /\
    (forall i x, i < d -> nth_error gh i = Some x -> full pg input start x -> In i ids).
Proof.
  intros Ho Hp pg. pose proof (opens_inv _ _ _ _ Ho) as (st0 & _ & Hn). pose proof (iter_new_ord _ _ _ _ _ Hn) as HO.
  destruct (iter_new_ok g st0 input start) as (st & E & gh & HI). rewrite E in Hn. injection Hn as <-. cbn [it_state] in *.
  destruct (produces_sorted pg (proj1 (pg_new_unchecked_ok g)) input start (mkGP st0 pg) eq_refl _ ts it' Hp eq_refl gh 0 HI HO)
    as (_ & new & d' & ids & H1 & HO1 & H2 & H3 & H4 & H5 & H6).
  exists (gh ++ new), d', ids. split; [assumption|]. split; [assumption|]. split; [assumption|].
  split; [intros i Hi; apply H3; exact Hi|]. split; [assumption|]. intros i x Hi. apply H6. lia.
Qed.

(** ** The order *)

Lemma produces_split ts1 : forall it ts2 it2, produces it (ts1 ++ ts2) it2 -> exists it1, produces it ts1 it1 /\ produces it1 ts2 it2.
Proof.
  induction ts1 as [|t ts1 IH]; intros it ts2 it2 H; cbn [app] in H; [exists it; split; [constructor|exact H]|].
  inversion H as [|? ? it1 ? ? f Hn Hp]; subst. destruct (IH _ _ _ Hp) as (it3 & H1 & H2). exists it3. split; [econstructor; eassumption|exact H2].
Qed.

Lemma earlier_irrefl it a : ~ earlier it a a.
Proof. intros (ts & it' & _ & H1 & H2). exact (H2 H1). Qed.
Lemma earlier_trans it a b c : earlier it a b -> earlier it b c -> earlier it a c.
Proof.
  intros (ts1 & it1 & P1 & Ha & Hb) (ts2 & it2 & P2 & Hb' & Hc).
  destruct (produces_linear _ _ _ P1 _ _ P2) as [(r & -> & _)|(r & -> & _)].
  - exists (ts1 ++ r), it2. split; [exact P2|]. split; [apply in_or_app; left; exact Ha|exact Hc].
  - exfalso. apply Hb. apply in_or_app. left. exact Hb'.
Qed.
Lemma ptree_dec : forall a b : ptree, a = b \/ a <> b.
Proof.
  induction a as [l ks IH] using tree_ind'. intros [l' ks']. destruct (term_eq_dec l l') as [->|Hl]; [|right; congruence].
  assert (H : ks = ks' \/ ks <> ks').
  { revert ks' IH. induction ks as [|k ks IHk]; intros ks' IH; destruct ks' as [|k' ks']; [left; reflexivity|right; discriminate|right; discriminate|].
    destruct (IHk ks' (fun t Ht => IH t (or_intror Ht))) as [->|Hne]; [|right; congruence].
    destruct k as [s|t], k' as [s'|t']; try (right; discriminate).
    - destruct (str_eq_dec s s') as [->|Hs]; [left; reflexivity|right; congruence].
    - destruct (IH t (or_introl eq_refl) t') as [->|Ht]; [left; reflexivity|right; congruence]. }
  destruct H as [->|H]; [left; reflexivity|right; congruence].
Qed.
Lemma first_of (t : ptree) ts : In t ts -> exists ts1 ts2, ts = ts1 ++ t :: ts2 /\ ~ In t ts1.
Proof.
  induction ts as [|x ts IH]; intros Hin; [destruct Hin|]. destruct (ptree_dec x t) as [->|Hne].
  - exists [], ts. split; [reflexivity|]. intros [].
  - destruct Hin as [E|Hin]; [contradiction|]. destruct (IH Hin) as (ts1 & ts2 & -> & Hni). exists (x :: ts1), ts2.
    split; [reflexivity|]. intros [E|H]; [exact (Hne E)|exact (Hni H)].
Qed.
Lemma ptree_in (b : ptree) ts : In b ts \/ ~ In b ts.
Proof.
  induction ts as [|x ts [IH|IH]]; [right; intros []|left; right; exact IH|].
  destruct (ptree_dec x b) as [->|Hne]; [left; left; reflexivity|right; intros [E|H]; [exact (Hne E)|exact (IH H)]].
Qed.
Lemma both g start input it a b : opens g start input it -> parses g start input a -> parses g start input b ->
  exists ts it', produces it ts it' /\ In a ts /\ In b ts.
Proof.
  intros Ho Ha Hb. destruct (completeness _ _ _ _ _ Ho Ha) as (ts1 & it1 & P1 & H1). destruct (completeness _ _ _ _ _ Ho Hb) as (ts2 & it2 & P2 & H2).
  destruct (produces_linear _ _ _ P1 _ _ P2) as [(r & -> & _)|(r & -> & _)].
  - exists (ts1 ++ r), it2. split; [exact P2|]. split; [apply in_or_app; left; exact H1|exact H2].
  - exists (ts2 ++ r), it1. split; [exact P1|]. split; [exact H1|apply in_or_app; left; exact H2].
Qed.
Lemma earlier_total g start input it a b : opens g start input it -> parses g start input a -> parses g start input b ->
  a <> b -> earlier it a b \/ earlier it b a.
Proof.
  intros Ho Ha Hb Hne. destruct (both _ _ _ _ _ _ Ho Ha Hb) as (ts & it' & Hp & Ia & Ib).
  destruct (first_of _ _ Ia) as (ts1 & ts2 & -> & Hni). destruct (ptree_in b ts1) as [Hin|Hnb].
  - right. destruct (produces_split _ _ _ _ Hp) as (it1 & P1 & _). exists ts1, it1. auto.
  - left. replace (ts1 ++ a :: ts2) with ((ts1 ++ [a]) ++ ts2) in Hp by (rewrite <- app_assoc; reflexivity).
    destruct (produces_split _ _ _ _ Hp) as (it1 & P1 & _). exists (ts1 ++ [a]), it1. split; [exact P1|].
    split; [apply in_or_app; right; left; reflexivity|]. intro H. apply in_app_or in H. destruct H as [H|[E|[]]]; [exact (Hnb H)|exact (Hne E)].
Qed.

(** ** Exchange, without the production ids *)

Lemma exchange_lift pg u v w t t' : exchange u v w t t' -> forall dt, erase pg dt = t ->
  exists du, erase pg du = u /\ subtree du dt /\ forall dv, erase pg dv = v -> exists dt', dexch du dv w dt dt' /\ erase pg dt' = t'.
Proof.
  induction 1 as [|l a t t' b w H IH]; intros dt E.
  - exists dt. split; [exact E|]. split; [constructor|]. intros dv Ev. exists dv. split; [constructor|exact Ev].
  - destruct dt as [pid ks]. rewrite erase_Node in E. injection E as El Ek. apply map_eq_app in Ek. destruct Ek as (da & r & -> & Ea & Er).
    destruct r as [|[s|dt] db]; [discriminate|discriminate|]. cbn [map] in Er. injection Er as Et Eb.
    destruct (IH dt Et) as (du & Hu & Hsub & Hd). exists du. split; [exact Hu|]. split; [econstructor; [apply in_or_app; right; left; reflexivity|exact Hsub]|].
    intros dv Ev. destruct (Hd dv Ev) as (dt' & Hx & Et'). exists (Node pid (da ++ Sub dt' :: db)). split.
    + replace (flat_map yield_node a) with (yields da); [constructor; exact Hx|]. rewrite <- Ea. unfold yields.
      rewrite flat_map_concat_map, flat_map_concat_map, map_map. f_equal. apply map_ext. intros [s|x]; [reflexivity|].
      symmetry. apply yield_erase.
    + rewrite erase_Node, map_app, El, map_cons. change (erase_node pg (Sub dt')) with (Sub (erase pg dt')). rewrite Et'. f_equal. f_equal; [exact Ea|]. f_equal. exact Eb.
Qed.

Lemma exchange_subtree u v w t t' : exchange u v w t t' -> subtree u t /\ subtree v t'.
Proof.
  induction 1 as [|l a t t' b w H [IH1 IH2]]; [split; constructor|].
  split; (econstructor; [apply in_or_app; right; left; reflexivity|assumption]).
Qed.
Lemma exchange_sym u v w t t' : exchange u v w t t' -> exchange v u w t' t.
Proof. induction 1; constructor; assumption. Qed.
Lemma exchange_eq u v w t t' : exchange u v w t t' -> t = t' -> u = v.
Proof. induction 1 as [|l a t t' b w H IH]; intro E; [exact E|]. injection E as E. apply app_inv_head in E. injection E as E. exact (IH E). Qed.
Lemma exchange_same u w t t' : exchange u u w t t' -> t = t'.
Proof. induction 1 as [|l a t t' b w H IH]; [reflexivity|]. rewrite IH. reflexivity. Qed.
Lemma subtree_exchange u v t : subtree u t -> exists w t', exchange u v w t t'.
Proof.
  induction 1 as [t|u l ks t Hin Hs IH]; [exists [], v; constructor|]. destruct IH as (w & t' & H). apply in_split in Hin. destruct Hin as (a & b & ->).
  exists (flat_map yield_node a ++ w), (Node l (a ++ Sub t' :: b)). constructor. exact H.
Qed.
Lemma dvalid_subtree pg s t : subtree s t -> dvalid pg t -> dvalid pg s.
Proof. induction 1 as [|s l ks t Hin Ho IH]; intro Hv; [assumption|]. apply IH. inversion Hv; subst. eapply dkids_Sub; eassumption. Qed.
Lemma kids_match_Sub g e ks t : kids_match g e ks -> In (Sub t) ks -> derives g t.
Proof. induction 1; intro Hin; destruct Hin as [E|Hin] || destruct Hin; try discriminate; auto. injection E as <-. assumption. Qed.
Lemma derives_subtree g s t : subtree s t -> derives g t -> derives g s.
Proof. induction 1 as [|s l ks t Hin Ho IH]; intro Hv; [assumption|]. apply IH. inversion Hv; subst. eapply kids_match_Sub; eassumption. Qed.

Lemma root_erase pg t : root (erase pg t) = lhs_of pg (root t).
Proof. destruct t. reflexivity. Qed.

Lemma full_whole pg input start x : full pg input start x -> x = whole (i_tree x) 0.
Proof. intros (_ & Hs & _). rewrite <- Hs. symmetry. apply whole_item. Qed.
Lemma whole_full pg input start t : dvalid pg t -> lhs_of pg (root t) = start -> yield t = input -> full pg input start (whole t 0).
Proof.
  intros Hv Hl Hy. split; [|split].
  - rewrite <- Hl. apply whole_view. exact Hv.
  - destruct t; reflexivity.
  - destruct t; exact Hy.
Qed.

Lemma Forall2_mid {A B} (R : A -> B -> Prop) l ts1 t ts2 : Forall2 R l (ts1 ++ t :: ts2) ->
  exists l1 x l2, l = l1 ++ x :: l2 /\ Forall2 R l1 ts1 /\ R x t.
Proof.
  intro H. apply Forall2_app_inv_r in H. destruct H as (l1 & l' & H1 & H2 & ->). inversion H2 as [|x ? l2 ? Hx _]; subst. eauto 6.
Qed.
Lemma Forall2_In_l {A B} (R : A -> B -> Prop) l l' x : Forall2 R l l' -> In x l -> exists y, In y l' /\ R x y.
Proof. induction 1 as [|a b l l' H HF IH]; intro Hin; [destruct Hin|]. destruct Hin as [E|Hin]; [subst; eexists; split; [left; reflexivity|exact H]|]. destruct (IH Hin) as (y & H1 & H2). exists y. split; [right; exact H1|exact H2]. Qed.
Lemma sorted_before l1 (x : nat) l2 j : StronglySorted lt (l1 ++ x :: l2) -> In j (l1 ++ x :: l2) -> j < x -> In j l1.
Proof.
  intros Hs Hin Hlt. apply in_app_or in Hin. destruct Hin as [Hin|Hin]; [exact Hin|exfalso].
  induction l1 as [|y l1 IH]; cbn [app] in Hs; inversion Hs as [|? ? Hs' Hf]; subst; [|exact (IH Hs')].
  destruct Hin as [->|Hin]; [lia|]. rewrite Forall_forall in Hf. specialize (Hf j Hin). lia.
Qed.

(** The state in which [t] has just been returned for the first time. *)
Lemma first_state g start input it t : opens g start input it -> parses g start input t ->
  let pg := pg_new_unchecked g in
  exists it3 gh d c x ts1 it1, produces it ts1 it1 /\ produces it (ts1 ++ [t]) it3 /\ ~ In t ts1 /\
    Inv pg input start (it_state it3) gh d /\ OInv (it_state it3) d /\
    nth_error gh c = Some x /\ full pg input start x /\ t = erase pg (i_tree x) /\
    (forall j y, j < c -> nth_error gh j = Some y -> full pg input start y -> In (erase pg (i_tree y)) ts1).
Proof.
  intros Ho Ht pg. destruct (completeness _ _ _ _ _ Ho Ht) as (ts & it2 & Hp & Hin).
  destruct (first_of _ _ Hin) as (ts1 & ts2 & -> & Hni).
  replace (ts1 ++ t :: ts2) with ((ts1 ++ [t]) ++ ts2) in Hp by (rewrite <- app_assoc; reflexivity).
  destruct (produces_split _ _ _ _ Hp) as (it3 & P3 & _). destruct (produces_split _ _ _ _ P3) as (it1 & P1 & _).
  destruct (run_sorted _ _ _ _ _ _ Ho P3) as (gh & d & ids & HI & HO & Hs & Hd & HF & Hall).
  destruct (Forall2_mid _ _ _ _ _ HF) as (l1 & c & l2 & -> & HF1 & (x & Hx & Hfx & Etx)).
  exists it3, gh, d, c, x, ts1, it1. do 8 (split; [assumption|]).
  intros j y Hlt Hy Hfy. assert (Hcd : c < d).
  { apply Hd. apply in_or_app. right. left. reflexivity. }
  assert (Hj : In j l1) by (eapply sorted_before; [exact Hs|eapply Hall; [|exact Hy|exact Hfy]; lia|exact Hlt]).
  destruct (Forall2_In_l _ _ _ _ HF1 Hj) as (t' & Hin' & z & Hz & _ & ->). fold pg in Hz. rewrite Hy in Hz. injection Hz as <-. exact Hin'.
Qed.

(** ** Detours come later *)

Lemma shortcut_earlier g start input it t t' : opens g start input it -> parses g start input t -> shortcut t t' -> earlier it t' t.
Proof.
  intros Ho Ht (u & v & w & Hx & Hvu & Hne & Hr & Hy).
  destruct (first_state _ _ _ _ _ Ho Ht) as (it3 & gh & d & c & x & ts1 & it1 & Hp & _ & Hni & HI & HO & Hc & Hf & Et & Hall).
  set (pg := pg_new_unchecked g) in *. pose proof (full_dvalid _ _ _ _ Hf) as (Hv & Hl & Hyt).
  destruct (exchange_lift pg _ _ _ _ _ Hx (i_tree x) (eq_sym Et)) as (du & Eu & Hsub & Hlift).
  assert (Hdv : exists dv, subtree dv du /\ erase pg dv = v) by (apply (erase_occurs g); fold pg; rewrite Eu; exact Hvu).
  destruct Hdv as (dv & Hsv & Ev). destruct (Hlift dv Ev) as (dt' & Hdx & Et').
  pose proof (dvalid_subtree _ _ _ Hsub Hv) as Hvdu. pose proof (dvalid_subtree _ _ _ Hsv Hvdu) as Hvdv.
  assert (Hsame : same pg du dv).
  { split; [exact Hvdv|]. split; [rewrite <- !root_erase, Eu, Ev; exact Hr|]. rewrite <- (yield_erase pg dv), <- (yield_erase pg du), Eu, Ev. exact Hy. }
  rewrite (full_whole _ _ _ _ Hf) in Hc.
  destruct (exchange_index pg input start _ gh d HI HO du dv (byte_len w) Hsame) with (w := w) (t := i_tree x) (t' := dt') (q := 0) (c := c) as (c' & Hlt & Hc'); auto.
  { intros iu Hiu. destruct (subtree_index pg input start _ gh d HI dv du Hsv iu (byte_len w) Hiu) as [E|H]; [|congruence|exact H].
    rewrite (proj2 (proj2 Hsame)). reflexivity. }
  pose proof (dexch_same _ _ _ Hsame _ _ _ Hdx Hv) as (Hv' & Hl' & Hy').
  exists ts1, it1. split; [exact Hp|]. split; [|exact Hni]. rewrite <- Et', <- (whole_tree dt' 0).
  apply (Hall c' _ Hlt Hc'). apply whole_full; congruence.
Qed.

Lemma first_no_shortcut g start input it t it1 : opens g start input it -> produces it [t] it1 -> forall t', ~ shortcut t t'.
Proof.
  intros Ho Hp t' Hs. pose proof (soundness _ _ _ _ _ _ t Ho Hp (or_introl eq_refl)) as Ht.
  destruct (shortcut_earlier _ _ _ _ _ _ Ho Ht Hs) as (ts & it2 & P2 & Hin & Hni).
  destruct (produces_linear _ _ _ Hp _ _ P2) as [(r & -> & _)|(r & E & _)].
  - apply Hni. left. reflexivity.
  - destruct ts as [|y ts]; [destruct Hin|]. injection E as -> _. apply Hni. left. reflexivity.
Qed.

(** ** A tree without detours is not deep *)

Lemma subtree_trans {L} (a b c : tree L) : subtree a b -> subtree b c -> subtree a c.
Proof. intros Hab Hbc. induction Hbc as [|s l ks t Hin Hs IH]; [exact Hab|]. econstructor; [exact Hin|exact (IH Hab)]. Qed.
Lemma subtree_height {L} (s t : tree L) : subtree s t -> height s <= height t.
Proof.
  induction 1 as [t|s l ks t Hin Hs IH]; [lia|]. cbn [height]. enough (height t <= list_max (map (fun k => match k with Leaf _ => 0 | Sub c => height c end) ks)) by lia.
  pose proof (proj1 (list_max_le (map (fun k => match k with Leaf _ => 0 | Sub c => height c end) ks) _) (le_n _)) as H.
  rewrite Forall_forall in H. apply H. apply in_map_iff. exists (Sub t). auto.
Qed.
Lemma subtree_text (s t : ptree) : subtree s t -> exists a b, yield t = a ++ yield s ++ b.
Proof.
  induction 1 as [t|s l ks t Hin Hs (a & b & E)]; [exists [], []; rewrite app_nil_r; reflexivity|].
  apply in_split in Hin. destruct Hin as (k1 & k2 & ->). exists (flat_map yield_node k1 ++ a), (b ++ flat_map yield_node k2).
  cbn [yield]. rewrite flat_map_app. cbn [flat_map]. change (yield_node (Sub t)) with (yield t). rewrite E, <- !app_assoc. reflexivity.
Qed.
Lemma list_max_In l : l <> [] -> In (list_max l) l.
Proof.
  induction l as [|x l IH]; [contradiction|]. intros _. destruct l as [|y l]; [left; cbn; lia|].
  change (list_max (x :: y :: l)) with (Nat.max x (list_max (y :: l))). destruct (Nat.max_spec x (list_max (y :: l))) as [[_ ->]|[_ ->]]; [right; apply IH; discriminate|left; reflexivity].
Qed.

Definition place (t : ptree) : term * nat := (root t, length (yield t)).

Lemma derives_root g t : derives g t -> In (root t) (map p_lhs g).
Proof. intro H. inversion H; subst. cbn [root]. apply in_map. assumption. Qed.

Lemma height_places g n : forall t, derives g t -> (forall t', ~ shortcut t t') -> length (yield t) <= n ->
  forall seen, NoDup seen -> incl seen (list_prod (map p_lhs g) (seq 0 (S n))) -> (forall s, subtree s t -> ~ In (place s) seen) ->
  length seen + height t <= length g * S n.
Proof.
  induction t as [l ks IH] using tree_ind'. intros Hd Hns Hn seen Hnd Hincl Hfresh. set (t := Node l ks) in *.
  assert (Hnd' : NoDup (place t :: seen)) by (constructor; [apply Hfresh; constructor|exact Hnd]).
  assert (Hincl' : incl (place t :: seen) (list_prod (map p_lhs g) (seq 0 (S n)))).
  { intros x [<-|Hx]; [|exact (Hincl x Hx)]. apply in_prod; [exact (derives_root _ _ Hd)|apply in_seq; lia]. }
  assert (Hlen : S (length seen) <= length g * S n).
  { pose proof (NoDup_incl_length Hnd' Hincl') as H. rewrite prod_length, map_length, seq_length in H. exact H. }
  assert (Hkid : forall c, In (Sub c) ks -> S (length seen) + height c <= length g * S n).
  { intros c Hc. assert (Hct : subtree c t) by (econstructor; [exact Hc|constructor]).
    apply (IH c Hc) with (seen := place t :: seen); try assumption.
    - exact (derives_subtree _ _ _ Hct Hd).
    - intros c' (u & v & w & Hx & H). assert (Hu : subtree u t) by (eapply subtree_trans; [apply (exchange_subtree _ _ _ _ _ Hx)|exact Hct]).
      destruct (subtree_exchange u v t Hu) as (w' & t' & Hx'). apply (Hns t'). exists u, v, w'. auto.
    - destruct (subtree_text _ _ Hct) as (a & b & E). rewrite E, !app_length in Hn. lia.
    - intros s Hs [E|Hin]; [|apply (Hfresh s); [eapply subtree_trans; eassumption|exact Hin]].
      assert (Hst : subtree s t) by (eapply subtree_trans; eassumption).
      destruct (subtree_exchange t s t (subtree_here t)) as (w & t' & Hx). apply (Hns t'). exists t, s, w. split; [exact Hx|]. split; [exact Hst|].
      pose proof (f_equal fst E) as Er. pose proof (f_equal snd E) as El. unfold place in Er, El. unfold snd in El. unfold fst in Er. split; [|split; [symmetry; exact Er|]].
      + intros ->. pose proof (subtree_height _ _ Hs) as Hh. assert (height c < height t); [|lia].
        unfold t. cbn [height]. apply Nat.lt_succ_r. pose proof (proj1 (list_max_le (map (fun k => match k with Leaf _ => 0 | Sub c => height c end) ks) _) (le_n _)) as H.
        rewrite Forall_forall in H. apply H. apply in_map_iff. exists (Sub c). auto.
      + destruct (subtree_text _ _ Hst) as (a & b & Ey). rewrite Ey in El. rewrite !app_length in El.
        destruct a; [|cbn in El; lia]. destruct b; [|cbn in El; lia]. rewrite Ey, app_nil_r. reflexivity. }
  unfold t at 1. cbn [height]. set (hs := map _ ks). destruct (list_eq_dec Nat.eq_dec hs []) as [->|Hne]; [cbn; lia|].
  pose proof (list_max_In hs Hne) as Hin. unfold hs at 2 in Hin. apply in_map_iff in Hin. destruct Hin as (k & Ek & Hk). rewrite <- Ek.
  destruct k as [s|c]; [lia|]. specialize (Hkid c Hk). lia.
Qed.

Lemma no_shortcut_height g start input t : parses g start input t -> (forall t', ~ shortcut t t') -> height t <= length g * S (length input).
Proof.
  intros (Hd & Hr & Hy) Hns. apply (height_places g (length input) t Hd Hns ltac:(rewrite Hy; lia) []); [constructor|intros x []|intros s _ []].
Qed.

Lemma first_shallow g start input it fuel t it1 : opens g start input it -> iter_next fuel it = Ok (Some t, it1) ->
  height t <= length g * S (length input) /\ iter_next_deep (length g * S (length input)) fuel it = Ok (Some t, it1).
Proof.
  intros Ho Hn. assert (Hp : produces it [t] it1) by (econstructor; [exact Hn|constructor]).
  assert (Hh : height t <= length g * S (length input)).
  { apply (no_shortcut_height g start); [exact (soundness _ _ _ _ _ _ t Ho Hp (or_introl eq_refl))|exact (first_no_shortcut _ _ _ _ _ _ Ho Hp)]. }
  split; [exact Hh|]. rewrite (iter_next_depth _ _ _ _ Hn). apply Nat.leb_le in Hh. rewrite Hh. reflexivity.
Qed.

(** ** The same preference everywhere *)

Lemma sorted_app_lt l1 l2 (i j : nat) : StronglySorted lt (l1 ++ l2) -> In i l1 -> In j l2 -> i < j.
Proof.
  induction l1 as [|x l1 IH]; intros Hs Hi Hj; [destruct Hi|]. cbn [app] in Hs. inversion Hs as [|? ? Hs' Hf]; subst.
  destruct Hi as [->|Hi]; [|exact (IH Hs' Hi Hj)]. rewrite Forall_forall in Hf. apply Hf. apply in_or_app. right. exact Hj.
Qed.
Lemma Forall2_In_r {A B} (R : A -> B -> Prop) l l' y : Forall2 R l l' -> In y l' -> exists x, In x l /\ R x y.
Proof.
  induction 1 as [|a b l l' H HF IH]; intro Hin; [destruct Hin|]. destruct Hin as [E|Hin]; [subst; exists a; split; [left; reflexivity|exact H]|].
  destruct (IH Hin) as (x & H1 & H2). exists x. split; [right; exact H1|exact H2].
Qed.

(** One run in which four trees are returned, and the index of each. *)
Lemma index_order g start input it a b : NoDup (flat_prods g) -> opens g start input it ->
  forall ts it', produces it ts it' -> In a ts -> In b ts ->
  let pg := pg_new_unchecked g in
  forall gh d ids, Inv pg input start (it_state it') gh d -> StronglySorted lt ids ->
    Forall2 (fun i t => exists x, nth_error gh i = Some x /\ full pg input start x /\ t = erase pg (i_tree x)) ids ts ->
  forall da db ia ib, nth_error gh ia = Some (whole da 0) -> nth_error gh ib = Some (whole db 0) -> dvalid pg da -> dvalid pg db -> erase pg da = a -> erase pg db = b ->
  (earlier it a b <-> ia < ib).
Proof.
  intros Hnd Ho ts it' Hp Ha Hb pg gh d ids HI Hs HF da db ia ib Hia Hib Va Vb Ea Eb.
  pose proof (ti_nodup _ _ _ _ _ (inv_t _ _ _ _ _ _ HI)) as Hgh.
  assert (Huniq : forall t dt i j, dvalid pg dt -> erase pg dt = t -> nth_error gh i = Some (whole dt 0) ->
            (exists x, nth_error gh j = Some x /\ full pg input start x /\ t = erase pg (i_tree x)) -> j = i).
  { intros t dt i j Vt Et Hi (x & Hx & Hf & E). pose proof (full_dvalid _ _ _ _ Hf) as (Vx & _ & _).
    rewrite <- Et in E. apply (erase_inj g pg (proj2 (pg_new_unchecked_ok g)) Hnd _ Vt _ Vx) in E.
    rewrite (full_whole _ _ _ _ Hf), <- E in Hx. eapply nth_error_NoDup; eassumption. }
  split.
  - intros (tsE & itE & PE & HaE & HbE). destruct (produces_linear _ _ _ PE _ _ Hp) as [(r & -> & _)|(r & -> & _)].
    + apply in_app_or in Hb. destruct Hb as [Hb|Hb]; [contradiction|]. apply Forall2_app_inv_r in HF. destruct HF as (l1 & l2 & F1 & F2 & ->).
      destruct (Forall2_In_r _ _ _ _ F1 HaE) as (i & Hi & Ri). destruct (Forall2_In_r _ _ _ _ F2 Hb) as (j & Hj & Rj).
      apply (Huniq _ da ia) in Ri; [|assumption..]. apply (Huniq _ db ib) in Rj; [|assumption..]. subst. eapply sorted_app_lt; eassumption.
    + exfalso. apply HbE. apply in_or_app. left. exact Hb.
  - intro Hlt. destruct (first_of _ _ Hb) as (ts1 & ts2 & -> & Hni).
    destruct (Forall2_mid _ _ _ _ _ HF) as (l1 & j & l2 & -> & F1 & Rj). apply (Huniq _ db ib) in Rj; [|assumption..]. subst j.
    destruct (produces_split _ _ _ _ Hp) as (it1 & P1 & _). exists ts1, it1. split; [exact P1|]. split; [|exact Hni].
    destruct (Forall2_In_r _ _ _ _ HF Ha) as (i & Hi & Ri). pose proof Ri as Ri'. apply (Huniq _ da ia) in Ri; [|assumption..]. subst i.
    pose proof (sorted_before _ _ _ _ Hs Hi Hlt) as Hi1. destruct (Forall2_In_l _ _ _ _ F1 Hi1) as (y & Hy & x & Hx & _ & ->).
    destruct Ri' as (x' & Hx' & _ & ->). rewrite Hx in Hx'. injection Hx' as <-. exact Hy.
Qed.

Lemma four g start input it a b c d : opens g start input it -> parses g start input a -> parses g start input b -> parses g start input c -> parses g start input d ->
  exists ts it', produces it ts it' /\ In a ts /\ In b ts /\ In c ts /\ In d ts.
Proof.
  intros Ho Ha Hb Hc Hd. destruct (both _ _ _ _ _ _ Ho Ha Hb) as (ts1 & it1 & P1 & I1 & I2). destruct (both _ _ _ _ _ _ Ho Hc Hd) as (ts2 & it2 & P2 & I3 & I4).
  destruct (produces_linear _ _ _ P1 _ _ P2) as [(r & -> & _)|(r & -> & _)].
  - exists (ts1 ++ r), it2. split; [exact P2|]. repeat (split; [apply in_or_app; left; assumption|]). split; assumption.
  - exists (ts2 ++ r), it1. split; [exact P1|]. split; [assumption|]. split; [assumption|]. split; apply in_or_app; left; assumption.
Qed.

Lemma dexch_sym u v w t t' : dexch u v w t t' -> dexch v u w t' t.
Proof. induction 1; constructor; assumption. Qed.

Lemma exchange_trees g u v w t t' : derives g t -> derives g v -> root u = root v -> yield u = yield v -> exchange u v w t t' ->
  let pg := pg_new_unchecked g in
  exists du dv dt dt', erase pg du = u /\ erase pg dv = v /\ erase pg dt = t /\ erase pg dt' = t' /\ dvalid pg du /\ dvalid pg dv /\ dvalid pg dt /\ dvalid pg dt' /\
    dexch du dv w dt dt' /\ same pg du dv /\ same pg dv du.
Proof.
  intros Ht Hv Hr Hy Hx pg. pose proof (proj2 (pg_new_unchecked_ok g)) as Hpg.
  destruct (derives_erase g pg Hpg _ Ht) as (dt & Vt & Et). destruct (derives_erase g pg Hpg _ Hv) as (dv & Vv & Ev).
  destruct (exchange_lift pg _ _ _ _ _ Hx dt Et) as (du & Eu & Hsub & Hlift). destruct (Hlift dv Ev) as (dt' & Hdx & Et').
  pose proof (dvalid_subtree _ _ _ Hsub Vt) as Vu.
  assert (Hl : lhs_of pg (root dv) = lhs_of pg (root du)) by (rewrite <- !root_erase, Eu, Ev; congruence).
  assert (Hyd : yield dv = yield du) by (rewrite <- (yield_erase pg dv), <- (yield_erase pg du), Eu, Ev; congruence).
  assert (Hs : same pg du dv) by (split; [exact Vv|split; assumption]).
  pose proof (dexch_same _ _ _ Hs _ _ _ Hdx Vt) as (Vt' & _).
  exists du, dv, dt, dt'. do 10 (split; [assumption|]). split; [exact Vu|]. split; symmetry; assumption.
Qed.

Lemma exchange_parses g start input u v w t t' : parses g start input t -> derives g v -> root u = root v -> yield u = yield v -> exchange u v w t t' -> parses g start input t'.
Proof.
  intros (Hd & Hrt & Hyt) Hv Hr Hy Hx. pose proof (proj2 (pg_new_unchecked_ok g)) as Hpg.
  destruct (exchange_trees _ _ _ _ _ _ Hd Hv Hr Hy Hx) as (du & dv & dt & dt' & _ & _ & Et & Et' & _ & _ & Vt & Vt' & Hdx & Hs & _).
  pose proof (dexch_same _ _ _ Hs _ _ _ Hdx Vt) as (_ & Hl & Hyy). subst. split; [apply erase_derives; assumption|]. split.
  - rewrite !root_erase. exact Hl.
  - rewrite !yield_erase. exact Hyy.
Qed.

Lemma preference g start input it u v w t1 t2 t3 t4 : NoDup (flat_prods g) -> opens g start input it ->
  parses g start input t1 -> parses g start input t3 ->
  derives g v -> root u = root v -> yield u = yield v -> exchange u v w t1 t2 -> exchange u v w t3 t4 ->
  earlier it t1 t2 -> earlier it t3 t4.
Proof.
  intros Hnd Ho P1 P3 Dv Hr Hy X1 X3 HE. set (pg := pg_new_unchecked g). pose proof (proj2 (pg_new_unchecked_ok g)) as Hpg. fold pg in Hpg.
  pose proof (exchange_parses _ _ _ _ _ _ _ _ P1 Dv Hr Hy X1) as P2. pose proof (exchange_parses _ _ _ _ _ _ _ _ P3 Dv Hr Hy X3) as P4.
  destruct (four _ _ _ _ _ _ _ _ Ho P1 P2 P3 P4) as (ts & it' & Hp & I1 & I2 & I3 & I4).
  destruct (run_sorted _ _ _ _ _ _ Ho Hp) as (gh & d & ids & HI & HO & Hs & Hid & HF & Hall). fold pg in HI, HF, Hall.
  pose proof (ti_nodup _ _ _ _ _ (inv_t _ _ _ _ _ _ HI)) as Hgh.
  destruct (exchange_trees _ _ _ _ _ _ (proj1 P1) Dv Hr Hy X1) as (du & dv & d1 & d2 & Eu & Ev & E1 & E2 & Vu & Vv & V1 & V2 & Hx12 & Huv & Hvu).
  destruct (exchange_trees _ _ _ _ _ _ (proj1 P3) Dv Hr Hy X3) as (du' & dv' & d3 & d4 & Eu' & Ev' & E3 & E4 & Vu' & Vv' & V3 & V4 & Hx34 & _ & _).
  fold pg in Eu, Ev, E1, E2, Vu, Vv, V1, V2, Huv, Hvu, Eu', Ev', E3, E4, Vu', Vv', V3, V4.
  assert (Heq : forall a b, dvalid pg a -> dvalid pg b -> erase pg a = erase pg b -> a = b) by (intros a b Va Vb; exact (erase_inj g pg Hpg Hnd a Va b Vb)).
  assert (du' = du) by (apply Heq; congruence). assert (dv' = dv) by (apply Heq; congruence). subst du' dv'.
  assert (Hidx : forall t dt, In t ts -> dvalid pg dt -> erase pg dt = t -> exists i, nth_error gh i = Some (whole dt 0)).
  { intros t dt Hin Vt Et. destruct (Forall2_In_r _ _ _ _ HF Hin) as (i & _ & x & Hx & Hf & E). exists i. rewrite Hx, (full_whole _ _ _ _ Hf). f_equal. f_equal.
    apply Heq; [apply (full_dvalid _ _ _ _ Hf)|exact Vt|congruence]. }
  destruct (Hidx _ _ I1 V1 E1) as (i1 & N1). destruct (Hidx _ _ I2 V2 E2) as (i2 & N2). destruct (Hidx _ _ I3 V3 E3) as (i3 & N3). destruct (Hidx _ _ I4 V4 E4) as (i4 & N4).
  pose proof (proj1 (index_order g start input it t1 t2 Hnd Ho ts it' Hp I1 I2 gh d ids HI Hs HF d1 d2 i1 i2 N1 N2 V1 V2 E1 E2) HE) as H12.
  apply (index_order g start input it t3 t4 Hnd Ho ts it' Hp I3 I4 gh d ids HI Hs HF d3 d4 i3 i4 N3 N4 V3 V4 E3 E4).
  destruct (exchange_at pg input start _ gh d HI _ _ _ _ _ Hx12 0 i1 N1) as (iu & Nu).
  destruct (exchange_at pg input start _ gh d HI _ _ _ _ _ (dexch_sym _ _ _ _ _ Hx12) 0 i2 N2) as (iv & Nv). cbn [plus] in Nu, Nv.
  destruct (lt_eq_lt_dec iu iv) as [[H|E]|H].
  - destruct (exchange_index pg input start _ gh d HI HO dv du (byte_len w) Hvu) with (w := w) (t := d4) (t' := d3) (q := 0) (c := i4) as (c' & Hlt & Hc'); auto.
    { intros i Hi. exists iu. split; [|exact Nu]. assert (i = iv) by (eapply nth_error_NoDup; eassumption). lia. }
    { apply dexch_sym. exact Hx34. }
    assert (c' = i3) by (eapply nth_error_NoDup; eassumption). lia.
  - exfalso. subst iv. rewrite Nu in Nv. injection Nv as E. apply (f_equal i_tree) in E. rewrite !whole_tree in E.
    assert (Euv : u = v) by congruence. rewrite Euv in X1. apply exchange_same in X1. subst t2. exact (earlier_irrefl _ _ HE).
  - exfalso. destruct (exchange_index pg input start _ gh d HI HO du dv (byte_len w) Huv) with (w := w) (t := d1) (t' := d2) (q := 0) (c := i1) as (c' & Hlt & Hc'); auto.
    { intros i Hi. exists iv. split; [|exact Nv]. assert (i = iu) by (eapply nth_error_NoDup; eassumption). lia. }
    assert (c' = i2) by (eapply nth_error_NoDup; eassumption). lia.
Qed.
