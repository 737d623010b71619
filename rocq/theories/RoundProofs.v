(** The trees come in the order of the rounds in which they are found. *)
From Verif Require Export RoundSpec PreferProofs.

Section Round.
  Variable pg : parse_grammar.
  Hypothesis Hpg : pg_ok pg.
  Variable input : str.
  Variable start : term.

  Notation prods := (pg_prods pg).
  Notation TInv := (TInv pg input start).
  Notation Inv := (Inv pg input start).
  Notation iview := (iview pg).
  Notation at_pos := (at_pos input).

  (** The ghost list is determined by the state. *)
  Lemma TInv_unique tr gh gh' : TInv tr gh -> TInv tr gh' -> gh = gh'.
  Proof.
    intros H H'. assert (Hl : length gh = length gh') by (rewrite <- (ti_len _ _ _ _ _ H); apply (ti_len _ _ _ _ _ H')).
    assert (Hi : forall i x x', nth_error gh i = Some x -> nth_error gh' i = Some x' -> x = x').
    { intro i. induction i as [i IH] using lt_wf_ind. intros x x' Hx Hx'.
      destruct (TInv_arena _ _ _ _ _ _ _ H Hx) as (t & Et & R). pose proof (ti_rel _ _ _ _ _ H' _ _ _ Et Hx') as R'.
      pose proof (tr_pid _ _ _ _ _ _ _ R) as P. rewrite (tr_pid _ _ _ _ _ _ _ R') in P.
      pose proof (tr_range _ _ _ _ _ _ _ R) as Q. rewrite (tr_range _ _ _ _ _ _ _ R') in Q. injection Q as Q _.
      pose proof (tr_from _ _ _ _ _ _ _ R) as F. pose proof (tr_from _ _ _ _ _ _ _ R') as F'. unfold from_ok in F, F'.
      destruct (t_from t) as [[m par]|].
      - destruct F as (Hlt & z & k & Hz & -> & Hk). destruct F' as (_ & z' & k' & Hz' & -> & Hk').
        rewrite (IH par Hlt z z' Hz Hz'). f_equal. destruct m as [s|c]; [congruence|].
        destruct Hk as (Hc & y & Hy & -> & _). destruct Hk' as (_ & y' & Hy' & -> & _). rewrite (IH c Hc y y' Hy Hy'). reflexivity.
      - destruct x, x'. cbn in *. congruence. }
    clear H H'. revert gh' Hl Hi. induction gh as [|x gh IH]; intros [|x' gh'] Hl Hi; try discriminate; [reflexivity|].
    f_equal; [exact (Hi 0 _ _ eq_refl eq_refl)|]. apply IH; [injection Hl; auto|]. intros i. exact (Hi (S i)).
  Qed.

  (** Roots are created by prediction. *)
  Lemma predict_all_roots range starting pids : forall tr q tr' q', predict_all pg range starting pids tr q = Ok (tr', q') ->
    forall i t, nth_error (tt_arena tr') i = Some t -> nth_error (tt_arena tr) i = Some t \/ (In (t_pid t) pids /\ t_range t = range_after range).
  Proof.
    induction pids as [|pid pids IH]; intros tr q tr' q' H i t Ht; cbn [predict_all] in H; [injection H as <- <-; auto|].
    destruct (get_production_by_id pg pid) as [pr| |]; cbn [rbind] in H; try discriminate.
    destruct (tt_predict tr range pid (snd pr) starting) as [id tr1] eqn:E.
    destruct (IH _ _ _ _ H _ _ Ht) as [H1|[H1 H2]]; [|right; split; [right; exact H1|exact H2]].
    unfold tt_predict in E. destruct (hm_get troot_eqb (tt_roots tr) (pid, total_len range)); injection E as <- <-; [auto|].
    cbn [tt_arena] in H1. apply nth_error_snoc in H1. destruct H1 as [H1|[_ ->]]; [auto|]. right. cbn. auto.
  Qed.
  Lemma match_all_roots l : forall tr q tr' q', match_all l tr q = Ok (tr', q') ->
    forall i t, nth_error (tt_arena tr') i = Some t -> t_from t = None -> nth_error (tt_arena tr) i = Some t.
  Proof.
    induction l as [|[par m] l IH]; intros tr q tr' q' H i t Ht Hf; cbn [match_all] in H; [injection H as <- <-; exact Ht|].
    destruct (tt_match_term tr par m) as [[id tr1]| |] eqn:E; cbn [rbind] in H; try discriminate.
    pose proof (IH _ _ _ _ H _ _ Ht Hf) as H1. unfold tt_match_term in E.
    destruct (nth_error (tt_arena tr) par) as [pt|] eqn:Ep; cbn [expect rbind] in E; try discriminate.
    match type of E with rbind ?x _ = _ => destruct x as [r| |] eqn:Er end; cbn [rbind] in E; try discriminate.
    match type of E with rbind ?x _ = _ => destruct x as [un| |] eqn:Eu end; cbn [rbind] in E; try discriminate.
    destruct (hm_get tedge_eqb (tt_edges tr) (m, t_id pt)); injection E as <- <-; [exact H1|].
    cbn [tt_arena] in H1. apply nth_error_snoc in H1. destruct H1 as [H1|[_ ->]]; [exact H1|discriminate].
  Qed.
  Lemma process_roots tr q cm d found st' : process pg tr q cm d = Ok (found, st') ->
    forall i t, nth_error (tt_arena (s_tree st')) i = Some t -> t_from t = None -> nth_error (tt_arena tr) i = Some t \/
      exists td n, nth_error (tt_arena tr) d = Some td /\ next_unmatched td = Some (Nonterminal n) /\
        In (t_pid t) (get_productions_by_lhs pg (Nonterminal n)) /\ t_range t = range_after (t_range td).
  Proof.
    intros H i t Ht Hf. unfold process, tt_get in H. destruct (nth_error (tt_arena tr) d) as [td|] eqn:Ed; cbn [expect rbind] in H; try discriminate.
    destruct (next_unmatched td) as [[s|n]|] eqn:En.
    - destruct (starts_with (range_next (t_range td)) s); [|injection H as <- <-; auto].
      destruct (match_all [(d, MTerminal s)] tr q) as [[tr1 q1]| |] eqn:Em; cbn [rbind] in H; try discriminate. injection H as <- <-.
      left. exact (match_all_roots _ _ _ _ _ Em _ _ Ht Hf).
    - destruct (get_production_by_id pg (t_pid td)) as [pr| |]; cbn [rbind] in H; try discriminate.
      match type of H with rbind ?x _ = _ => destruct x as [[tr1 q1]| |] eqn:Ep end; cbn [rbind] in H; try discriminate.
      match type of H with rbind ?x _ = _ => destruct x as [[tr2 q2]| |] eqn:Em end; cbn [rbind] in H; try discriminate.
      injection H as <- <-. pose proof (match_all_roots _ _ _ _ _ Em _ _ Ht Hf) as H1.
      destruct (predict_all_roots _ _ _ _ _ _ _ Ep _ _ H1) as [H2|[H2 H3]]; [auto|]. right. eauto 6.
    - destruct (get_production_by_id pg (t_pid td)) as [pr| |]; cbn [rbind] in H; try discriminate.
      match type of H with rbind ?x _ = _ => destruct x as [[tr2 q2]| |] eqn:Em end; cbn [rbind] in H; try discriminate.
      injection H as <- <-. left. exact (match_all_roots _ _ _ _ _ Em _ _ Ht Hf).
  Qed.

  (** [made gh q x]: while item number [q] was processed, [x] was created. *)
  Definition made (gh : list item) (q : nat) (x : item) : Prop :=
    (exists z l n r pid e, nth_error gh q = Some z /\ iview z l (Nonterminal n :: r) /\ nth_error prods pid = Some (Nonterminal n, e) /\
       x = mkItem pid (i_end z) []) \/
    (exists z l s r, nth_error gh q = Some z /\ iview z l (Terminal s :: r) /\ at_pos (i_end z) s /\ x = i_snoc z (Leaf s)) \/
    (exists p m z y l n r, nth_error gh p = Some z /\ nth_error gh m = Some y /\ q = Nat.max p m /\ iview z l (Nonterminal n :: r) /\
       iview y (Nonterminal n) [] /\ i_start y = i_end z /\ x = i_snoc z (Sub (i_tree y))).

  Record MInv (gh : list item) (d : nat) (mk : list nat) : Prop := {
    m_len : length mk = length gh;
    m_sorted : forall i j a b, i < j -> nth_error mk i = Some a -> nth_error mk j = Some b -> a <= b;
    m_le : forall i a, nth_error mk i = Some a -> a <= d;
    m_start : forall i pid rhs, nth_error gh i = Some (mkItem pid 0 []) -> nth_error prods pid = Some (start, rhs) -> nth_error mk i = Some 0;
    m_root : forall p z l n r pid e i, p < d -> nth_error gh p = Some z -> iview z l (Nonterminal n :: r) ->
      nth_error prods pid = Some (Nonterminal n, e) -> nth_error gh i = Some (mkItem pid (i_end z) []) ->
      forall a, nth_error mk i = Some a -> a <= S p;
    m_made : forall i x a, nth_error gh i = Some x -> nth_error mk i = Some a ->
      (a = 0 /\ exists pid rhs, x = mkItem pid 0 [] /\ nth_error prods pid = Some (start, rhs)) \/ exists q, a = S q /\ made gh q x
  }.

  Lemma made_ext gh new q x : made gh q x -> made (gh ++ new) q x.
  Proof.
    intros [(z & l & n & r & pid & e & H1 & H2)|[(z & l & s & r & H1 & H2)|(p & m & z & y & l & n & r & H1 & H2 & H3)]].
    - left. exists z, l, n, r, pid, e. split; [apply nth_error_ext; exact H1|exact H2].
    - right; left. exists z, l, s, r. split; [apply nth_error_ext; exact H1|exact H2].
    - right; right. exists p, m, z, y, l, n, r. split; [apply nth_error_ext; exact H1|]. split; [apply nth_error_ext; exact H2|exact H3].
  Qed.

  Lemma iview_snoc_inv z k l r : iview (i_snoc z k) l r -> exists t, iview z l (t :: r) /\ dkids pg [t] [k].
  Proof.
    intros (pre & Hp & Hk). cbn [i_snoc i_pid i_kids] in *. apply dkids_length in Hk as Hlen. rewrite app_length in Hlen. cbn [length] in Hlen.
    assert (Hne : pre <> []) by (intros ->; cbn in Hlen; lia). destruct (exists_last Hne) as (e1 & x & ->).
    apply dkids_app_inv in Hk. destruct Hk as (k1 & k2 & E & D1 & D2). pose proof (dkids_length _ _ _ D2) as L2. cbn in L2.
    destruct k2 as [|k2 [|]]; try discriminate. apply app_inj_tail in E. destruct E as [<- <-]. exists x. split; [|exact D2].
    exists e1. rewrite <- app_assoc in Hp. auto.
  Qed.

  Lemma process_made st gh d rest found st' new mk : Inv st gh d -> OInv st d -> d < length gh ->
    process pg (s_tree st) (mkQ (q_processed (s_queue st)) rest) (s_comp st) d = Ok (found, st') ->
    Inv st' (gh ++ new) (S d) -> MInv gh d mk -> MInv (gh ++ new) (S d) (mk ++ repeat (S d) (length new)).
  Proof.
    intros HI HO Hd Hpr HI' HM. pose proof (process_ord pg input start _ _ _ _ _ _ HI HO Hpr) as HO'.
    pose proof (inv_t _ _ _ _ _ _ HI) as HT. pose proof (inv_t _ _ _ _ _ _ HI') as HT'.
    pose proof (ti_nodup _ _ _ _ _ HT') as Hnd. pose proof (m_len _ _ _ HM) as Hlen.
    assert (Hmk : forall i a, nth_error (mk ++ repeat (S d) (length new)) i = Some a -> (i < length gh /\ nth_error mk i = Some a) \/ (length gh <= i /\ a = S d)).
    { intros i a H. destruct (lt_dec i (length mk)) as [Hi|Hi].
      - rewrite nth_error_app1 in H by exact Hi. left. split; [lia|exact H].
      - rewrite nth_error_app2 in H by lia. right. split; [lia|]. apply nth_error_In in H. apply repeat_spec in H. exact H. }
    assert (Hgh : forall i x, i < length gh -> nth_error (gh ++ new) i = Some x -> nth_error gh i = Some x) by (intros i x Hi H; rewrite nth_error_app1 in H by exact Hi; exact H).
    constructor.
    - rewrite !app_length, repeat_length. lia.
    - intros i j a b Hij Ha Hb. apply Hmk in Ha, Hb. destruct Ha as [[Hi Ha]|[Hi ->]], Hb as [[Hj Hb]|[Hj ->]]; try lia.
      + exact (m_sorted _ _ _ HM i j a b Hij Ha Hb).
      + pose proof (m_le _ _ _ HM _ _ Ha). lia.
    - intros i a Ha. apply Hmk in Ha. destruct Ha as [[_ Ha]|[_ ->]]; [|lia]. pose proof (m_le _ _ _ HM _ _ Ha). lia.
    - intros i pid rhs Hi Hp. pose proof (inv_start _ _ _ _ _ _ HI _ _ Hp) as Hin. apply In_nth_error in Hin. destruct Hin as [j Hj].
      assert (i = j) by (eapply nth_error_NoDup; [exact Hnd|exact Hi|apply nth_error_ext; exact Hj]). subst j.
      apply nth_error_ext. exact (m_start _ _ _ HM _ _ _ Hj Hp).
    - intros p z l n r pid e i Hpd Hz Hv Hp Hi a Ha. apply Hmk in Ha. destruct Ha as [[Hil Ha]|[Hil ->]].
      + destruct (Nat.eq_dec p d) as [->|Hne]; [pose proof (m_le _ _ _ HM _ _ Ha); lia|].
        refine (m_root _ _ _ HM p z l n r pid e i _ _ Hv Hp (Hgh _ _ Hil Hi) a Ha); [lia|]. apply Hgh; [lia|exact Hz].
      + destruct (Nat.eq_dec p d) as [->|Hne]; [lia|exfalso].
        assert (Hp' : p < d) by lia. assert (Hz' : nth_error gh p = Some z) by (apply Hgh; [lia|exact Hz]).
        pose proof (inv_pred _ _ _ _ _ _ HI p z l n r pid e Hp' Hz' Hv Hp) as Hin. apply In_nth_error in Hin. destruct Hin as [j Hj].
        assert (i = j) by (eapply nth_error_NoDup; [exact Hnd|exact Hi|apply nth_error_ext; exact Hj]). subst j. apply nth_error_lt in Hj. lia.
    - intros i x a Hx Ha. apply Hmk in Ha. destruct Ha as [[Hil Ha]|[Hil ->]].
      + destruct (m_made _ _ _ HM i x a (Hgh _ _ Hil Hx) Ha) as [H|(q & -> & H)]; [left; exact H|right]. exists q. split; [reflexivity|]. apply made_ext. exact H.
      + right. exists d. split; [reflexivity|].
        assert (Hnew : ~ In x gh).
        { intro Hin. apply In_nth_error in Hin. destruct Hin as [j Hj].
          assert (i = j) by (eapply nth_error_NoDup; [exact Hnd|exact Hx|apply nth_error_ext; exact Hj]). subst j. apply nth_error_lt in Hj. lia. }
        destruct (TInv_arena _ _ _ _ _ _ _ HT' Hx) as (t & Et & R). pose proof (tr_from _ _ _ _ _ _ _ R) as F. unfold from_ok in F.
        destruct (t_from t) as [[m par]|] eqn:Ef.
        * pose proof (proj2 (proj2 HO') _ _ _ Et Ef) as Hkey. unfold mkey in Hkey. cbn [fst snd] in Hkey.
          destruct F as (Hlt & z & k & Hz & Hxz & Hk). destruct (tr_view _ _ _ _ _ _ _ R) as (l & Hview & _). rewrite Hxz in Hview.
          destruct (iview_snoc_inv _ _ _ _ Hview) as (t0 & Hvz & D). destruct m as [s|c].
          -- subst k. inversion D as [|s' r' ks' _|]; subst. cbn [fst] in Hkey.
             assert (Hat : at_pos (i_end z) s).
             { pose proof (tr_pos _ _ _ _ _ _ _ R) as Hpos. cbn [i_snoc i_start i_kids] in Hpos. rewrite yields_snoc in Hpos. apply at_pos_split in Hpos. exact (proj2 Hpos). }
             assert (par = d).
             { destruct (Nat.eq_dec par d) as [E|Hne]; [exact E|exfalso]. apply Hnew.
               eapply (inv_scan _ _ _ _ _ _ HI par z l s); [lia|apply Hgh; [lia|exact Hz]|exact Hvz|exact Hat]. }
             subst par. right; left. exists z, l, s, (t_unmatched t). auto.
          -- destruct Hk as (Hc & y & Hy & -> & Hsy). inversion D as [| |n pid rhs kids r' ks' Hpid Hdv _]; subst. cbn in Hkey.
             assert (Hvy : iview y (Nonterminal n) []).
             { inversion Hdv as [? l' rhs' ? Hpid' Hk']; subst. rewrite Hpid in Hpid'. injection Hpid' as <- <-. exists rhs. rewrite app_nil_r. auto. }
             assert (Hmax : Nat.max par c = d).
             { destruct (Nat.eq_dec (Nat.max par c) d) as [E|Hne]; [exact E|exfalso]. apply Hnew.
               eapply (inv_compl _ _ _ _ _ _ HI par z l n _ c y); [lia|lia|apply Hgh; [lia|exact Hz]|exact Hvz|apply Hgh; [lia|exact Hy]|exact Hvy|exact Hsy]. }
             right; right. exists par, c, z, y, l, n, (t_unmatched t). auto 10.
        * destruct (process_roots _ _ _ _ _ _ Hpr i t Et Ef) as [Hold|(td & n & Etd & Hun & Hpid & Hr)].
          -- exfalso. apply nth_error_lt in Hold. rewrite (ti_len _ _ _ _ _ HT) in Hold. lia.
          -- left. destruct (nth_error gh d) as [z|] eqn:Ez; [|apply nth_error_None in Ez; lia].
             pose proof (ti_rel _ _ _ _ _ HT _ _ _ Etd Ez) as Rz. destruct (tr_view _ _ _ _ _ _ _ Rz) as (l & Hv & _).
             unfold next_unmatched in Hun. destruct (t_unmatched td) as [|u r]; [discriminate|]. injection Hun as ->.
             apply Hpg in Hpid. destruct Hpid as [e Hpid]. exists z, l, n, r, (t_pid t), e.
             split; [apply nth_error_ext; exact Ez|]. split; [exact Hv|]. split; [exact Hpid|].
             rewrite (tr_range _ _ _ _ _ _ _ R), (tr_range _ _ _ _ _ _ _ Rz) in Hr. unfold range_after in Hr. cbn in Hr. injection Hr as Hr _.
             destruct x as [xp xs xk]. cbn [i_kids i_start] in *. rewrite (tr_pid _ _ _ _ _ _ _ R). cbn [i_pid]. subst xk. f_equal. exact Hr.
  Qed.

  Lemma earley_made fuel : forall st gh d mk found st', Inv st gh d -> OInv st d -> MInv gh d mk -> earley fuel pg st = Ok (found, st') ->
    exists gh' d' mk', Inv st' gh' d' /\ OInv st' d' /\ MInv gh' d' mk'.
  Proof.
    induction fuel as [|fuel IH]; intros st gh d mk found st' HI HO HM H; cbn [earley] in H; [discriminate|].
    destruct (q_queue (s_queue st)) as [|id rest] eqn:Eq; [injection H as <- <-; eauto 6|].
    destruct (process_inv pg Hpg input start st gh d id rest HI Eq) as (-> & it & Hit & fnd & st1 & new1 & E & HI1 & Hf).
    rewrite E, rbind_Ok in H. pose proof (process_ord _ _ _ _ _ _ _ _ _ HI HO E) as HO1.
    pose proof (process_made _ _ _ _ _ _ _ _ HI HO (nth_error_lt _ _ _ Hit) E HI1 HM) as HM1.
    destruct fnd as [id|]; [injection H as <- <-; eauto 6|]. exact (IH _ _ _ _ _ _ HI1 HO1 HM1 H).
  Qed.

  Lemma init_made tr q gh : predict_all pg (range_new input) true (get_productions_by_lhs pg start) (mkTT [] [] []) (mkQ [] []) = Ok (tr, q) ->
    TInv tr gh -> MInv gh 0 (repeat 0 (length gh)).
  Proof.
    intros E HT. assert (Hmk : forall i a, nth_error (repeat 0 (length gh)) i = Some a -> a = 0) by (intros i a H; apply nth_error_In in H; apply repeat_spec in H; exact H).
    constructor.
    - apply repeat_length.
    - intros i j a b _ Ha Hb. rewrite (Hmk _ _ Ha), (Hmk _ _ Hb). lia.
    - intros i a Ha. rewrite (Hmk _ _ Ha). lia.
    - intros i pid rhs Hi _. destruct (nth_error (repeat 0 (length gh)) i) as [a|] eqn:Ea; [rewrite (Hmk _ _ Ea); reflexivity|].
      apply nth_error_None in Ea. rewrite repeat_length in Ea. apply nth_error_lt in Hi. lia.
    - intros; lia.
    - intros i x a Hx Ha. left. split; [exact (Hmk _ _ Ha)|]. destruct (TInv_arena _ _ _ _ _ _ _ HT Hx) as (t & Et & R).
      destruct (predict_all_roots _ _ _ _ _ _ _ E _ _ Et) as [H|[H1 H2]]; [destruct i; discriminate|].
      assert (Hf : t_from t = None).
      { destruct (t_from t) as [e|] eqn:Ef; [exfalso|reflexivity]. 
        destruct (predict_all_ord _ _ _ _ _ _ _ _ E) as (_ & _ & Hb); [intros i' t' H; destruct i'; discriminate|intros i' j' t1 t2 e1 e2 _ H; destruct i'; discriminate|].
        refine (Hb (fun _ => False) _ i t e Et Ef). intros i' t' e' H. destruct i'; discriminate. }
      apply Hpg in H1. destruct H1 as [rhs H1]. exists (t_pid t), rhs. split; [|exact H1].
      pose proof (tr_from _ _ _ _ _ _ _ R) as F. unfold from_ok in F. rewrite Hf in F. rewrite (tr_range _ _ _ _ _ _ _ R) in H2. cbn in H2. injection H2 as H2 _.
      rewrite (tr_pid _ _ _ _ _ _ _ R). destruct x as [xp xs xk]. cbn [i_pid i_start i_kids] in *. congruence.
  Qed.

  (** ** Rounds of items *)

  Inductive dround : nat -> item -> Prop :=
  | dr_start pid rhs : nth_error prods pid = Some (start, rhs) -> dround 0 (mkItem pid 0 [])
  | dr_predict k z l n r pid e : dround k z -> iview z l (Nonterminal n :: r) -> nth_error prods pid = Some (Nonterminal n, e) ->
      dround (S k) (mkItem pid (i_end z) [])
  | dr_scan k z l s r : dround k z -> iview z l (Terminal s :: r) -> at_pos (i_end z) s -> dround (S k) (i_snoc z (Leaf s))
  | dr_complete k z y l n r : dround k z -> dround k y -> iview z l (Nonterminal n :: r) -> iview y (Nonterminal n) [] ->
      i_start y = i_end z -> dround (S k) (i_snoc z (Sub (i_tree y)))
  | dr_keep k z : dround k z -> dround (S k) z.

  Section State.
    Variables (st : pstate) (gh : list item) (d : nat) (mk : list nat).
    Hypothesis HI : Inv st gh d.
    Hypothesis HM : MInv gh d mk.
    Let HT := inv_t _ _ _ _ _ _ HI.

    Lemma mk_at i x : nth_error gh i = Some x -> exists a, nth_error mk i = Some a.
    Proof.
      intro H. destruct (nth_error mk i) as [a|] eqn:E; [eauto|]. apply nth_error_None in E. rewrite (m_len _ _ _ HM) in E. apply nth_error_lt in H. lia.
    Qed.
    Lemma gh_at x i j : nth_error gh i = Some x -> nth_error gh j = Some x -> i = j.
    Proof. intros Hi Hj. exact (nth_error_NoDup _ _ _ _ (ti_nodup _ _ _ _ _ HT) Hi Hj). Qed.

    (** What was created by an earlier step has a smaller index. *)
    Lemma made_lt i j a b : nth_error mk i = Some a -> nth_error mk j = Some b -> a < b -> i < j.
    Proof.
      intros Ha Hb Hab. destruct (lt_eq_lt_dec i j) as [[H|H]|H]; [exact H| |].
      - subst j. rewrite Ha in Hb. injection Hb as ->. lia.
      - pose proof (m_sorted _ _ _ HM _ _ _ _ H Hb Ha). lia.
    Qed.
    (** Whoever matches a child of an item is the only one. *)
    Lemma made_snoc z k i a p : nth_error gh i = Some (i_snoc z k) -> nth_error mk i = Some a -> nth_error gh p = Some z ->
      exists q, a = S q /\ ((exists l s r, k = Leaf s /\ q = p /\ iview z l (Terminal s :: r)) \/
        (exists m y, k = Sub (i_tree y) /\ nth_error gh m = Some y /\ i_start y = i_end z /\ q = Nat.max p m)).
    Proof.
      intros Hi Ha Hp. assert (Hne : forall pid pos, i_snoc z k <> mkItem pid pos []).
      { intros pid pos E. apply (f_equal i_kids) in E. cbn in E. destruct (i_kids z); discriminate. }
      assert (Hinj : forall z' k', i_snoc z k = i_snoc z' k' -> z = z' /\ k = k').
      { intros z' k' E. pose proof (f_equal i_pid E) as E1. pose proof (f_equal i_start E) as E2. pose proof (f_equal i_kids E) as E3.
        cbn in E1, E2, E3. apply app_inj_tail in E3. destruct E3 as [E3 E4]. split; [|exact E4]. destruct z, z'. cbn in *. congruence. }
      destruct (m_made _ _ _ HM _ _ _ Hi Ha) as [(_ & pid & rhs & E & _)|(q & -> & Hq)]; [destruct (Hne _ _ E)|]. exists q. split; [reflexivity|].
      destruct Hq as [(z' & l & n & r & pid & e & _ & _ & _ & E)|[(z' & l & s & r & Hz' & Hv & _ & E)|(p' & m & z' & y & l & n & r & Hz' & Hy & -> & Hv & Hvy & Hs & E)]].
      - destruct (Hne _ _ E).
      - apply Hinj in E. destruct E as [<- ->]. left. exists l, s, r. split; [reflexivity|]. split; [exact (gh_at _ _ _ Hz' Hp)|exact Hv].
      - apply Hinj in E. destruct E as [<- ->]. right. exists m, y. split; [reflexivity|]. split; [exact Hy|]. split; [exact Hs|].
        rewrite (gh_at _ _ _ Hz' Hp). reflexivity.
    Qed.

    (** An item that is not yet found in round [S k] was created when what is found in round [k] had been processed. *)
    Lemma later k (Q : nat -> Prop) : (forall q q', q <= q' -> Q q -> Q q') ->
      (forall q y, nth_error gh q = Some y -> Q q \/ dround k y) ->
      forall j y, nth_error gh j = Some y -> (exists b, nth_error mk j = Some (S b) /\ Q b) \/ dround (S k) y.
    Proof.
      intros Hmono HQ j y Hy. destruct (mk_at _ _ Hy) as [a Ha].
      destruct (m_made _ _ _ HM _ _ _ Hy Ha) as [(-> & pid & rhs & -> & Hp)|(q & -> & Hq)].
      - right. clear -Hp. apply dr_keep. induction k; [econstructor; eassumption|apply dr_keep; assumption].
      - destruct Hq as [(z & l & n & r & pid & e & Hz & Hv & Hp & ->)|[(z & l & s & r & Hz & Hv & Hat & ->)|(p & m & z & c & l & n & r & Hz & Hc & -> & Hv & Hvc & Hs & ->)]].
        + destruct (HQ _ _ Hz) as [H|H]; [left; eauto|right; econstructor; eassumption].
        + destruct (HQ _ _ Hz) as [H|H]; [left; eauto|right; econstructor; eassumption].
        + destruct (HQ _ _ Hz) as [H|H]; [left; exists (Nat.max p m); split; [exact Ha|apply (Hmono p); [lia|exact H]]|].
          destruct (HQ _ _ Hc) as [H'|H']; [left; exists (Nat.max p m); split; [exact Ha|apply (Hmono m); [lia|exact H']]|].
          right; econstructor; eassumption.
    Qed.

    Lemma rounds_index k x : dround k x -> forall j y, nth_error gh j = Some y -> (exists i, i < j /\ nth_error gh i = Some x) \/ dround k y.
    Proof.
      intro Hx. induction Hx as [pid rhs Hp|k z l n r pid e Hz IH Hv Hp|k z l s r Hz IH Hv Hat|k z c l n r Hz IHz Hc IHc Hv Hvc Hs|k z Hz IH]; intros j y Hy.
      - (* a start root *)
        destruct (mk_at _ _ Hy) as [b Hb]. destruct (m_made _ _ _ HM _ _ _ Hy Hb) as [(-> & pid' & rhs' & -> & Hp')|(q & -> & _)].
        + right. econstructor; eassumption.
        + left. pose proof (inv_start _ _ _ _ _ _ HI _ _ Hp) as Hin. apply In_nth_error in Hin. destruct Hin as [i Hi]. exists i. split; [|exact Hi].
          pose proof (m_start _ _ _ HM _ _ _ Hi Hp) as Ha. apply (made_lt _ _ _ _ Ha Hb). lia.
      - destruct (later k (fun q => exists p, p < q /\ nth_error gh p = Some z)) with (j := j) (y := y) as [(b & Hb & p & Hpq & Hpz)|H]; auto.
        { intros q q' Hle (p & Hlt & H). exists p. split; [lia|exact H]. }
        left. pose proof (m_le _ _ _ HM _ _ Hb) as Hbd.
        assert (Hpd : p < d) by lia. pose proof (inv_pred _ _ _ _ _ _ HI p z l n r pid e Hpd Hpz Hv Hp) as Hin.
        apply In_nth_error in Hin. destruct Hin as [i Hi]. exists i. split; [|exact Hi]. destruct (mk_at _ _ Hi) as [a Ha].
        pose proof (m_root _ _ _ HM p z l n r pid e i Hpd Hpz Hv Hp Hi a Ha). apply (made_lt _ _ _ _ Ha Hb). lia.
      - destruct (later k (fun q => exists p, p < q /\ nth_error gh p = Some z)) with (j := j) (y := y) as [(b & Hb & p & Hpq & Hpz)|H]; auto.
        { intros q q' Hle (p & Hlt & H). exists p. split; [lia|exact H]. }
        left. pose proof (m_le _ _ _ HM _ _ Hb) as Hbd.
        assert (Hpd : p < d) by lia. pose proof (inv_scan _ _ _ _ _ _ HI p z l s r Hpd Hpz Hv Hat) as Hin.
        apply In_nth_error in Hin. destruct Hin as [i Hi]. exists i. split; [|exact Hi]. destruct (mk_at _ _ Hi) as [a Ha].
        destruct (made_snoc _ _ _ _ _ Hi Ha Hpz) as (q & -> & [(l' & s' & r' & _ & -> & _)|(m & c & E & _)]); [|discriminate].
        apply (made_lt _ _ _ _ Ha Hb). lia.
      - destruct (later k (fun q => (exists p, p < q /\ nth_error gh p = Some z) /\ (exists m, m < q /\ nth_error gh m = Some c))) with (j := j) (y := y)
          as [(b & Hb & (p & Hpq & Hpz) & (m & Hmq & Hmc))|H]; auto.
        { intros q q' Hle [(p & Hlt & H) (m & Hlt' & H')]. split; [exists p|exists m]; split; auto; lia. }
        { intros q y' Hy'. destruct (IHz _ _ Hy') as [H|H]; [|right; exact H]. destruct (IHc _ _ Hy') as [H'|H']; [left; auto|right; exact H']. }
        left. pose proof (m_le _ _ _ HM _ _ Hb) as Hbd.
        assert (Hpd : p < d) by lia. assert (Hmd : m < d) by lia.
        pose proof (inv_compl _ _ _ _ _ _ HI p z l n r m c Hpd Hmd Hpz Hv Hmc Hvc Hs) as Hin.
        apply In_nth_error in Hin. destruct Hin as [i Hi]. exists i. split; [|exact Hi]. destruct (mk_at _ _ Hi) as [a Ha].
        destruct (made_snoc _ _ _ _ _ Hi Ha Hpz) as (q & -> & [(l' & s' & r' & E & _)|(m' & c' & E & Hc' & Hs' & ->)]); [discriminate|].
        assert (c = c').
        { apply (f_equal (fun k => match k with Sub t => t | Leaf _ => i_tree c end)) in E. cbn in E. unfold i_tree in E.
          injection E as E1 E2. destruct c as [c1 c2 c3], c' as [d1 d2 d3]. cbn [i_pid i_start i_kids] in *. congruence. }
        subst c'. rewrite (gh_at _ _ _ Hc' Hmc) in Ha. apply (made_lt _ _ _ _ Ha Hb). lia.
      - destruct (IH _ _ Hy) as [H|H]; [left; exact H|right; apply dr_keep; exact H].
    Qed.
  End State.
End Round.

(** ** Runs *)

Section Runs.
  Variable pg : parse_grammar.
  Hypothesis Hpg : pg_ok pg.
  Variable input : str.
  Variable start : term.
  Variable prs : grammar_parser.
  Hypothesis Hp : gp_pg prs = pg.

  Lemma produces_made it ts it' : produces it ts it' -> it_parser it = prs -> forall gh d mk,
    Inv pg input start (it_state it) gh d -> OInv (it_state it) d -> MInv pg input start gh d mk ->
    exists gh' d' mk', Inv pg input start (it_state it') gh' d' /\ OInv (it_state it') d' /\ MInv pg input start gh' d' mk'.
  Proof.
    induction 1 as [it|it t it1 ts it2 fuel Hn Hprod IH]; intros Hpar gh d mk HI HO HM; [eauto 6|].
    destruct it as [p0 st]; cbn [it_parser it_state] in *. rewrite Hpar in Hn. clear p0 Hpar.
    unfold iter_next in Hn. cbn [it_parser it_state] in Hn. rewrite Hp in Hn.
    destruct (earley fuel pg st) as [[[id|] st1]| |] eqn:E; cbn [rbind] in Hn; try discriminate.
    match type of Hn with rbind ?x _ = _ => destruct x as [t1| |] end; cbn [rbind] in Hn; try discriminate.
    injection Hn as -> <-. destruct (earley_made pg Hpg input start fuel st gh d mk _ _ HI HO HM E) as (gh1 & d1 & mk1 & HI1 & HO1 & HM1).
    exact (IH eq_refl _ _ _ HI1 HO1 HM1).
  Qed.
End Runs.

Lemma run_made g start input it ts it' gh d : opens g start input it -> produces it ts it' ->
  let pg := pg_new_unchecked g in Inv pg input start (it_state it') gh d -> exists mk, MInv pg input start gh d mk.
Proof.
  intros Ho Hp pg HI. pose proof (opens_inv _ _ _ _ Ho) as (st0 & _ & Hn). pose proof (iter_new_ord _ _ _ _ _ Hn) as HO.
  destruct (iter_new_ok g st0 input start) as (st & E & gh0 & HI0). rewrite E in Hn. injection Hn as <-. cbn [it_state] in *. fold pg in HI0, Hp, E.
  assert (HM : MInv pg input start gh0 0 (repeat 0 (length gh0))).
  { unfold iter_new in E. cbn [gp_pg] in E. match type of E with rbind ?x _ = _ => destruct x as [[tr q]| |] eqn:Ep end; cbn [rbind] in E; try discriminate.
    injection E as <-. refine (init_made pg (proj1 (pg_new_unchecked_ok g)) input start tr q gh0 Ep _). exact (inv_t _ _ _ _ _ _ HI0). }
  destruct (produces_made pg (proj1 (pg_new_unchecked_ok g)) input start (mkGP st0 pg) eq_refl _ _ _ Hp eq_refl _ _ _ HI0 HO HM) as (gh' & d' & mk' & HI' & _ & HM').
  assert (d = d') by exact (Inv_d _ _ _ _ _ _ _ _ HI HI').
  assert (gh = gh') by exact (TInv_unique _ _ _ _ _ _ (inv_t _ _ _ _ _ _ HI) (inv_t _ _ _ _ _ _ HI')). subst. eauto.
Qed.

(** ** Rounds of trees and rounds of items *)

Section Erase.
  Variable g : grammar.
  Let pg := pg_new_unchecked g.
  Variable input : str.
  Variable start : term.
  Notation round := (round g start input).
  Notation dround := (dround pg input start).
  Notation iview := (iview pg).
  Let prods_eq : pg_prods pg = flat_prods g := proj2 (pg_new_unchecked_ok g).

  Lemma prod_In l e : (exists pid, nth_error (pg_prods pg) pid = Some (l, e)) <-> exists p, In p g /\ p_lhs p = l /\ In e (p_rhs p).
  Proof.
    rewrite prods_eq. rewrite <- flat_prods_In. split; [intros [pid H]; eapply nth_error_In; exact H|apply In_nth_error].
  Qed.

  Lemma iview_nil_root pid pos l e : iview (mkItem pid pos []) l e -> nth_error (pg_prods pg) pid = Some (l, e).
  Proof. intros (pre & Hp & Hk). cbn in *. inversion Hk; subst. exact Hp. Qed.

  Lemma at_pos_text w w' a b : input = w ++ a -> input = w' ++ b -> byte_len w = byte_len w' -> w = w' /\ a = b.
  Proof. intros -> E Hl. exact (app_byte_len_inj _ _ _ _ E Hl). Qed.

  Lemma dround_round k x : dround k x -> forall l r, iview x l r ->
    exists w v, input = w ++ yields (i_kids x) ++ v /\ byte_len w = i_start x /\ round k w l (map (erase_node pg) (i_kids x)) r.
  Proof.
    induction 1 as [pid rhs Hp|k z l n r pid e Hz IH Hv Hp|k z l s r Hz IH Hv Hat|k z c l n r Hz IHz Hc IHc Hv Hvc Hs|k z Hz IH]; intros l0 r0 Hv0.
    - apply iview_nil_root in Hv0. rewrite Hp in Hv0. injection Hv0 as <- <-. exists [], input. cbn. split; [reflexivity|]. split; [reflexivity|].
      destruct (proj1 (prod_In start rhs)) as (p & H1 & H2 & H3); [eauto|]. econstructor; eassumption.
    - apply iview_nil_root in Hv0. rewrite Hp in Hv0. injection Hv0 as <- <-. destruct (IH _ _ Hv) as (w & v & E & Hw & Hr).
      exists (w ++ yields (i_kids z)), v. cbn [i_kids i_start map yields flat_map app]. split; [rewrite E, <- app_assoc; reflexivity|].
      split; [rewrite byte_len_app, Hw; reflexivity|].
      destruct (proj1 (prod_In (Nonterminal n) e)) as (p & H1 & H2 & H3); [eauto|].
      rewrite <- (yields_erase g). fold pg. econstructor; eassumption.
    - destruct (iview_snoc_inv _ _ _ _ _ Hv0) as (t0 & Hv1 & D). destruct (iview_fun _ _ _ _ _ _ Hv Hv1) as [<- E0]. injection E0 as <- <-.
      destruct (IH _ _ Hv) as (w & v & E & Hw & Hr). destruct Hat as (a & b & Ea & Hla).
      destruct (at_pos_text (w ++ yields (i_kids z)) a v (s ++ b)) as [Ew Ev]; [rewrite E, <- app_assoc; reflexivity|exact Ea|rewrite byte_len_app, Hw, Hla; reflexivity|].
      exists w, b. cbn [i_snoc i_kids i_start]. rewrite yields_snoc, map_app. cbn [yield_node map erase_node].
      split; [rewrite E, Ev, <- !app_assoc; reflexivity|]. split; [exact Hw|]. eapply round_scan; [exact Hr|].
      change (flat_map yield_node (map (erase_node pg) (i_kids z))) with (yields (map (erase_node pg) (i_kids z))). unfold pg. rewrite yields_erase.
      rewrite E, Ev. reflexivity.
    - destruct (iview_snoc_inv _ _ _ _ _ Hv0) as (t0 & Hv1 & D). destruct (iview_fun _ _ _ _ _ _ Hv Hv1) as [<- E0]. injection E0 as <- <-.
      destruct (IHz _ _ Hv) as (w & v & E & Hw & Hr). destruct (IHc _ _ Hvc) as (w' & v' & E' & Hw' & Hr').
      destruct (at_pos_text (w ++ yields (i_kids z)) w' v (yields (i_kids c) ++ v')) as [Ew Ev]; [rewrite E, <- app_assoc; reflexivity|exact E'|rewrite byte_len_app, Hw, Hw', Hs; reflexivity|].
      exists w, v'. cbn [i_snoc i_kids i_start]. rewrite yields_snoc, map_app. cbn [yield_node]. change (map (erase_node pg) [Sub (i_tree c)]) with [Sub (erase pg (i_tree c))].
      assert (El : lhs_of pg (i_pid c) = Nonterminal n) by (destruct Hvc as (pre & Hpc & _); unfold lhs_of; rewrite Hpc; reflexivity).
      split; [rewrite E, Ev; unfold i_tree; cbn [yield]; rewrite <- !app_assoc; reflexivity|]. split; [exact Hw|].
      unfold i_tree. rewrite erase_Node, El. eapply round_complete; [exact Hr|]. subst w'.
      change (flat_map yield_node (map (erase_node pg) (i_kids z))) with (yields (map (erase_node pg) (i_kids z))). unfold pg. rewrite yields_erase. exact Hr'.
    - destruct (IH _ _ Hv0) as (w & v & E & Hw & Hr). exists w, v. split; [exact E|]. split; [exact Hw|]. apply round_keep. exact Hr.
  Qed.

  Lemma round_dround k w l ks r : round k w l ks r -> exists x v, dround k x /\ iview x l r /\ map (erase_node pg) (i_kids x) = ks /\
    i_start x = byte_len w /\ input = w ++ yields ks ++ v.
  Proof.
    induction 1 as [p e Hp Hl He|k w l ks n r p e Hr IH Hp Hl He|k w l ks s r v Hr IH E|k w l ks n r ks' Hr IH Hr' IH'|k w l ks r Hr IH].
    - destruct (proj2 (prod_In start e)) as [pid Hpid]; [eauto|]. exists (mkItem pid 0 []), input. split; [econstructor; exact Hpid|].
      split; [exists []; split; [exact Hpid|constructor]|]. auto.
    - destruct (proj2 (prod_In (Nonterminal n) e)) as [pid Hpid]; [eauto|]. destruct IH as (x & v & Hx & Hv & Ek & Es & E).
      exists (mkItem pid (i_end x) []), v. split; [econstructor; eassumption|]. split; [exists []; split; [exact Hpid|constructor]|].
      split; [reflexivity|]. split; [|rewrite E, <- app_assoc; reflexivity]. cbn [i_start]. unfold i_end. rewrite Es, <- Ek.
      change (flat_map yield_node (map (erase_node pg) (i_kids x))) with (yields (map (erase_node pg) (i_kids x))). unfold pg. rewrite yields_erase, byte_len_app. reflexivity.
    - destruct IH as (x & v0 & Hx & Hv & Ek & Es & E0). exists (i_snoc x (Leaf s)), v.
      assert (Hat : at_pos input (i_end x) s).
      { exists (w ++ yields ks), v. split; [rewrite E at 1; rewrite <- app_assoc; reflexivity|]. unfold i_end. rewrite byte_len_app, Es, <- Ek.
        unfold pg. rewrite yields_erase. reflexivity. }
      split; [econstructor; eassumption|]. split.
      { destruct Hv as (pre & Hpid & Hk). exists (pre ++ [Terminal s]). cbn [i_snoc i_pid i_kids]. rewrite <- app_assoc. split; [exact Hpid|].
        apply dkids_app; [exact Hk|]. constructor. constructor. }
      cbn [i_snoc i_kids i_start]. rewrite map_app, Ek. split; [reflexivity|]. split; [exact Es|]. unfold yields. rewrite flat_map_app. cbn [flat_map yield_node]. rewrite app_nil_r, <- !app_assoc. exact E.
    - destruct IH as (x & v0 & Hx & Hv & Ek & Es & E0). destruct IH' as (y & v1 & Hy & Hvy & Ek' & Es' & E1). exists (i_snoc x (Sub (i_tree y))), v1.
      assert (Hse : i_start y = i_end x).
      { rewrite Es', byte_len_app. unfold i_end. rewrite Es, <- Ek.
        change (flat_map yield_node (map (erase_node pg) (i_kids x))) with (yields (map (erase_node pg) (i_kids x))). unfold pg. rewrite yields_erase. reflexivity. }
      split; [econstructor; eassumption|]. destruct Hvy as (pre' & Hpid' & Hk').
      split.
      { destruct Hv as (pre & Hpid & Hk). exists (pre ++ [Nonterminal n]). cbn [i_snoc i_pid i_kids]. rewrite <- app_assoc. split; [exact Hpid|].
        apply dkids_app; [exact Hk|]. rewrite app_nil_r in Hpid'. unfold i_tree. econstructor; [exact Hpid'| |constructor].
        econstructor; [exact Hpid'|exact Hk']. }
      cbn [i_snoc i_kids i_start]. rewrite map_app, Ek. replace (map (erase_node pg) [Sub (i_tree y)]) with [Sub (Node (lhs_of pg (i_pid y)) (map (erase_node pg) (i_kids y)))] by reflexivity. unfold i_tree. unfold lhs_of. rewrite Hpid', Ek'. cbn [fst].
      split; [reflexivity|]. split; [exact Es|]. unfold yields. rewrite flat_map_app. cbn [flat_map yield_node yield]. rewrite app_nil_r, E1, <- !app_assoc. reflexivity.
    - destruct IH as (x & v & Hx & Hv & Ek & Es & E). exists x, v. split; [apply dr_keep; exact Hx|]. auto.
  Qed.
End Erase.

(** ** The order *)

Lemma round_le g start input k k' w l ks r : k <= k' -> round g start input k w l ks r -> round g start input k' w l ks r.
Proof. intro H. induction H; intro Hr; [exact Hr|]. apply round_keep. auto. Qed.

Lemma found_le g start input k k' w t : k <= k' -> found g start input k w t -> found g start input k' w t.
Proof. intros H. destruct t as [l ks]. apply round_le. exact H. Qed.

Lemma exchange_text u v w t t' : exchange u v w t t' -> exists r, yield t = w ++ yield u ++ r.
Proof.
  induction 1 as [|l a t t' b w H [r IH]]; [exists []; rewrite app_nil_r; reflexivity|].
  exists (r ++ flat_map yield_node b). cbn [yield]. rewrite flat_map_app. cbn [flat_map yield_node]. rewrite IH, <- !app_assoc. reflexivity.
Qed.

Lemma found_dround g start input k w t : found g start input k w t -> exists dt, dround (pg_new_unchecked g) input start k (whole dt (byte_len w)) /\
  dvalid (pg_new_unchecked g) dt /\ erase (pg_new_unchecked g) dt = t.
Proof.
  intro H. destruct t as [l ks]. cbn in H. destruct (round_dround _ _ _ _ _ _ _ _ H) as (x & v & Hx & (pre & Hp & Hk) & Ek & Es & _).
  rewrite app_nil_r in Hp. exists (i_tree x). rewrite <- Es, whole_item. split; [exact Hx|]. split; [econstructor; eassumption|].
  unfold i_tree. rewrite erase_Node, Ek. unfold lhs_of. rewrite Hp. reflexivity.
Qed.

Lemma dround_found g start input k w dt r : dround (pg_new_unchecked g) input start k (whole dt (byte_len w)) -> dvalid (pg_new_unchecked g) dt ->
  input = w ++ r -> found g start input k w (erase (pg_new_unchecked g) dt).
Proof.
  intros H Hv E. destruct dt as [pid ks]. inversion Hv as [? l rhs ? Hp Hk]; subst. cbn [whole] in H.
  destruct (dround_round _ _ _ _ _ H l []) as (w' & v & E' & Hw & Hr); [exists rhs; rewrite app_nil_r; auto|]. cbn [i_start i_kids whole] in *.
  destruct (at_pos_text (w ++ r) w w' r _ eq_refl E' (eq_sym Hw)) as [<- _].
  rewrite erase_Node. unfold lhs_of. rewrite Hp. exact Hr.
Qed.

Lemma exchange_rounds g start input it k u v w t t' : opens g start input it -> parses g start input t -> exchange u v w t t' ->
  root u = root v -> yield u = yield v -> found g start input k w v -> ~ found g start input k w u -> earlier it t' t.
Proof.
  intros Ho Ht Hx Hr Hy Hfv Hfu.
  destruct (first_state _ _ _ _ _ Ho Ht) as (it3 & gh & d & c & x & ts1 & it1 & Hp & Hp3 & Hni & HI & HO & Hc & Hf & Et & Hall).
  destruct (run_made _ _ _ _ _ _ _ _ Ho Hp3 HI) as [mk HM].
  set (pg := pg_new_unchecked g) in *. pose proof (full_dvalid _ _ _ _ Hf) as (Hv & Hl & Hyt).
  destruct (exchange_lift pg _ _ _ _ _ Hx (i_tree x) (eq_sym Et)) as (du & Eu & Hsub & Hlift).
  destruct (found_dround _ _ _ _ _ _ Hfv) as (dv & Hdv & Vv & Ev). destruct (Hlift dv Ev) as (dt' & Hdx & Et').
  pose proof (dvalid_subtree _ _ _ Hsub Hv) as Vu. destruct (exchange_text _ _ _ _ _ Hx) as [r Er].
  assert (Hsame : same pg du dv).
  { split; [exact Vv|]. split; [rewrite <- !root_erase, Eu; unfold pg; rewrite Ev; symmetry; exact Hr|].
    rewrite <- (yield_erase pg dv), <- (yield_erase pg du), Eu. unfold pg. rewrite Ev. symmetry. exact Hy. }
  rewrite (full_whole _ _ _ _ Hf) in Hc.
  destruct (exchange_index pg input start _ gh d HI HO du dv (byte_len w) Hsame) with (w := w) (t := i_tree x) (t' := dt') (q := 0) (c := c) as (c' & Hlt & Hc'); auto.
  { intros iu Hiu. destruct (rounds_index _ _ _ _ _ _ _ HI HM _ _ Hdv _ _ Hiu) as [H|H]; [exact H|]. exfalso. apply Hfu. rewrite <- Eu.
    refine (dround_found _ _ _ _ _ _ (yield u ++ r) H Vu _). rewrite <- Er. symmetry. apply Ht. }
  pose proof (dexch_same _ _ _ Hsame _ _ _ Hdx Hv) as (Hv' & Hl' & Hy').
  exists ts1, it1. split; [exact Hp|]. split; [|exact Hni]. rewrite <- Et', <- (whole_tree dt' 0).
  apply (Hall c' _ Hlt Hc'). apply whole_full; congruence.
Qed.

Lemma rounds_earlier g start input it k t t' : opens g start input it -> parses g start input t -> parses g start input t' ->
  found g start input k [] t -> ~ found g start input k [] t' -> earlier it t t'.
Proof.
  intros Ho (_ & Hr & Hy) Ht' Hf Hf'. refine (exchange_rounds g start input it k t' t [] t' t Ho Ht' (exchange_here _ _) _ _ Hf Hf');
    destruct Ht' as (_ & Hr' & Hy'); congruence.
Qed.

Lemma parses_round g start input : forall t, derives g t -> forall k w v,
  (forall p e, In p g -> p_lhs p = root t -> In e (p_rhs p) -> round g start input k w (root t) [] e) -> input = w ++ yield t ++ v ->
  found g start input (k + steps t) w t.
Proof.
  intro t. induction t as [l kids IH] using tree_ind'. intros Hd k w v Hroot E. inversion Hd as [p rhs ks Hp Hr Hkm]; subst l ks.
  assert (Hgo : forall rest ks, kids_match g rest ks -> forall done k0, kids = done ++ ks -> k <= k0 -> round g start input k0 w (p_lhs p) done rest ->
    round g start input (k0 + list_sum (map node_steps ks)) w (p_lhs p) (done ++ ks) []).
  { induction 1 as [|s r ks Hk IHk|n t r ks Hn Hdt Hk IHk]; intros done k0 Ed Hle Hr0.
    - rewrite app_nil_r. cbn. rewrite Nat.add_0_r. exact Hr0.
    - assert (H' : round g start input (S k0 + list_sum (map node_steps ks)) w (p_lhs p) ((done ++ [Leaf s]) ++ ks) []).
      { apply IHk; [rewrite <- app_assoc; exact Ed|lia|]. eapply round_scan with (v := flat_map yield_node ks ++ v); [exact Hr0|].
        rewrite E. cbn [yield]. rewrite Ed, flat_map_app. cbn. rewrite <- !app_assoc. reflexivity. }
      rewrite <- app_assoc in H'. replace (k0 + list_sum (map node_steps (Leaf s :: ks))) with (S k0 + list_sum (map node_steps ks)); [exact H'|].
      change (list_sum (map node_steps (Leaf s :: ks))) with (1 + list_sum (map node_steps ks)). lia.
    - assert (Hin : In (Sub t) kids) by (rewrite Ed; apply in_elt).
      assert (H1 : found g start input (S k0 + steps t) (w ++ flat_map yield_node done) t).
      { apply (IH t Hin Hdt (S k0) _ (flat_map yield_node ks ++ v)).
        - intros p0 e0 Hp0 Hl0 He0. rewrite Hn in Hl0 |- *. econstructor; eassumption.
        - rewrite E. cbn [yield]. rewrite Ed, flat_map_app. cbn. rewrite <- !app_assoc. reflexivity. }
      destruct t as [lt kt]. cbn in Hn. subst lt. cbn [found] in H1.
      assert (H' : round g start input (S (S k0 + steps (Node (Nonterminal n) kt)) + list_sum (map node_steps ks)) w (p_lhs p) ((done ++ [Sub (Node (Nonterminal n) kt)]) ++ ks) []).
      { apply IHk; [rewrite <- app_assoc; exact Ed|lia|]. eapply round_complete; [eapply round_le; [|exact Hr0]; lia|exact H1]. }
      rewrite <- app_assoc in H'.
      match goal with |- round _ _ _ ?m _ _ _ _ => match type of H' with round _ _ _ ?n _ _ _ _ => replace m with n; [exact H'|] end end.
      change (list_sum (map node_steps (Sub (Node (Nonterminal n) kt) :: ks))) with (2 + steps (Node (Nonterminal n) kt) + list_sum (map node_steps ks)). lia. }
  exact (Hgo rhs kids Hkm [] k eq_refl (le_n k) (Hroot p rhs Hp eq_refl Hr)).
Qed.

Lemma parses_found g start input t : parses g start input t -> found g start input (steps t) [] t.
Proof.
  intros (Hd & Hl & Hy). apply (parses_round g start input t Hd 0 [] []).
  - intros p e Hp Hl' He. rewrite Hl. apply (round_le _ _ _ 0); [lia|]. econstructor; eauto. congruence.
  - rewrite Hy, app_nil_r. reflexivity.
Qed.

Lemma found_parses g start input t : parses g start input t <-> root t = start /\ yield t = input /\ exists k, found g start input k [] t.
Proof.
  split; [intro H; pose proof (parses_found _ _ _ _ H); destruct H as (_ & H1 & H2); eauto|].
  intros (Hr & Hy & k & Hf). split; [|auto]. destruct (found_dround _ _ _ _ _ _ Hf) as (dt & _ & Hv & <-). apply erase_derives; [exact (proj2 (pg_new_unchecked_ok g))|exact Hv].
Qed.
