(** Runs of the iterator: what is emitted, and that everything derivable is reached. *)
From Verif Require Export EarleyTree.

Section Run.
  Variable pg : parse_grammar.
  Hypothesis Hpg : pg_ok pg.
  Variable input : str.
  Variable start : term.

  Notation prods := (pg_prods pg).
  Notation TInv := (TInv pg input start).
  Notation Inv := (Inv pg input start).
  Notation iview := (iview pg).
  Notation at_pos := (at_pos input).
  Notation full := (full pg input start).
  Notation dvalid := (dvalid pg).
  Notation dkids := (dkids pg).
  Notation erase := (erase pg).

  Definition nofull (gh : list item) (a b : nat) : Prop :=
    forall i it, a <= i < b -> nth_error gh i = Some it -> ~ full it.

  Lemma Inv_le st gh d : Inv st gh d -> d <= length gh.
  Proof. intro H. exact (qi_le _ _ _ (inv_q _ _ _ _ _ _ H)). Qed.

  Lemma queue_nil st gh d : Inv st gh d -> q_queue (s_queue st) = [] -> d = length gh.
  Proof.
    intros H E. pose proof (inv_q _ _ _ _ _ _ H) as HQ. rewrite (qi_queue _ _ _ HQ) in E.
    pose proof (qi_le _ _ _ HQ). destruct (length gh - d) eqn:Ed; [lia|discriminate].
  Qed.

  Lemma earley_spec fuel : forall st gh d, Inv st gh d ->
    (earley fuel pg st = OutOfFuel /\
       exists st' new, Inv st' (gh ++ new) (d + fuel) /\ nofull (gh ++ new) d (d + fuel)) \/
    (exists st' new, earley fuel pg st = Ok (None, st') /\ q_queue (s_queue st') = [] /\
       Inv st' (gh ++ new) (length (gh ++ new)) /\ nofull (gh ++ new) d (length (gh ++ new))) \/
    (exists st' new id it, earley fuel pg st = Ok (Some id, st') /\
       Inv st' (gh ++ new) (S id) /\ d <= id /\ nth_error (gh ++ new) id = Some it /\ full it /\
       nofull (gh ++ new) d id).
  Proof.
    induction fuel as [|fuel IH]; intros st gh d HI; cbn [earley].
    - left. split; [reflexivity|]. exists st, []. rewrite app_nil_r, Nat.add_0_r. split; [assumption|].
      intros i it H. lia.
    - destruct (q_queue (s_queue st)) as [|id rest] eqn:Eq.
      + right; left. exists st, []. rewrite app_nil_r. split; [reflexivity|]. split; [assumption|].
        pose proof (queue_nil _ _ _ HI Eq) as ->. split; [assumption|]. intros i it H. lia.
      + destruct (process_inv pg Hpg input start st gh d id rest HI Eq)
          as (-> & it & Hit & found & st1 & new1 & E & HI1 & Hf).
        rewrite E, rbind_Ok. destruct Hf as [[-> Hfull]|[-> Hnf]].
        * right; right. exists st1, new1, d, it. split; [reflexivity|]. split; [assumption|].
          split; [lia|]. split; [apply nth_error_ext; assumption|]. split; [assumption|].
          intros i it' H. lia.
        * assert (Hd : forall gh', forall i it', i = d -> nth_error ((gh ++ new1) ++ gh') i = Some it' -> ~ full it').
          { intros gh' i it' -> H. rewrite <- app_assoc in H.
            rewrite (nth_error_ext _ _ _ _ Hit) in H. injection H as <-. assumption. }
          destruct (IH st1 (gh ++ new1) (S d) HI1)
            as [(E1 & st' & new & H1 & H2)|[(st' & new & E1 & Eq' & H1 & H2)|(st' & new & id & it' & E1 & H1 & H2 & H3 & H4 & H5)]].
          -- left. split; [assumption|]. exists st', (new1 ++ new). rewrite app_assoc.
             replace (d + S fuel) with (S d + fuel) by lia. split; [assumption|].
             intros i it' Hi Hn. destruct (Nat.eq_dec i d); [eapply Hd; eassumption|]. eapply H2; [|exact Hn]. lia.
          -- right; left. exists st', (new1 ++ new). rewrite app_assoc. split; [assumption|]. split; [assumption|].
             split; [assumption|].
             intros i it' Hi Hn. destruct (Nat.eq_dec i d); [eapply Hd; eassumption|]. eapply H2; [|exact Hn]. lia.
          -- right; right. exists st', (new1 ++ new), id, it'. rewrite app_assoc. split; [assumption|].
             split; [assumption|]. split; [lia|]. split; [assumption|]. split; [assumption|].
             intros i it'' Hi Hn. destruct (Nat.eq_dec i d); [eapply Hd; eassumption|]. eapply H5; [|exact Hn]. lia.
  Qed.

  Variable p : grammar_parser.
  Hypothesis Hp : gp_pg p = pg.

  Lemma iter_next_spec fuel st gh d : Inv st gh d ->
    (iter_next fuel (mkI p st) = OutOfFuel /\
       exists st' new, Inv st' (gh ++ new) (d + fuel) /\ nofull (gh ++ new) d (d + fuel)) \/
    (exists st' new, iter_next fuel (mkI p st) = Ok (None, mkI p st') /\ q_queue (s_queue st') = [] /\
       Inv st' (gh ++ new) (length (gh ++ new)) /\ nofull (gh ++ new) d (length (gh ++ new))) \/
    (exists st' new id it, iter_next fuel (mkI p st) = Ok (Some (erase (i_tree it)), mkI p st') /\
       Inv st' (gh ++ new) (S id) /\ d <= id /\ nth_error (gh ++ new) id = Some it /\ full it /\
       nofull (gh ++ new) d id).
  Proof.
    intro HI. unfold iter_next. cbn [it_parser it_state]. rewrite Hp.
    destruct (earley_spec fuel st gh d HI)
      as [(E & H)|[(st' & new & E & H)|(st' & new & id & it & E & H1 & H2 & H3 & H4)]].
    - left. rewrite E. split; [reflexivity|assumption].
    - right; left. rewrite E, rbind_Ok. exists st', new. split; [reflexivity|assumption].
    - right; right. rewrite E, rbind_Ok. exists st', new, id, it.
      pose proof (inv_t _ _ _ _ _ _ H1) as HT.
      rewrite (parse_tree_ok pg input start _ _ HT _ id it); [|apply nth_error_lt in H3; rewrite (ti_len _ _ _ _ _ HT); lia|assumption].
      rewrite rbind_Ok. auto.
  Qed.

  (** The emitted trees are exactly those of the full items processed so far. *)
  Lemma produces_spec it ts it' : produces it ts it' -> it_parser it = p -> forall gh d,
    Inv (it_state it) gh d ->
    it_parser it' = p /\
    exists new d' ids, Inv (it_state it') (gh ++ new) d' /\ d <= d' /\
      (forall i, In i ids -> d <= i) /\ NoDup ids /\
      Forall2 (fun i t => exists x, nth_error (gh ++ new) i = Some x /\ full x /\ t = erase (i_tree x)) ids ts /\
      (forall i x, d <= i < d' -> nth_error (gh ++ new) i = Some x -> full x -> In i ids).
  Proof.
    induction 1 as [it|it t it1 ts it2 fuel Hn Hprod IH]; intros Hpar gh d HI.
    - split; [assumption|]. exists [], d, []. rewrite app_nil_r. split; [assumption|]. split; [lia|].
      split; [intros i []|]. split; [constructor|]. split; [constructor|]. intros; lia.
    - destruct it as [p0 st]; simpl in Hpar, HI. subst p0.
      destruct (iter_next_spec fuel st gh d HI)
        as [(E & _)|[(st' & new & E & _)|(st' & new & id & x & E & H1 & H2 & H3 & H4 & H5)]];
        rewrite E in Hn; try discriminate. injection Hn as <- <-.
      destruct (IH eq_refl (gh ++ new) (S id) H1) as (Hp2 & new2 & d' & ids & G1 & G2 & G3 & G4 & G5 & G6).
      split; [assumption|]. exists (new ++ new2), d', (id :: ids). rewrite app_assoc.
      split; [assumption|]. split; [lia|]. split.
      { intros i [<-|Hi]; [assumption|]. apply G3 in Hi. lia. }
      split. { constructor; [|assumption]. intro Hi. apply G3 in Hi. lia. }
      split. { constructor; [|assumption]. exists x. split; [apply nth_error_ext; assumption|auto]. }
      intros i y Hi Hy Hfy. destruct (lt_eq_lt_dec i id) as [[Hlt| ->]|Hgt].
      + exfalso. apply (nth_error_ext_lt (gh ++ new)) in Hy; [|apply nth_error_lt in H3; lia].
        eapply H5; [|exact Hy|exact Hfy]. lia.
      + left; reflexivity.
      + right. eapply G6; [|exact Hy|exact Hfy]. lia.
  Qed.

  (** Loop iterations, ignoring returns, with the ghost state carried along. *)
  Inductive adv : pstate -> list item -> nat -> pstate -> list item -> nat -> Prop :=
  | adv_refl st gh d : adv st gh d st gh d
  | adv_step st gh d rest found st1 new st2 gh2 d2 it :
      q_queue (s_queue st) = d :: rest ->
      process pg (s_tree st) (mkQ (q_processed (s_queue st)) rest) (s_comp st) d = Ok (found, st1) ->
      nth_error gh d = Some it ->
      ((found = Some d /\ full it) \/ (found = None /\ ~ full it)) ->
      Inv st1 (gh ++ new) (S d) ->
      adv st1 (gh ++ new) (S d) st2 gh2 d2 -> adv st gh d st2 gh2 d2.

  Lemma adv_trans st gh d st1 gh1 d1 st2 gh2 d2 :
    adv st gh d st1 gh1 d1 -> adv st1 gh1 d1 st2 gh2 d2 -> adv st gh d st2 gh2 d2.
  Proof. induction 1; [auto|]. intro. econstructor; eauto. Qed.

  Lemma adv_ext st gh d st' gh' d' : adv st gh d st' gh' d' -> (exists new, gh' = gh ++ new) /\ d <= d'.
  Proof.
    induction 1 as [|st gh d rest found st1 new st2 gh2 d2 it _ _ _ _ _ _ [[new2 ->] IH]].
    - split; [exists []; rewrite app_nil_r; reflexivity|lia].
    - split; [exists (new ++ new2); rewrite app_assoc; reflexivity|lia].
  Qed.

  Lemma adv_inv st gh d st' gh' d' : adv st gh d st' gh' d' -> Inv st gh d -> Inv st' gh' d'.
  Proof. induction 1; auto. Qed.

  Lemma adv_nth st gh d st' gh' d' i x : adv st gh d st' gh' d' ->
    nth_error gh i = Some x -> nth_error gh' i = Some x.
  Proof. intro H. apply adv_ext in H. destruct H as [[new ->] _]. apply nth_error_ext. Qed.

  (** Fairness: every traversal is processed after finitely many iterations. *)
  Lemma adv_fair i : forall st gh d, Inv st gh d -> i < length gh ->
    exists st' gh' d', adv st gh d st' gh' d' /\ Inv st' gh' d' /\ i < d'.
  Proof.
    intros st gh d. remember (S i - d) as k eqn:Ek. revert st gh d Ek.
    induction k as [|k IH]; intros st gh d Ek HI Hi.
    - exists st, gh, d. split; [constructor|]. split; [assumption|lia].
    - destruct (q_queue (s_queue st)) as [|id rest] eqn:Eq.
      + apply (queue_nil _ _ _ HI) in Eq. lia.
      + destruct (process_inv pg Hpg input start st gh d id rest HI Eq)
          as (-> & it & Hit & found & st1 & new1 & E & HI1 & Hf).
        destruct (IH st1 (gh ++ new1) (S d)) as (st' & gh' & d' & H1 & H2 & H3);
          [lia|assumption|rewrite app_length; lia|].
        exists st', gh', d'. split; [|auto]. econstructor; eauto.
  Qed.

  Lemma adv_fair_In it st gh d : Inv st gh d -> In it gh ->
    exists st' gh' d' i, adv st gh d st' gh' d' /\ Inv st' gh' d' /\ i < d' /\ nth_error gh' i = Some it.
  Proof.
    intros HI Hin. apply In_nth_error in Hin. destruct Hin as [i Hi].
    destruct (adv_fair i st gh d HI) as (st' & gh' & d' & H1 & H2 & H3); [apply nth_error_lt in Hi; assumption|].
    exists st', gh', d', i. repeat (split; [assumption|]). eapply adv_nth; eassumption.
  Qed.

  (** Completeness: any derivation that fits the input at a predicted position is built. *)
  Lemma reach_prefix pid l pos : forall kids,
    (forall t, In (Sub t) kids -> dvalid t -> forall st gh d pos,
      Inv st gh d -> In (mkItem (root t) pos []) gh -> at_pos pos (yield t) ->
      exists st' gh' d', adv st gh d st' gh' d' /\ Inv st' gh' d' /\
        In (mkItem (root t) pos (match t with Node _ ks => ks end)) gh') ->
    forall k1 e1 e2, nth_error prods pid = Some (l, e1 ++ e2) -> dkids e1 k1 ->
      (exists e3 e4, e2 = e3 ++ e4 /\ dkids e3 kids) ->
    at_pos (pos + byte_len (yields k1)) (yields kids) ->
    forall st gh d, Inv st gh d -> In (mkItem pid pos k1) gh ->
    exists st' gh' d', adv st gh d st' gh' d' /\ Inv st' gh' d' /\ In (mkItem pid pos (k1 ++ kids)) gh'.
  Proof.
    induction kids as [|k k2 IHk]; intros IH k1 e1 e2 Hpid Hd1 (e3 & e4 & -> & Hd2) Hat st gh d HI Hin.
    - exists st, gh, d. rewrite app_nil_r. split; [constructor|]. auto.
    - destruct (adv_fair_In _ _ _ _ HI Hin) as (st1 & gh1 & d1 & i & Ha1 & HI1 & Hi & Hni).
      assert (Hat1 : at_pos (i_end (mkItem pid pos k1)) (yield_node k) /\
                     at_pos (pos + byte_len (yields (k1 ++ [k]))) (yields k2)).
      { unfold yields in Hat at 2. simpl in Hat. apply at_pos_split in Hat. destruct Hat as [Hat1 Hat2].
        split; [exact Hat1|]. rewrite yields_snoc, byte_len_app, Nat.add_assoc. exact Hat2. }
      destruct Hat1 as [Hat1 Hat2].
      assert (Hnext : exists st' gh' d', adv st1 gh1 d1 st' gh' d' /\ Inv st' gh' d' /\
                        In (mkItem pid pos (k1 ++ [k])) gh').
      { inversion Hd2 as [|s r ks Hd3 E1 E2|n cpid crhs ck r ks Hc1 Hc2 Hd3 E1 E2]; subst.
        - exists st1, gh1, d1. split; [constructor|]. split; [assumption|].
          apply (inv_scan _ _ _ _ _ _ HI1 i (mkItem pid pos k1) l s (r ++ e4)); auto.
          exists e1. auto.
        - assert (Hview1 : iview (mkItem pid pos k1) l (Nonterminal n :: r ++ e4)) by (exists e1; auto).
          pose proof (inv_pred _ _ _ _ _ _ HI1 _ _ _ _ _ _ _ Hi Hni Hview1 Hc1) as Hpred.
          destruct (IH (Node cpid ck)) with (st := st1) (gh := gh1) (d := d1)
            (pos := i_end (mkItem pid pos k1)) as (st2 & gh2 & d2 & Ha2 & HI2 & Hin2); auto.
          { left; reflexivity. }
          simpl root in Hin2.
          destruct (adv_fair_In _ _ _ _ HI2 Hin2) as (st3 & gh3 & d3 & c & Ha3 & HI3 & Hc & Hnc).
          exists st3, gh3, d3. split; [eapply adv_trans; eassumption|].
          split; [assumption|].
          assert (Hdd : d1 <= d3).
          { apply adv_ext in Ha2, Ha3. lia. }
          assert (Hni3 : nth_error gh3 i = Some (mkItem pid pos k1)).
          { eapply adv_nth; [exact Ha3|]. eapply adv_nth; [exact Ha2|]. exact Hni. }
          apply (inv_compl _ _ _ _ _ _ HI3 i (mkItem pid pos k1) l n (r ++ e4) c
                   (mkItem cpid (i_end (mkItem pid pos k1)) ck)); auto; [lia|].
          inversion Hc2 as [? l' rhs' ? Hq1 Hq2]; subst. rewrite Hc1 in Hq1. injection Hq1 as <- <-.
          exists crhs. rewrite app_nil_r. auto. }
      destruct Hnext as (st2 & gh2 & d2 & Ha2 & HI2 & Hin2).
      assert (Hsplit : exists t' e2', e3 = t' :: e2' /\ dkids [t'] [k] /\ dkids e2' k2).
      { inversion Hd2; subst; eexists _, _; (split; [reflexivity|]); split; try assumption;
          econstructor; eauto; constructor. }
      destruct Hsplit as (t' & e2' & -> & Hone & Hrest).
      destruct (IHk) with (k1 := k1 ++ [k]) (e1 := e1 ++ [t']) (e2 := e2' ++ e4) (st := st2) (gh := gh2) (d := d2)
        as (st3 & gh3 & d3 & Ha3 & HI3 & Hin3); auto.
      { intros t Ht. apply IH. right; assumption. }
      { rewrite <- app_assoc. exact Hpid. }
      { apply dkids_app; assumption. }
      { eauto. }
      exists st3, gh3, d3. rewrite <- app_assoc in Hin3. split; [|auto].
      eapply adv_trans; [exact Ha1|]. eapply adv_trans; eassumption.
  Qed.

  Lemma reach_tree : forall t, dvalid t -> forall st gh d pos,
    Inv st gh d -> In (mkItem (root t) pos []) gh -> at_pos pos (yield t) ->
    exists st' gh' d', adv st gh d st' gh' d' /\ Inv st' gh' d' /\
      In (mkItem (root t) pos (match t with Node _ ks => ks end)) gh'.
  Proof.
    intro t. induction t as [pid kids IH] using tree_ind'. intros Hv st gh d pos HI Hin Hat.
    inversion Hv as [pid' l rhs kids' Hpid Hk]; subst pid' kids'.
    eapply (reach_prefix pid l pos kids IH [] [] rhs); eauto.
    - constructor.
    - exists rhs, []. rewrite app_nil_r. auto.
    - simpl. rewrite Nat.add_0_r. exact Hat.
  Qed.

  (** Every full item met by [adv] is also emitted by calling [next]. *)
  Lemma adv_produces st gh d st' gh' d' : adv st gh d st' gh' d' -> Inv st gh d ->
    exists ts it', produces (mkI p st) ts it' /\
      forall i x, d <= i < d' -> nth_error gh' i = Some x -> full x -> In (erase (i_tree x)) ts.
  Proof.
    induction 1 as [st gh d|st gh d rest found st1 new st2 gh2 d2 it Hq Hpr Hit Hf HI1 Hadv IH]; intro HI.
    - exists [], (mkI p st). split; [constructor|]. intros i x Hi. lia.
    - destruct (IH HI1) as (ts & it2 & Hprod & Hall).
      pose proof (adv_nth _ _ _ _ _ _ d it Hadv (nth_error_ext _ _ _ _ Hit)) as Hit2.
      destruct Hf as [[-> Hfull]|[-> Hnf]].
      + (* emitted now *)
        assert (Hnext : iter_next 1 (mkI p st) = Ok (Some (erase (i_tree it)), mkI p st1)).
        { unfold iter_next. cbn [it_parser it_state]. rewrite Hp. cbn [earley]. rewrite Hq, Hpr, !rbind_Ok.
          pose proof (inv_t _ _ _ _ _ _ HI1) as HT.
          rewrite (parse_tree_ok pg input start _ _ HT _ d it);
            [reflexivity| |apply nth_error_ext; assumption].
          rewrite (ti_len _ _ _ _ _ HT). apply nth_error_lt in Hit. rewrite app_length. lia. }
        exists (erase (i_tree it) :: ts), it2. split; [econstructor; eassumption|].
        intros i x Hi Hx Hfx. destruct (Nat.eq_dec i d) as [->|].
        * left. rewrite Hit2 in Hx. injection Hx as <-. reflexivity.
        * right. eapply Hall; [|exact Hx|exact Hfx]. lia.
      + assert (Hfx : forall i x, d <= i < d2 -> nth_error gh2 i = Some x -> full x -> In (erase (i_tree x)) ts).
        { intros i x Hi Hx Hfx. destruct (Nat.eq_dec i d) as [->|].
          - exfalso. rewrite Hit2 in Hx. injection Hx as <-. contradiction.
          - eapply Hall; [|exact Hx|exact Hfx]. lia. }
        inversion Hprod as [it0 E1 E2 E3|it0 t it1 ts' it3 fuel Hn Hrest E1 E2 E3]; subst.
        * exists [], (mkI p st). split; [constructor|]. exact Hfx.
        * exists (t :: ts'), it2. split; [|exact Hfx]. econstructor; [|exact Hrest].
          instantiate (1 := S fuel). unfold iter_next in *. cbn [it_parser it_state] in *.
          rewrite Hp in *. cbn [earley]. rewrite Hq, Hpr, rbind_Ok. exact Hn.
  Qed.

  (** The same, keeping track of the state: after the last emission, the remaining iterations
      meet no full item. *)
  Lemma adv_produces_state st gh d st' gh' d' : adv st gh d st' gh' d' -> Inv st gh d ->
    exists ts st1 gh1 d1, produces (mkI p st) ts (mkI p st1) /\ Inv st1 gh1 d1 /\
      adv st1 gh1 d1 st' gh' d' /\ nofull gh' d1 d' /\ (ts = [] -> d1 = d).
  Proof.
    induction 1 as [st gh d|st gh d rest found st1 new st2 gh2 d2 it Hq Hpr Hit Hf HI1 Hadv IH]; intro HI.
    - exists [], st, gh, d. split; [constructor|]. split; [assumption|]. split; [constructor|].
      split; [|reflexivity]. intros i x Hi. lia.
    - destruct (IH HI1) as (ts & st3 & gh3 & d3 & Hprod & HI3 & Hadv3 & Hno & Hd3).
      pose proof (adv_nth _ _ _ _ _ _ d it Hadv (nth_error_ext _ _ _ _ Hit)) as Hit2.
      destruct Hf as [[-> Hfull]|[-> Hnf]].
      + assert (Hnext : iter_next 1 (mkI p st) = Ok (Some (erase (i_tree it)), mkI p st1)).
        { unfold iter_next. cbn [it_parser it_state]. rewrite Hp. cbn [earley]. rewrite Hq, Hpr, !rbind_Ok.
          pose proof (inv_t _ _ _ _ _ _ HI1) as HT.
          rewrite (parse_tree_ok pg input start _ _ HT _ d it);
            [reflexivity| |apply nth_error_ext; assumption].
          rewrite (ti_len _ _ _ _ _ HT). apply nth_error_lt in Hit. rewrite app_length. lia. }
        exists (erase (i_tree it) :: ts), st3, gh3, d3. split; [econstructor; eassumption|].
        split; [assumption|]. split; [assumption|]. split; [assumption|discriminate].
      + inversion Hprod as [it0 E1 E2 E3|it0 t it1 ts' it3 fuel Hn Hrest E1 E2 E3].
        * exists [], st, gh, d. split; [constructor|]. split; [assumption|].
          split; [econstructor; eauto|].
          split; [|reflexivity].
          intros i x Hi Hx Hfx. destruct (Nat.eq_dec i d) as [->|Hne].
          -- rewrite Hit2 in Hx. injection Hx as <-. contradiction.
          -- rewrite (Hd3 (eq_sym E2)) in Hno. eapply Hno; [|exact Hx|exact Hfx]. lia.
        * exists (t :: ts'), st3, gh3, d3. split; [|split; [assumption|split; [assumption|split; [assumption|discriminate]]]].
          econstructor; [|exact Hrest].
          instantiate (1 := S fuel). unfold iter_next in *. cbn [it_parser it_state] in *.
          rewrite Hp in *. cbn [earley]. rewrite Hq, Hpr, rbind_Ok. exact Hn.
  Qed.
End Run.
