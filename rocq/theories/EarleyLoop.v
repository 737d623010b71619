(** One iteration of the Earley loop preserves the invariant and never panics. *)
From Verif Require Export EarleyInv.

Section Loop.
  Variable pg : parse_grammar.
  Hypothesis Hpg : pg_ok pg.
  Variable input : str.
  Variable start : term.

  Notation prods := (pg_prods pg).
  Notation TInv := (TInv pg input start).
  Notation iview := (iview pg).
  Notation at_pos := (at_pos input).
  Notation match_kid := (match_kid pg input).

  (** The queue holds, in order, the ids [d .. n-1]; exactly the ids below [n] were pushed. *)
  Record QInv (q : tqueue) (n d : nat) : Prop := {
    qi_le : d <= n;
    qi_queue : q_queue q = seq d (n - d);
    qi_proc : forall x, In x (q_processed q) <-> x < n
  }.

  Lemma q_push_old q n d id : QInv q n d -> id < n -> q_push q id = q.
  Proof.
    intros H Hid. unfold q_push. replace (memb Nat.eqb id (q_processed q)) with true; [reflexivity|].
    symmetry. apply memb_In; [apply Nat.eqb_eq|]. apply (qi_proc _ _ _ H). assumption.
  Qed.
  Lemma q_push_new q n d : QInv q n d -> QInv (q_push q n) (S n) d.
  Proof.
    intros H. unfold q_push. destruct (memb Nat.eqb n (q_processed q)) eqn:E.
    - apply memb_In in E; [|apply Nat.eqb_eq]. apply (qi_proc _ _ _ H) in E. lia.
    - pose proof (qi_le _ _ _ H). constructor; cbn [q_queue q_processed].
      + lia.
      + rewrite (qi_queue _ _ _ H). replace (S n - d) with (n - d + 1) by lia.
        rewrite seq_app. simpl. replace (d + (n - d)) with n by lia. reflexivity.
      + intro x. simpl. rewrite (qi_proc _ _ _ H). lia.
  Qed.

  Definition SI (tr : ttree) (q : tqueue) (gh : list item) (d : nat) : Prop :=
    TInv tr gh /\ QInv q (length gh) d.

  Lemma SI_push tr q gh d id it tr' : SI tr q gh d ->
    ((tr' = tr /\ nth_error gh id = Some it) \/ (id = length gh /\ TInv tr' (gh ++ [it]))) ->
    exists new, SI tr' (q_push q id) (gh ++ new) d /\ In it (gh ++ new).
  Proof.
    intros [HT HQ] [[-> H]|[-> H]].
    - exists []. rewrite app_nil_r. rewrite (q_push_old _ _ _ _ HQ); [|apply nth_error_lt in H; assumption].
      split; [split; assumption|]. apply nth_error_In in H. assumption.
    - exists [it]. split; [split; [assumption|]|apply in_or_app; simpl; auto].
      rewrite app_length. simpl. rewrite Nat.add_1_r. apply q_push_new. assumption.
  Qed.

  Lemma predict_all_inv range starting d : r_input range = input -> at_pos (total_len range) [] ->
    forall pids tr q gh, SI tr q gh d ->
    (forall pid, In pid pids -> exists lhs rhs, nth_error prods pid = Some (lhs, rhs) /\
       (starting = term_eqb lhs start && Nat.eqb (total_len range) 0 \/ In (mkItem pid (total_len range) []) gh) /\
       ireach pg input start (mkItem pid (total_len range) [])) ->
    exists tr' q' new, predict_all pg range starting pids tr q = Ok (tr', q') /\
      SI tr' q' (gh ++ new) d /\
      (forall pid, In pid pids -> In (mkItem pid (total_len range) []) (gh ++ new)).
  Proof.
    intros Hr Hpos. induction pids as [|pid pids IH]; intros tr q gh HS Hp; simpl.
    - exists tr, q, []. rewrite app_nil_r. split; [reflexivity|]. split; [assumption|]. intros _ [].
    - destruct (Hp pid) as (lhs & rhs & Hpid & Hst & Hroot); [left; reflexivity|].
      unfold get_production_by_id. rewrite Hpid. simpl.
      destruct (tt_predict_inv pg input start tr gh range pid lhs rhs starting)
        as (id & tr1 & E & Hcase); auto.
      { exact (proj1 HS). }
      rewrite E. destruct (SI_push _ _ _ _ _ _ _ HS Hcase) as (new1 & HS1 & Hin1).
      destruct (IH tr1 (q_push q id) (gh ++ new1) HS1) as (tr' & q' & new2 & E2 & HS2 & Hin2).
      { intros pid' Hpid'. destruct (Hp pid') as (l' & r' & H1 & H2 & H3); [right; assumption|].
        exists l', r'. split; [assumption|]. split; [|assumption]. destruct H2 as [H2|H2]; [left; assumption|right].
        apply in_or_app; auto. }
      exists tr', q', (new1 ++ new2). rewrite app_assoc. split; [assumption|]. split; [assumption|].
      intros pid' [<-|H]; [apply in_or_app; left; assumption|auto].
  Qed.

  Lemma match_kid_ext gh new pit t m k : match_kid gh pit t m k -> match_kid (gh ++ new) pit t m k.
  Proof.
    destruct m; simpl; [auto|]. intros (cit & H & H'). exists cit. split; [apply nth_error_ext; assumption|assumption].
  Qed.

  Lemma match_kid_fun gh new pit t m k k' : match_kid gh pit t m k -> match_kid (gh ++ new) pit t m k' -> k = k'.
  Proof.
    destruct m; simpl.
    - intros (_ & -> & _) (_ & -> & _). reflexivity.
    - intros (cit & H & -> & _) (cit' & H' & -> & _).
      apply (nth_error_ext _ new) in H. congruence.
  Qed.

  Lemma match_all_inv d : forall l tr q gh, SI tr q gh d ->
    (forall par m, In (par, m) l -> exists pit lhs t rest k,
       nth_error gh par = Some pit /\ iview pit lhs (t :: rest) /\ match_kid gh pit t m k) ->
    exists tr' q' new, match_all l tr q = Ok (tr', q') /\ SI tr' q' (gh ++ new) d /\
      (forall par m pit lhs t rest k, In (par, m) l ->
         nth_error gh par = Some pit -> iview pit lhs (t :: rest) -> match_kid gh pit t m k ->
         In (i_snoc pit k) (gh ++ new)).
  Proof.
    induction l as [|[par m] l IH]; intros tr q gh HS Hl; simpl.
    - exists tr, q, []. rewrite app_nil_r. split; [reflexivity|]. split; [assumption|]. intros ? ? ? ? ? ? ? [].
    - destruct (Hl par m) as (pit & lhs & t & rest & k & H1 & H2 & H3); [left; reflexivity|].
      destruct (tt_match_inv pg input start tr gh par pit lhs t rest m k (proj1 HS) H1 H2 H3)
        as (id & tr1 & E & Hcase).
      rewrite E. simpl. destruct (SI_push _ _ _ _ _ _ _ HS Hcase) as (new1 & HS1 & Hin1).
      destruct (IH tr1 (q_push q id) (gh ++ new1) HS1) as (tr' & q' & new2 & E2 & HS2 & Hin2).
      { intros par' m' Hpm. destruct (Hl par' m') as (pit' & lhs' & t' & rest' & k' & G1 & G2 & G3); [right; assumption|].
        exists pit', lhs', t', rest', k'. split; [apply nth_error_ext; assumption|].
        split; [assumption|]. apply match_kid_ext; assumption. }
      exists tr', q', (new1 ++ new2). rewrite app_assoc. split; [assumption|]. split; [assumption|].
      intros par' m' pit' lhs' t' rest' k' [Ep|Hpm] G1 G2 G3.
      + injection Ep as <- <-. rewrite H1 in G1. injection G1 as <-.
        destruct (iview_fun pg _ _ _ _ _ H2 G2) as [_ E']. injection E' as <- _.
        assert (k = k') by (eapply (match_kid_fun gh []); [exact H3|rewrite app_nil_r; exact G3]). subst k'.
        apply in_or_app; left; assumption.
      + eapply Hin2; [exact Hpm|apply nth_error_ext; exact G1|exact G2|apply match_kid_ext; exact G3].
  Qed.

  (** An item that is a complete parse of the input. *)
  Definition full (it : item) : Prop :=
    iview it start [] /\ i_start it = 0 /\ yields (i_kids it) = input.

  Record Inv (st : pstate) (gh : list item) (d : nat) : Prop := {
    inv_t : TInv (s_tree st) gh;
    inv_q : QInv (s_queue st) (length gh) d;
    inv_inc : forall t pos i, In i (cm_lookup (cm_incomplete (s_comp st)) (t, pos)) <->
        i < d /\ is_nonterminal t = true /\
        exists it lhs rest, nth_error gh i = Some it /\ iview it lhs (t :: rest) /\ i_end it = pos;
    inv_comp : forall t pos i, In i (cm_lookup (cm_complete (s_comp st)) (t, pos)) <->
        i < d /\ exists it, nth_error gh i = Some it /\ iview it t [] /\ i_start it = pos;
    inv_scan : forall i it lhs s rest, i < d -> nth_error gh i = Some it ->
        iview it lhs (Terminal s :: rest) -> at_pos (i_end it) s -> In (i_snoc it (Leaf s)) gh;
    inv_pred : forall i it lhs n rest pid rhs, i < d -> nth_error gh i = Some it ->
        iview it lhs (Nonterminal n :: rest) -> nth_error prods pid = Some (Nonterminal n, rhs) ->
        In (mkItem pid (i_end it) []) gh;
    inv_compl : forall i it lhs n rest c cit, i < d -> c < d -> nth_error gh i = Some it ->
        iview it lhs (Nonterminal n :: rest) -> nth_error gh c = Some cit ->
        iview cit (Nonterminal n) [] -> i_start cit = i_end it ->
        In (i_snoc it (Sub (i_tree cit))) gh;
    inv_start : forall pid rhs, nth_error prods pid = Some (start, rhs) -> In (mkItem pid 0 []) gh;
    inv_sorted : forall k, StronglySorted lt (cm_lookup (cm_incomplete (s_comp st)) k) /\
                           StronglySorted lt (cm_lookup (cm_complete (s_comp st)) k)
  }.

  Lemma cm_lookup_insert m k v k' :
    cm_lookup (hm_insert m k v) k' = if ckey_eqb k k' then v else cm_lookup m k'.
  Proof. unfold cm_lookup. simpl. destruct (ckey_eqb k k'); reflexivity. Qed.

  (** Extending the ghost list does not change facts about existing indices. *)
  Lemma nth_error_ext_lt {A} (l l' : list A) i x : i < length l ->
    nth_error (l ++ l') i = Some x -> nth_error l i = Some x.
  Proof. intros H E. rewrite nth_error_app1 in E; assumption. Qed.

  Lemma process_inv st gh d id rest :
    Inv st gh d -> q_queue (s_queue st) = id :: rest ->
    id = d /\
    exists it, nth_error gh d = Some it /\
    exists found st' new,
      process pg (s_tree st) (mkQ (q_processed (s_queue st)) rest) (s_comp st) id = Ok (found, st') /\
      Inv st' (gh ++ new) (S d) /\
      ((found = Some d /\ full it) \/ (found = None /\ ~ full it)).
  Proof.
    intros HI Hq. pose proof (inv_q _ _ _ HI) as HQ. pose proof (inv_t _ _ _ HI) as HT.
    pose proof (qi_queue _ _ _ HQ) as Hseq. rewrite Hq in Hseq. pose proof (qi_le _ _ _ HQ) as Hle.
    destruct (length gh - d) as [|k] eqn:Ek; [discriminate|]. simpl in Hseq.
    injection Hseq as -> Hrest. split; [reflexivity|].
    assert (Hd : d < length gh) by lia.
    destruct (nth_error gh d) as [it|] eqn:Eit; [|apply nth_error_None in Eit; lia].
    exists it. split; [reflexivity|].
    destruct (TInv_arena _ _ _ _ _ _ _ HT Eit) as (t & Et & Rt).
    destruct (tr_view _ _ _ _ _ _ _ Rt) as (lhs & Hview & Hst).
    pose proof (tr_range _ _ _ _ _ _ _ Rt) as Hr.
    pose proof (tr_pos _ _ _ _ _ _ _ Rt) as Hpos.
    assert (HQ' : QInv (mkQ (q_processed (s_queue st)) rest) (length gh) (S d)).
    { constructor; simpl; [lia| |exact (qi_proc _ _ _ HQ)]. rewrite Hrest. f_equal. lia. }
    assert (HS : SI (s_tree st) (mkQ (q_processed (s_queue st)) rest) gh (S d)) by (split; assumption).
    assert (Hprod : exists rhs, get_production_by_id pg (t_pid t) = Ok (lhs, rhs)).
    { destruct Hview as (pre & Hp & _). unfold get_production_by_id.
      rewrite (tr_pid _ _ _ _ _ _ _ Rt), Hp. eexists; reflexivity. }
    destruct Hprod as [rhs Hprod].
    unfold process, tt_get. rewrite Et. cbn [expect]. rewrite rbind_Ok.
    unfold next_unmatched.
    destruct (t_unmatched t) as [|[s|n] rest'] eqn:Eun; cbn [hd_error].
    - (* complete *)
      rewrite Hprod, rbind_Ok. cbn [fst].
      assert (Hcm : cm_insert (s_comp st) t lhs =
        mkCM (cm_incomplete (s_comp st))
             (hm_insert (cm_complete (s_comp st)) (lhs, i_start it)
                (sorted_vec_insert (cm_lookup (cm_complete (s_comp st)) (lhs, i_start it)) d))).
      { unfold cm_insert, next_unmatched. rewrite Eun. simpl. unfold key_start.
        rewrite Hr, (tr_id _ _ _ _ _ _ _ Rt). reflexivity. }
      rewrite Hcm.
      assert (Hl : get_incomplete (mkCM (cm_incomplete (s_comp st))
             (hm_insert (cm_complete (s_comp st)) (lhs, i_start it)
                (sorted_vec_insert (cm_lookup (cm_complete (s_comp st)) (lhs, i_start it)) d))) lhs t
             = cm_lookup (cm_incomplete (s_comp st)) (lhs, i_start it)).
      { unfold get_incomplete, key_start; simpl. rewrite Hr. reflexivity. }
      rewrite Hl.
      destruct (match_all_inv (S d) (map (fun i => (i, MNonterminal d))
                 (cm_lookup (cm_incomplete (s_comp st)) (lhs, i_start it))) _ _ _ HS)
        as (tr' & q' & new & E & HS' & Hin).
      { intros par m Hpm. apply in_map_iff in Hpm. destruct Hpm as (i & Ei & Hi).
        injection Ei as <- <-. apply (inv_inc _ _ _ HI) in Hi.
        destruct Hi as (Hid & Hnt & pit & lhs' & rest0 & G1 & G2 & G3).
        exists pit, lhs', lhs, rest0, (Sub (i_tree it)). split; [assumption|]. split; [assumption|].
        simpl. exists it. split; [exact Eit|]. split; [reflexivity|]. split; [congruence|].
        split; assumption. }
      rewrite E, rbind_Ok. destruct HS' as [HT' HQ''].
      eexists _, _, new. split; [reflexivity|]. split.
      + constructor; simpl.
        * exact HT'.
        * exact HQ''.
        * intros t0 pos i. rewrite (inv_inc _ _ _ HI). split.
          -- intros (H1 & H2 & it0 & l0 & r0 & G1 & G2 & G3). split; [lia|]. split; [assumption|].
             exists it0, l0, r0. split; [apply nth_error_ext; assumption|auto].
          -- intros (H1 & H2 & it0 & l0 & r0 & G1 & G2 & G3).
             assert (Hne : i <> d).
             { intros ->. apply (nth_error_ext_lt gh) in G1; [|lia]. rewrite Eit in G1. injection G1 as <-.
               destruct (iview_fun _ _ _ _ _ _ Hview G2) as [_ E0]. discriminate. }
             split; [lia|]. split; [assumption|]. exists it0, l0, r0.
             split; [|auto]. apply (nth_error_ext_lt gh) in G1; [assumption|lia].
        * intros t0 pos i. rewrite cm_lookup_insert.
          destruct (ckey_eqb (lhs, i_start it) (t0, pos)) eqn:Ek2.
          -- apply ckey_eqb_eq in Ek2. injection Ek2 as <- <-.
             rewrite sorted_vec_insert_In, (inv_comp _ _ _ HI). split.
             ++ intros [(H1 & it0 & G1 & G2 & G3)| ->].
                ** split; [lia|]. exists it0. split; [apply nth_error_ext; assumption|auto].
                ** split; [lia|]. exists it. split; [apply nth_error_ext; assumption|auto].
             ++ intros (H1 & it0 & G1 & G2 & G3). destruct (Nat.eq_dec i d) as [->|Hne]; [right; reflexivity|left].
                split; [lia|]. exists it0. split; [|auto]. apply (nth_error_ext_lt gh) in G1; [assumption|lia].
          -- rewrite (inv_comp _ _ _ HI). split.
             ++ intros (H1 & it0 & G1 & G2 & G3). split; [lia|]. exists it0.
                split; [apply nth_error_ext; assumption|auto].
             ++ intros (H1 & it0 & G1 & G2 & G3). apply (nth_error_ext_lt gh) in G1; [|lia].
                destruct (Nat.eq_dec i d) as [->|Hne].
                ** exfalso. rewrite Eit in G1. injection G1 as <-.
                   destruct (iview_fun _ _ _ _ _ _ Hview G2) as [-> _]. subst pos.
                   rewrite <- not_true_iff_false in Ek2. apply Ek2. apply ckey_eqb_eq; reflexivity.
                ** split; [lia|]. exists it0. auto.
        * intros i it0 l0 s r0 H1 G1 G2 G3. apply (nth_error_ext_lt gh) in G1; [|lia].
          destruct (Nat.eq_dec i d) as [->|Hne].
          -- rewrite Eit in G1. injection G1 as <-. destruct (iview_fun _ _ _ _ _ _ Hview G2); discriminate.
          -- apply in_or_app; left. eapply (inv_scan _ _ _ HI i); eauto. lia.
        * intros i it0 l0 n r0 pid rhs0 H1 G1 G2 G3. apply (nth_error_ext_lt gh) in G1; [|lia].
          destruct (Nat.eq_dec i d) as [->|Hne].
          -- rewrite Eit in G1. injection G1 as <-. destruct (iview_fun _ _ _ _ _ _ Hview G2); discriminate.
          -- apply in_or_app; left. eapply (inv_pred _ _ _ HI i); eauto. lia.
        * intros i it0 l0 n r0 c cit H1 H2 G1 G2 G3 G4 G5. apply (nth_error_ext_lt gh) in G1; [|lia].
          apply (nth_error_ext_lt gh) in G3; [|lia].
          destruct (Nat.eq_dec i d) as [->|Hne].
          { rewrite Eit in G1. injection G1 as <-. destruct (iview_fun _ _ _ _ _ _ Hview G2); discriminate. }
          destruct (Nat.eq_dec c d) as [->|Hne'].
          -- rewrite Eit in G3. injection G3 as <-. destruct (iview_fun _ _ _ _ _ _ Hview G4) as [-> _].
             eapply Hin; [|exact G1|exact G2|].
             ++ apply in_map_iff. exists i. split; [reflexivity|]. apply (inv_inc _ _ _ HI).
                split; [lia|]. split; [reflexivity|]. exists it0, l0, r0. auto.
             ++ simpl. exists it. auto.
          -- apply in_or_app; left. eapply (inv_compl _ _ _ HI i it0 l0 n r0 c cit); eauto; lia.
        * intros pid rhs0 H. apply in_or_app; left. eapply (inv_start _ _ _ HI); eauto.
        * intro key. destruct (inv_sorted _ _ _ HI key) as [S1 S2]. split; [assumption|].
          rewrite cm_lookup_insert. destruct (ckey_eqb (lhs, i_start it) key); [|assumption].
          apply sorted_vec_insert_sorted. apply (inv_sorted _ _ _ HI).
      + rewrite Hr. unfold is_complete. simpl. rewrite Hst.
        destruct (term_eqb lhs start) eqn:E1; [|right; split; [reflexivity|]; intros (F1 & _);
          destruct (iview_fun _ _ _ _ _ _ Hview F1) as [-> _]; rewrite term_eqb_refl in E1; discriminate].
        apply term_eqb_eq in E1. subst lhs.
        destruct (Nat.eqb_spec (i_start it) 0) as [E2|E2]; [|right; split; [reflexivity|]; intros (_ & F & _); contradiction].
        simpl. destruct (Nat.eqb_spec (byte_len (yields (i_kids it))) (byte_len input)) as [E3|E3].
        * left. split; [reflexivity|]. split; [assumption|]. split; [assumption|].
          apply at_pos_whole; [rewrite <- E2; assumption|assumption].
        * right. split; [reflexivity|]. intros (_ & _ & F). congruence.
    - (* scan *)
      assert (Hsw : starts_with (range_next (t_range t)) s = true <-> at_pos (i_end it) s).
      { rewrite Hr. apply at_pos_end in Hpos. pose proof (at_pos_next input _ s Hpos) as H.
        unfold range_next in *. simpl in *. rewrite Nat.add_0_r in H. exact H. }
      assert (Hgoal : forall tr' q' new,
        SI tr' q' (gh ++ new) (S d) ->
        (at_pos (i_end it) s -> In (i_snoc it (Leaf s)) (gh ++ new)) ->
        Inv (mkS tr' q' (s_comp st)) (gh ++ new) (S d)).
      { intros tr' q' new [HT' HQ''] Hnew. constructor; simpl.
        * exact HT'.
        * exact HQ''.
        * intros t0 pos i. rewrite (inv_inc _ _ _ HI). split.
          -- intros (H1 & H2 & it0 & l0 & r0 & G1 & G2 & G3). split; [lia|]. split; [assumption|].
             exists it0, l0, r0. split; [apply nth_error_ext; assumption|auto].
          -- intros (H1 & H2 & it0 & l0 & r0 & G1 & G2 & G3).
             assert (Hne : i <> d).
             { intros ->. apply (nth_error_ext_lt gh) in G1; [|lia]. rewrite Eit in G1. injection G1 as <-.
               destruct (iview_fun _ _ _ _ _ _ Hview G2) as [_ E0]. injection E0 as <- _. discriminate. }
             split; [lia|]. split; [assumption|]. exists it0, l0, r0.
             split; [|auto]. apply (nth_error_ext_lt gh) in G1; [assumption|lia].
        * intros t0 pos i. rewrite (inv_comp _ _ _ HI). split.
          -- intros (H1 & it0 & G1 & G2 & G3). split; [lia|]. exists it0.
             split; [apply nth_error_ext; assumption|auto].
          -- intros (H1 & it0 & G1 & G2 & G3). apply (nth_error_ext_lt gh) in G1; [|lia].
             assert (Hne : i <> d).
             { intros ->. rewrite Eit in G1. injection G1 as <-.
               destruct (iview_fun _ _ _ _ _ _ Hview G2) as [_ E0]. discriminate. }
             split; [lia|]. exists it0. auto.
        * intros i it0 l0 s0 r0 H1 G1 G2 G3. apply (nth_error_ext_lt gh) in G1; [|lia].
          destruct (Nat.eq_dec i d) as [->|Hne].
          -- rewrite Eit in G1. injection G1 as <-. destruct (iview_fun _ _ _ _ _ _ Hview G2) as [_ E0].
             injection E0 as <- _. auto.
          -- apply in_or_app; left. eapply (inv_scan _ _ _ HI i); eauto. lia.
        * intros i it0 l0 n r0 pid rhs0 H1 G1 G2 G3. apply (nth_error_ext_lt gh) in G1; [|lia].
          destruct (Nat.eq_dec i d) as [->|Hne].
          -- rewrite Eit in G1. injection G1 as <-. destruct (iview_fun _ _ _ _ _ _ Hview G2); discriminate.
          -- apply in_or_app; left. eapply (inv_pred _ _ _ HI i); eauto. lia.
        * intros i it0 l0 n r0 c cit H1 H2 G1 G2 G3 G4 G5. apply (nth_error_ext_lt gh) in G1; [|lia].
          apply (nth_error_ext_lt gh) in G3; [|lia].
          destruct (Nat.eq_dec i d) as [->|Hne].
          { rewrite Eit in G1. injection G1 as <-. destruct (iview_fun _ _ _ _ _ _ Hview G2); discriminate. }
          destruct (Nat.eq_dec c d) as [->|Hne'].
          { rewrite Eit in G3. injection G3 as <-. destruct (iview_fun _ _ _ _ _ _ Hview G4); discriminate. }
          apply in_or_app; left. eapply (inv_compl _ _ _ HI i it0 l0 n r0 c cit); eauto; lia.
        * intros pid rhs0 H. apply in_or_app; left. eapply (inv_start _ _ _ HI); eauto.
        * exact (inv_sorted _ _ _ HI). }
      assert (Hnf : ~ full it).
      { intros (F & _). destruct (iview_fun _ _ _ _ _ _ Hview F); discriminate. }
      destruct (starts_with (range_next (t_range t)) s) eqn:Esw.
      + destruct (match_all_inv (S d) [(d, MTerminal s)] _ _ _ HS) as (tr' & q' & new & E & HS' & Hin).
        { intros par m [Ep|[]]. injection Ep as <- <-. exists it, lhs, (Terminal s), rest', (Leaf s).
          split; [assumption|]. split; [assumption|]. simpl. split; [reflexivity|]. split; [reflexivity|].
          apply Hsw; reflexivity. }
        rewrite E, rbind_Ok. exists None, (mkS tr' q' (s_comp st)), new. split; [reflexivity|]. split; [|auto].
        apply Hgoal; [assumption|]. intro Hat. eapply Hin; [left; reflexivity|exact Eit|exact Hview|].
        simpl. auto.
      + eexists None, _, []. split; [reflexivity|]. split; [|auto].
        apply Hgoal; [rewrite app_nil_r; exact HS|]. intro Hat. apply Hsw in Hat. discriminate.
    - (* predict *)
      rewrite Hprod, rbind_Ok. cbn [fst].
      assert (Hcm : cm_insert (s_comp st) t lhs =
        mkCM (hm_insert (cm_incomplete (s_comp st)) (Nonterminal n, i_end it)
                (sorted_vec_insert (cm_lookup (cm_incomplete (s_comp st)) (Nonterminal n, i_end it)) d))
             (cm_complete (s_comp st))).
      { unfold cm_insert, next_unmatched. rewrite Eun. simpl. unfold key_total, total_len.
        rewrite Hr, (tr_id _ _ _ _ _ _ _ Rt). reflexivity. }
      rewrite Hcm.
      assert (Htot : total_len (t_range t) = i_end it) by (rewrite Hr; reflexivity).
      destruct (predict_all_inv (t_range t) false (S d)) with
        (pids := get_productions_by_lhs pg (Nonterminal n)) (tr := s_tree st)
        (q := mkQ (q_processed (s_queue st)) rest) (gh := gh)
        as (tr1 & q1 & new1 & E1 & HS1 & Hin1); [rewrite Hr; reflexivity | | exact HS | |].
      { rewrite Htot. apply at_pos_end. exact Hpos. }
      { intros pid Hpid. apply Hpg in Hpid. destruct Hpid as [rhs0 Hpid]. exists (Nonterminal n), rhs0.
        split; [assumption|]. split.
        2:{ rewrite Htot. apply (ir_pred pg input start it lhs n rest' pid rhs0); try assumption.
            apply (ti_reach _ _ _ _ _ HT). eapply nth_error_In; exact Eit. }
        destruct (term_eqb (Nonterminal n) start) eqn:Es; [|left; reflexivity].
        destruct (Nat.eqb_spec (total_len (t_range t)) 0) as [E0|]; [|left; reflexivity].
        right. rewrite E0. apply term_eqb_eq in Es. rewrite Es in Hpid. eapply (inv_start _ _ _ HI); eauto. }
      rewrite E1, rbind_Ok.
      assert (Hl : get_complete (mkCM (hm_insert (cm_incomplete (s_comp st)) (Nonterminal n, i_end it)
                (sorted_vec_insert (cm_lookup (cm_incomplete (s_comp st)) (Nonterminal n, i_end it)) d))
             (cm_complete (s_comp st))) (Nonterminal n) (t_range t) =
             cm_lookup (cm_complete (s_comp st)) (Nonterminal n, i_end it)).
      { unfold get_complete, key_total; simpl. rewrite Htot. reflexivity. }
      rewrite Hl.
      destruct (match_all_inv (S d) (map (fun c => (d, MNonterminal c))
                 (cm_lookup (cm_complete (s_comp st)) (Nonterminal n, i_end it))) _ _ _ HS1)
        as (tr' & q' & new2 & E2 & HS' & Hin2).
      { intros par m Hpm. apply in_map_iff in Hpm. destruct Hpm as (c & Ec & Hc).
        injection Ec as <- <-. apply (inv_comp _ _ _ HI) in Hc.
        destruct Hc as (Hcd & cit & G1 & G2 & G3).
        exists it, lhs, (Nonterminal n), rest', (Sub (i_tree cit)). split; [apply nth_error_ext; assumption|].
        split; [assumption|]. simpl. exists cit. split; [apply nth_error_ext; assumption|].
        split; [reflexivity|]. split; [assumption|]. split; [assumption|reflexivity]. }
      rewrite E2, rbind_Ok. destruct HS' as [HT' HQ'']. rewrite <- app_assoc in *.
      eexists None, _, (new1 ++ new2). split; [reflexivity|]. split.
      + constructor; simpl.
        * exact HT'.
        * exact HQ''.
        * intros t0 pos i. rewrite cm_lookup_insert.
          destruct (ckey_eqb (Nonterminal n, i_end it) (t0, pos)) eqn:Ek2.
          -- apply ckey_eqb_eq in Ek2. injection Ek2 as <- <-.
             rewrite sorted_vec_insert_In, (inv_inc _ _ _ HI). split.
             ++ intros [(H1 & H2 & it0 & l0 & r0 & G1 & G2 & G3)| ->].
                ** split; [lia|]. split; [assumption|]. exists it0, l0, r0. split; [apply nth_error_ext; assumption|auto].
                ** split; [lia|]. split; [reflexivity|]. exists it, lhs, rest'. split; [apply nth_error_ext; assumption|auto].
             ++ intros (H1 & H2 & it0 & l0 & r0 & G1 & G2 & G3). destruct (Nat.eq_dec i d) as [->|Hne]; [right; reflexivity|left].
                split; [lia|]. split; [assumption|]. exists it0, l0, r0. split; [|auto].
                apply (nth_error_ext_lt gh) in G1; [assumption|lia].
          -- rewrite (inv_inc _ _ _ HI). split.
             ++ intros (H1 & H2 & it0 & l0 & r0 & G1 & G2 & G3). split; [lia|]. split; [assumption|].
                exists it0, l0, r0. split; [apply nth_error_ext; assumption|auto].
             ++ intros (H1 & H2 & it0 & l0 & r0 & G1 & G2 & G3). apply (nth_error_ext_lt gh) in G1; [|lia].
                destruct (Nat.eq_dec i d) as [->|Hne].
                ** exfalso. rewrite Eit in G1. injection G1 as <-.
                   destruct (iview_fun _ _ _ _ _ _ Hview G2) as [_ E0]. injection E0 as <- <-. subst pos.
                   rewrite <- not_true_iff_false in Ek2. apply Ek2. apply ckey_eqb_eq; reflexivity.
                ** split; [lia|]. split; [assumption|]. exists it0, l0, r0. auto.
        * intros t0 pos i. rewrite (inv_comp _ _ _ HI). split.
          -- intros (H1 & it0 & G1 & G2 & G3). split; [lia|]. exists it0.
             split; [apply nth_error_ext; assumption|auto].
          -- intros (H1 & it0 & G1 & G2 & G3). apply (nth_error_ext_lt gh) in G1; [|lia].
             assert (Hne : i <> d).
             { intros ->. rewrite Eit in G1. injection G1 as <-.
               destruct (iview_fun _ _ _ _ _ _ Hview G2) as [_ E0]. discriminate. }
             split; [lia|]. exists it0. auto.
        * intros i it0 l0 s r0 H1 G1 G2 G3. apply (nth_error_ext_lt gh) in G1; [|lia].
          destruct (Nat.eq_dec i d) as [->|Hne].
          -- rewrite Eit in G1. injection G1 as <-. destruct (iview_fun _ _ _ _ _ _ Hview G2); discriminate.
          -- apply in_or_app; left. eapply (inv_scan _ _ _ HI i); eauto. lia.
        * intros i it0 l0 n0 r0 pid rhs0 H1 G1 G2 G3. apply (nth_error_ext_lt gh) in G1; [|lia].
          destruct (Nat.eq_dec i d) as [->|Hne].
          -- rewrite Eit in G1. injection G1 as <-. destruct (iview_fun _ _ _ _ _ _ Hview G2) as [_ E0].
             injection E0 as <- _. rewrite app_assoc. apply in_or_app; left. rewrite <- Htot. apply Hin1.
             apply Hpg. eauto.
          -- apply in_or_app; left. eapply (inv_pred _ _ _ HI i); eauto. lia.
        * intros i it0 l0 n0 r0 c cit H1 H2 G1 G2 G3 G4 G5. apply (nth_error_ext_lt gh) in G1; [|lia].
          apply (nth_error_ext_lt gh) in G3; [|lia].
          destruct (Nat.eq_dec c d) as [->|Hne'].
          { rewrite Eit in G3. injection G3 as <-. destruct (iview_fun _ _ _ _ _ _ Hview G4); discriminate. }
          destruct (Nat.eq_dec i d) as [->|Hne].
          -- rewrite Eit in G1. injection G1 as <-. pose proof (iview_fun _ _ _ _ _ _ Hview G2) as [<- E0].
             injection E0 as <- <-.
             eapply Hin2; [|apply nth_error_ext; exact Eit|exact Hview|].
             ++ apply in_map_iff. exists c. split; [reflexivity|]. apply (inv_comp _ _ _ HI).
                split; [lia|]. exists cit. auto.
             ++ simpl. exists cit. split; [apply nth_error_ext; assumption|auto].
          -- apply in_or_app; left. eapply (inv_compl _ _ _ HI i it0 l0 n0 r0 c cit); eauto; lia.
        * intros pid rhs0 H. apply in_or_app; left. eapply (inv_start _ _ _ HI); eauto.
        * intro key. destruct (inv_sorted _ _ _ HI key) as [S1 S2]. split; [|assumption].
          rewrite cm_lookup_insert. destruct (ckey_eqb (Nonterminal n, i_end it) key); [|assumption].
          apply sorted_vec_insert_sorted. apply (inv_sorted _ _ _ HI).
      + right. split; [reflexivity|]. intros (F & _). destruct (iview_fun _ _ _ _ _ _ Hview F); discriminate.
  Qed.

  (** Initial state. *)
  Lemma TInv_empty : TInv (mkTT [] [] []) [].
  Proof.
    constructor; simpl.
    - reflexivity.
    - intros i t it H. destruct i; discriminate.
    - constructor.
    - intros pid s id. split; [discriminate|]. destruct id; discriminate.
    - intros e id. split; [discriminate|]. intros (t & H & _). destruct id; discriminate.
    - intros it [].
  Qed.

  Lemma init_inv :
    exists tr q gh, predict_all pg (range_new input) true (get_productions_by_lhs pg start)
                      (mkTT [] [] []) (mkQ [] []) = Ok (tr, q) /\
                    Inv (mkS tr q (mkCM [] [])) gh 0.
  Proof.
    destruct (predict_all_inv (range_new input) true 0) with
        (pids := get_productions_by_lhs pg start) (tr := mkTT [] [] [])
        (q := mkQ [] []) (gh := @nil item)
        as (tr1 & q1 & new1 & E1 & HS1 & Hin1).
    - reflexivity.
    - exists [], input. auto.
    - split; [apply TInv_empty|]. constructor; simpl; [lia|reflexivity|]. intro x; split; [intros []|lia].
    - intros pid Hpid. apply Hpg in Hpid. destruct Hpid as [rhs Hpid]. exists start, rhs.
      split; [assumption|]. split; [left; rewrite term_eqb_refl; reflexivity|].
      apply (ir_start pg input start pid rhs). assumption.
    - exists tr1, q1, new1. split; [exact E1|]. destruct HS1 as [HT HQ]. constructor; simpl.
      + exact HT.
      + exact HQ.
      + intros t pos i. split; [intros []|]. lia.
      + intros t pos i. split; [intros []|]. lia.
      + intros; lia.
      + intros; lia.
      + intros; lia.
      + intros pid rhs H. apply Hin1. apply Hpg. eauto.
      + intro k. split; constructor.
  Qed.
End Loop.
