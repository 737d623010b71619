(** Sizes of the tables of the parser. *)
From Verif Require Export MemorySpec StructProofs LinearProofs AmbiguityProofs EarleyMain EarleyRun.
From Coq Require Import Lia Permutation.

(** ** Tables *)

Lemma NoDup_both {A} (l l' : list A) : NoDup l -> NoDup l' -> (forall x, In x l -> ~ In x l') -> NoDup (l ++ l').
Proof.
  induction 1 as [|x l Hx Hl IH]; intros Hl' H; [exact Hl'|]. cbn. constructor.
  - rewrite in_app_iff. intros [H1|H1]; [contradiction|]. exact (H x (or_introl eq_refl) H1).
  - apply IH; [exact Hl'|]. intros y Hy. apply H. right; exact Hy.
Qed.
Lemma NoDup_start {A} (l : list A) k : NoDup l -> NoDup (firstn k l).
Proof.
  intro H. revert k. induction H as [|x l Hx Hl IH]; intros [|k]; cbn; constructor; auto. intro Hin. apply Hx.
  rewrite <- (firstn_skipn k l). apply in_app_iff. left; exact Hin.
Qed.
Lemma nth_error_start {A} (l : list A) : forall k i, i < k -> nth_error (firstn k l) i = nth_error l i.
Proof. induction l as [|x l IH]; intros [|k] [|i] H; cbn; try lia; try reflexivity. apply IH. lia. Qed.
Lemma flat_map_single {A} (l : list A) : flat_map (fun x => [x]) l = l.
Proof. induction l; cbn; congruence. Qed.

Section Values.
  Context {K V : Type} (eqb : K -> K -> bool) (Heqb : forall a b, eqb a b = true <-> a = b).

  Lemma get_key (m : hmap K V) k v : hm_get eqb m k = Some v -> In k (map fst m).
  Proof.
    induction m as [|[k' v'] m IH]; cbn; [discriminate|]. destruct (eqb k' k) eqn:E; [apply Heqb in E; left; exact E|right; auto].
  Qed.
  Lemma values_In (m : hmap K V) v : In v (values eqb m) <-> exists k, hm_get eqb m k = Some v.
  Proof.
    unfold values. rewrite in_flat_map. split.
    - intros (k & _ & H). exists k. destruct (hm_get eqb m k); [destruct H as [->|[]]; reflexivity|destruct H].
    - intros (k & H). exists k. split; [apply firsts_In; [exact Heqb|]; eapply get_key; exact H|]. rewrite H. left; reflexivity.
  Qed.
  Lemma values_NoDup {W} (f : V -> list W) (m : hmap K V) :
    (forall k v, hm_get eqb m k = Some v -> NoDup (f v)) ->
    (forall k k' v v' w, hm_get eqb m k = Some v -> hm_get eqb m k' = Some v' -> In w (f v) -> In w (f v') -> k = k') ->
    NoDup (flat_map f (values eqb m)).
  Proof.
    intros H1 H2. unfold values. pose proof (firsts_NoDup eqb Heqb (map fst m)) as Hnd. revert Hnd. generalize (firsts eqb (map fst m)). intros ks Hnd.
    induction Hnd as [|k ks Hk Hnd IH]; [constructor|]. cbn [flat_map]. rewrite flat_map_app.
    apply NoDup_both; [|exact IH|].
    - destruct (hm_get eqb m k) as [v|] eqn:E; cbn [flat_map]; [rewrite app_nil_r; eapply H1; exact E|constructor].
    - intros w Hw Hw'. destruct (hm_get eqb m k) as [v|] eqn:E; cbn [flat_map] in Hw; [|destruct Hw]. rewrite app_nil_r in Hw.
      apply in_flat_map in Hw'. destruct Hw' as (v' & Hv' & Hw'). apply in_flat_map in Hv'. destruct Hv' as (k' & Hk' & Hv').
      destruct (hm_get eqb m k') as [v''|] eqn:E'; [|destruct Hv']. destruct Hv' as [->|[]]. apply Hk. rewrite (H2 k k' v v' w E E' Hw Hw'). exact Hk'.
  Qed.
End Values.

Lemma firsts_nat l x : In x (firsts Nat.eqb l) <-> In x l.
Proof. apply firsts_In, Nat.eqb_eq. Qed.

(** ** The states that are visited *)

Lemma visits_trans it it1 it2 : visits it it1 -> visits it1 it2 -> visits it it2.
Proof. intros H H'. induction H' as [|it2 fuel o it3 _ IH E]; [exact H|]. eapply visits_next; eassumption. Qed.

Lemma produces_visits it ts it1 : produces it ts it1 -> visits it it1.
Proof.
  induction 1 as [|it t it1 ts it2 fuel E _ IH]; [constructor|]. eapply visits_trans; [|exact IH]. eapply visits_next; [constructor|exact E].
Qed.

Lemma next_history f it o it1 : iter_next f it = Ok (o, it1) -> historic (gp_pg (it_parser it)) (it_state it) ->
  it_parser it1 = it_parser it /\ historic (gp_pg (it_parser it)) (it_state it1).
Proof.
  intros E Hh. unfold iter_next in E. destruct (earley _ _ _) as [[found st]| |] eqn:Ee; cbn [rbind] in E; try discriminate.
  destruct found as [id|]; [destruct (parse_tree _ _ _ _) as [tr| |]; cbn [rbind] in E; try discriminate|];
    injection E as _ <-; cbn [it_parser it_state]; (split; [reflexivity|]; eapply earley_history; [exact Hh|exact Ee]).
Qed.

Lemma visits_ok g start input it it1 : opens g start input it -> visits it it1 ->
  let pg := pg_new_unchecked g in
  historic pg (it_state it1) /\ exists st0, it_parser it1 = mkGP st0 pg /\ exists gh d, Inv pg input start (it_state it1) gh d.
Proof.
  intros Ho Hv pg. induction Hv as [|it1 f o it2 _ IH E].
  - destruct (opens_inv _ _ _ _ Ho) as (st0 & _ & En). destruct (opens_Inv _ _ _ _ Ho) as (st1 & Ep & gh & HI). split.
    + apply iter_new_history in En. rewrite Ep in En. exact En.
    + exists st1. split; [exact Ep|]. exists gh, 0. exact HI.
  - destruct IH as (Hh & st0 & Ep & gh & d & HI). assert (Epg : gp_pg (it_parser it1) = pg) by (rewrite Ep; reflexivity). rewrite <- Epg in Hh.
    destruct (next_history _ _ _ _ E Hh) as [Ep' Hh']. rewrite Epg in Hh'. split; [exact Hh'|].
    exists st0. split; [congruence|]. destruct it1 as [p st]. cbn [it_parser it_state] in *. subst p. destruct (pg_new_unchecked_ok g) as [Hok _].
    destruct (iter_next_spec _ Hok input start (mkGP st0 pg) eq_refl f st gh d HI)
      as [(E1 & _)|[(st' & new & E1 & _ & HI' & _)|(st' & new & id & x & E1 & HI' & _)]]; rewrite E1 in E; try discriminate; injection E as <- <-; cbn [it_state]; eauto.
Qed.

(** ** Their tables *)

Section State.
  Variable pg : parse_grammar.
  Variable input : str.
  Variable start : term.
  Variable st : pstate.
  Variable gh : list item.
  Variable d : nat.
  Hypothesis HI : Inv pg input start st gh d.

  Let tr := s_tree st.
  Let HT : TInv pg input start tr gh := inv_t _ _ _ _ _ _ HI.

  Lemma arena_id i t : nth_error (tt_arena tr) i = Some t -> t_id t = i /\ exists x, nth_error gh i = Some x /\ trel pg input start gh i t x.
  Proof.
    intro H. destruct (nth_error gh i) as [x|] eqn:E.
    - pose proof (ti_rel _ _ _ _ _ HT _ _ _ H E) as Hr. split; [exact (tr_id _ _ _ _ _ _ _ Hr)|eauto].
    - apply nth_error_None in E. rewrite <- (ti_len _ _ _ _ _ HT) in E. apply nth_error_None in E. congruence.
  Qed.

  Lemma ids_where_In P k i : In i (ids_where P (firstn k (tt_arena tr))) <-> i < k /\ exists t, nth_error (tt_arena tr) i = Some t /\ P t = true.
  Proof.
    unfold ids_where. rewrite in_map_iff. split.
    - intros (t & <- & H). apply filter_In in H. destruct H as [H HP]. apply In_nth_error in H. destruct H as [j Hj].
      assert (Hk : j < k).
      { assert (j < length (firstn k (tt_arena tr))) by (apply nth_error_Some; congruence). rewrite firstn_length in H. lia. }
      rewrite nth_error_start in Hj by exact Hk. destruct (arena_id _ _ Hj) as [-> _]. eauto.
    - intros (Hk & t & Ht & HP). exists t. destruct (arena_id _ _ Ht) as [E _]. split; [exact E|]. apply filter_In. split; [|exact HP].
      apply (nth_error_In _ i). rewrite nth_error_start by exact Hk. exact Ht.
  Qed.
  Lemma ids_where_all P i : In i (ids_where P (tt_arena tr)) <-> exists t, nth_error (tt_arena tr) i = Some t /\ P t = true.
  Proof.
    rewrite <- (firstn_all (tt_arena tr)) at 1. rewrite ids_where_In. split; [intros [_ H]; exact H|]. intros (t & Ht & HP). split; [|eauto].
    apply nth_error_Some. congruence.
  Qed.
  Lemma ids_where_NoDup P k : NoDup (ids_where P (firstn k (tt_arena tr))).
  Proof.
    assert (H : NoDup (map t_id (firstn k (tt_arena tr)))).
    { assert (E : map t_id (tt_arena tr) = seq 0 (length (tt_arena tr))).
      { apply nth_ext with (d := 0) (d' := 0); [rewrite map_length, seq_length; reflexivity|]. rewrite map_length. intros i Hi. rewrite seq_nth by exact Hi.
        destruct (nth_error (tt_arena tr) i) as [t|] eqn:Et; [|apply nth_error_None in Et; lia].
        apply nth_error_nth. rewrite nth_error_map, Et. cbn. f_equal. apply arena_id, Et. }
      rewrite <- firstn_map, E. apply NoDup_start, seq_NoDup. }
    unfold ids_where. revert H. generalize (firstn k (tt_arena tr)). intros l H. induction l as [|t l IH]; [constructor|]. cbn [map] in H. inversion H as [|? ? Hn Hr]; subst.
    cbn [filter]. destruct (P t); [|auto]. cbn [map]. constructor; [|auto]. intro Hin. apply Hn. apply in_map_iff in Hin. destruct Hin as (y & E & Hy). apply filter_In in Hy.
    apply in_map_iff. exists y. tauto.
  Qed.
  Lemma ids_where_NoDup_all P : NoDup (ids_where P (tt_arena tr)).
  Proof. rewrite <- (firstn_all (tt_arena tr)). apply ids_where_NoDup. Qed.

  Lemma root_entries : Permutation (values troot_eqb (tt_roots tr)) (ids_where is_root (tt_arena tr)).
  Proof.
    apply NoDup_Permutation; [| |].
    - rewrite <- flat_map_single. apply (values_NoDup _ troot_eqb_eq); [repeat constructor; intros []|].
      intros [p s] [p' s'] v v' w H H' [->|[]] [->|[]]. apply (ti_roots _ _ _ _ _ HT) in H. apply (ti_roots _ _ _ _ _ HT) in H'. congruence.
    - apply ids_where_NoDup_all.
    - intro i. rewrite (values_In _ troot_eqb_eq), ids_where_all. split.
      + intros ([p s] & H). apply (ti_roots _ _ _ _ _ HT) in H. destruct (TInv_arena _ _ _ _ _ _ _ HT H) as (t & Ht & Hr). exists t. split; [exact Ht|].
        pose proof (tr_from _ _ _ _ _ _ _ Hr) as Hf. unfold from_ok in Hf. unfold is_root. destruct (t_from t) as [[m par]|]; [exfalso|reflexivity].
        destruct Hf as (_ & pit & k & _ & E & _). unfold i_snoc in E. injection E as _ _ E. destruct (i_kids pit); discriminate.
      + intros (t & Ht & HP). destruct (arena_id _ _ Ht) as (_ & x & Hx & Hr). exists (i_pid x, i_start x). apply (ti_roots _ _ _ _ _ HT).
        pose proof (tr_from _ _ _ _ _ _ _ Hr) as Hf. unfold from_ok in Hf. unfold is_root in HP. destruct (t_from t); [discriminate|]. rewrite Hx. f_equal.
        destruct x as [a b c]. cbn in *. congruence.
  Qed.

  Lemma child_entries : Permutation (values tedge_eqb (tt_edges tr)) (ids_where is_child (tt_arena tr)).
  Proof.
    apply NoDup_Permutation; [| |].
    - rewrite <- flat_map_single. apply (values_NoDup _ tedge_eqb_eq); [repeat constructor; intros []|].
      intros e e' v v' w H H' [->|[]] [->|[]]. apply (ti_edges _ _ _ _ _ HT) in H. apply (ti_edges _ _ _ _ _ HT) in H'. destruct H as (t & H1 & H2), H' as (t' & H1' & H2'). congruence.
    - apply ids_where_NoDup_all.
    - intro i. rewrite (values_In _ tedge_eqb_eq), ids_where_all. split.
      + intros (e & H). apply (ti_edges _ _ _ _ _ HT) in H. destruct H as (t & H1 & H2). exists t. split; [exact H1|]. unfold is_child. rewrite H2. reflexivity.
      + intros (t & Ht & HP). unfold is_child in HP. destruct (t_from t) as [e|] eqn:E; [|discriminate]. exists e. apply (ti_edges _ _ _ _ _ HT). eauto.
  Qed.
End State.

Lemma sorted_NoDup v : StronglySorted lt v -> NoDup v.
Proof.
  induction 1 as [|x v _ IH H]; constructor; [|exact IH]. intro Hin. rewrite Forall_forall in H. specialize (H _ Hin). lia.
Qed.

Lemma completions_sorted l k : StronglySorted lt (cm_lookup (cm_incomplete (completions l)) k) /\ StronglySorted lt (cm_lookup (cm_complete (completions l)) k).
Proof.
  induction l as [|x l IH] using rev_ind; [split; constructor|]. rewrite completions_snoc. unfold cm_insert.
  destruct (next_unmatched (fst x)) as [[s|n]|]; cbn [cm_incomplete cm_complete]; [exact IH| |]; rewrite lookup_insert;
    (destruct (ckey_eqb _ k) eqn:E; [apply ckey_eqb_eq in E; subst k|exact IH]); split; try apply sorted_vec_insert_sorted; apply IH.
Qed.

Lemma insert_nonempty v x : sorted_vec_insert v x <> [].
Proof. destruct v as [|y v]; cbn [sorted_vec_insert]; [discriminate|]. destruct (Nat.eqb x y); [discriminate|]. destruct (Nat.ltb x y); discriminate. Qed.

Lemma completions_nonempty l k v : (hm_get ckey_eqb (cm_incomplete (completions l)) k = Some v -> v <> []) /\ (hm_get ckey_eqb (cm_complete (completions l)) k = Some v -> v <> []).
Proof.
  induction l as [|x l IH] using rev_ind; [split; discriminate|]. rewrite completions_snoc. unfold cm_insert.
  destruct IH as [IH1 IH2]. destruct (next_unmatched (fst x)) as [[s|n]|]; cbn [cm_incomplete cm_complete]; [auto| |].
  - split; [|exact IH2]. unfold hm_insert. cbn [hm_get]. destruct (ckey_eqb _ k); [|exact IH1]. intro E. injection E as <-. apply insert_nonempty.
  - split; [exact IH1|]. unfold hm_insert. cbn [hm_get]. destruct (ckey_eqb _ k); [|exact IH2]. intro E. injection E as <-. apply insert_nonempty.
Qed.

Lemma concat_flat {A} (l : list (list A)) : concat l = flat_map (fun x => x) l.
Proof. induction l; cbn; congruence. Qed.

Lemma lookup_some m k i : In i (cm_lookup m k) <-> exists v, hm_get ckey_eqb m k = Some v /\ In i v.
Proof.
  unfold cm_lookup. destruct (hm_get ckey_eqb m k) as [v|]; split.
  - eauto.
  - intros (v' & E & H). injection E as ->. exact H.
  - intros [].
  - intros (v' & E & _). discriminate.
Qed.

(** The vectors of a table of the completion map, when an id is in one of them only. *)
Lemma vectors_perm (m : hmap ckey (list nat)) L : (forall k, StronglySorted lt (cm_lookup m k)) ->
  (forall k k' i, In i (cm_lookup m k) -> In i (cm_lookup m k') -> k = k') ->
  NoDup L -> (forall i, In i L <-> exists k, In i (cm_lookup m k)) ->
  Permutation (concat (values ckey_eqb m)) L.
Proof.
  intros Hs Hu Hn HL. assert (E : forall k v, hm_get ckey_eqb m k = Some v -> v = cm_lookup m k) by (intros k v H; unfold cm_lookup; rewrite H; reflexivity).
  apply NoDup_Permutation; [|exact Hn|].
  - rewrite concat_flat. apply (values_NoDup _ ckey_eqb_eq).
    + intros k v H. rewrite (E _ _ H). apply sorted_NoDup, Hs.
    + intros k k' v v' i H H' Hi Hi'. rewrite (E _ _ H) in Hi. rewrite (E _ _ H') in Hi'. eapply Hu; eassumption.
  - intro i. rewrite HL, concat_flat, in_flat_map. split.
    + intros (v & Hv & Hi). apply (values_In _ ckey_eqb_eq) in Hv. destruct Hv as (k & Hk). exists k. apply lookup_some. eauto.
    + intros (k & Hi). apply lookup_some in Hi. destruct Hi as (v & Hk & Hi). exists v. split; [apply (values_In _ ckey_eqb_eq); eauto|exact Hi].
Qed.

Lemma waiting_vectors pg input start st gh d : Inv pg input start st gh d -> (forall k, StronglySorted lt (cm_lookup (cm_incomplete (s_comp st)) k)) ->
  Permutation (concat (values ckey_eqb (cm_incomplete (s_comp st)))) (ids_where is_waiting (firstn d (tt_arena (s_tree st)))).
Proof.
  intros HI Hs. pose proof (inv_t _ _ _ _ _ _ HI) as HT. apply vectors_perm; [exact Hs| |apply (ids_where_NoDup _ _ _ _ _ _ HI)|].
  - intros [t pos] [t' pos'] i H H'. apply (inv_inc _ _ _ _ _ _ HI) in H. apply (inv_inc _ _ _ _ _ _ HI) in H'.
    destruct H as (_ & _ & x & lhs & rest & Hx & Hv & E), H' as (_ & _ & x' & lhs' & rest' & Hx' & Hv' & E').
    rewrite Hx in Hx'. injection Hx' as <-. destruct (iview_fun _ _ _ _ _ _ Hv Hv') as [_ Et]. congruence.
  - intro i. rewrite (ids_where_In _ _ _ _ _ _ HI). split.
    + intros (Hi & t & Ht & HP). destruct (arena_id _ _ _ _ _ _ HI _ _ Ht) as (_ & x & Hx & Hr). destruct (tr_view _ _ _ _ _ _ _ Hr) as (lhs & Hv & _).
      unfold is_waiting, next_unmatched in HP. destruct (t_unmatched t) as [|[s|n] rest]; try discriminate. exists (Nonterminal n, i_end x).
      apply (inv_inc _ _ _ _ _ _ HI). split; [exact Hi|]. split; [reflexivity|]. exists x, lhs, rest. auto.
    + intros ([t pos] & H). apply (inv_inc _ _ _ _ _ _ HI) in H. destruct H as (Hi & Hnt & x & lhs & rest & Hx & Hv & _). split; [exact Hi|].
      destruct (TInv_arena _ _ _ _ _ _ _ HT Hx) as (y & Hy & Hr). exists y. split; [exact Hy|]. destruct (tr_view _ _ _ _ _ _ _ Hr) as (lhs' & Hv' & _).
      destruct (iview_fun _ _ _ _ _ _ Hv Hv') as [_ Et]. unfold is_waiting, next_unmatched. rewrite <- Et. cbn. destruct t; [discriminate|reflexivity].
Qed.

Lemma finished_vectors pg input start st gh d : Inv pg input start st gh d -> (forall k, StronglySorted lt (cm_lookup (cm_complete (s_comp st)) k)) ->
  Permutation (concat (values ckey_eqb (cm_complete (s_comp st)))) (ids_where is_finished (firstn d (tt_arena (s_tree st)))).
Proof.
  intros HI Hs. pose proof (inv_t _ _ _ _ _ _ HI) as HT. apply vectors_perm; [exact Hs| |apply (ids_where_NoDup _ _ _ _ _ _ HI)|].
  - intros [t pos] [t' pos'] i H H'. apply (inv_comp _ _ _ _ _ _ HI) in H. apply (inv_comp _ _ _ _ _ _ HI) in H'.
    destruct H as (_ & x & Hx & Hv & E), H' as (_ & x' & Hx' & Hv' & E').
    rewrite Hx in Hx'. injection Hx' as <-. destruct (iview_fun _ _ _ _ _ _ Hv Hv') as [Et _]. congruence.
  - intro i. rewrite (ids_where_In _ _ _ _ _ _ HI). split.
    + intros (Hi & t & Ht & HP). destruct (arena_id _ _ _ _ _ _ HI _ _ Ht) as (_ & x & Hx & Hr). destruct (tr_view _ _ _ _ _ _ _ Hr) as (lhs & Hv & _).
      unfold is_finished, next_unmatched in HP. destruct (t_unmatched t) as [|u rest]; try discriminate. exists (lhs, i_start x).
      apply (inv_comp _ _ _ _ _ _ HI). split; [exact Hi|]. exists x. auto.
    + intros ([t pos] & H). apply (inv_comp _ _ _ _ _ _ HI) in H. destruct H as (Hi & x & Hx & Hv & _). split; [exact Hi|].
      destruct (TInv_arena _ _ _ _ _ _ _ HT Hx) as (y & Hy & Hr). exists y. split; [exact Hy|]. destruct (tr_view _ _ _ _ _ _ _ Hr) as (lhs' & Hv' & _).
      destruct (iview_fun _ _ _ _ _ _ Hv Hv') as [_ Et]. unfold is_finished, next_unmatched. rewrite <- Et. reflexivity.
Qed.

Lemma historic_comp pg st : historic pg st -> exists l, s_comp st = completions l.
Proof. intros (l & out & ops & ids & qops & [_ _ H _ _ _]). eauto. Qed.

Lemma historic_processed pg st : historic pg st -> q_processed (s_queue st) = rev (seq 0 (length (tt_arena (s_tree st)))).
Proof.
  intros (l & out & ops & ids & qops & Hh). pose proof (in_order _ _ _ _ _ _ _ _ _ _ Hh) as Ho. destruct Hh as [_ H2 _ _ _ _].
  destruct (queue_run_inv qops [] (mkQ [] []) _ _ eq_refl H2) as (new & _ & E & Eq). cbn [app q_queue] in *. rewrite E, <- Eq, Ho. reflexivity.
Qed.

(** ** The statements *)

Lemma parse_tables g start input it it1 : opens g start input it -> visits it it1 ->
  let st := it_state it1 in let arena := tt_arena (s_tree st) in
  Permutation (values troot_eqb (tt_roots (s_tree st))) (ids_where is_root arena) /\
  Permutation (values tedge_eqb (tt_edges (s_tree st))) (ids_where is_child arena) /\
  Permutation (q_processed (s_queue st)) (seq 0 (length arena)).
Proof.
  intros Ho Hv. destruct (visits_ok _ _ _ _ _ Ho Hv) as (Hh & st0 & _ & gh & d & HI). cbv zeta.
  split; [exact (root_entries _ _ _ _ _ _ HI)|]. split; [exact (child_entries _ _ _ _ _ _ HI)|].
  rewrite (historic_processed _ _ Hh). symmetry. apply Permutation_rev.
Qed.

Lemma parse_vectors g start input it it1 : opens g start input it -> visits it it1 ->
  let st := it_state it1 in let arena := tt_arena (s_tree st) in
  let popped := firstn (length arena - length (q_queue (s_queue st))) arena in
  Permutation (concat (values ckey_eqb (cm_incomplete (s_comp st)))) (ids_where is_waiting popped) /\
  Permutation (concat (values ckey_eqb (cm_complete (s_comp st)))) (ids_where is_finished popped) /\
  ~ In [] (values ckey_eqb (cm_incomplete (s_comp st))) /\ ~ In [] (values ckey_eqb (cm_complete (s_comp st))).
Proof.
  intros Ho Hv. destruct (visits_ok _ _ _ _ _ Ho Hv) as (Hh & st0 & _ & gh & d & HI). cbv zeta. destruct (historic_comp _ _ Hh) as (l & El).
  assert (Ed : length (tt_arena (s_tree (it_state it1))) - length (q_queue (s_queue (it_state it1))) = d).
  { pose proof (inv_q _ _ _ _ _ _ HI) as HQ. rewrite (qi_queue _ _ _ HQ), seq_length, (ti_len _ _ _ _ _ (inv_t _ _ _ _ _ _ HI)). pose proof (qi_le _ _ _ HQ). lia. }
  rewrite Ed. split; [apply (waiting_vectors _ _ _ _ _ _ HI); rewrite El; intro k; apply completions_sorted|].
  split; [apply (finished_vectors _ _ _ _ _ _ HI); rewrite El; intro k; apply completions_sorted|]. rewrite El.
  split; intro H; apply (values_In _ ckey_eqb_eq) in H; destruct H as (k & H); apply completions_nonempty in H; exact (H eq_refl).
Qed.

Lemma nonempty_concat {A} (l : list (list A)) : ~ In [] l -> length l <= length (concat l).
Proof.
  induction l as [|x l IH]; intro H; cbn; [lia|]. rewrite app_length. assert (length l <= length (concat l)) by (apply IH; intro; apply H; right; assumption).
  destruct x; [exfalso; apply H; left; reflexivity|]. cbn. lia.
Qed.

Lemma split_length {A} (P Q : A -> bool) l : (forall x, P x = true -> Q x = false) -> length (filter P l) + length (filter Q l) <= length l.
Proof.
  intro H. induction l as [|x l IH]; cbn; [lia|]. destruct (P x) eqn:E; [rewrite (H _ E); cbn; lia|]. destruct (Q x); cbn; lia.
Qed.

Lemma split_all {A} (P Q : A -> bool) l : (forall x, Q x = negb (P x)) -> length (filter P l) + length (filter Q l) = length l.
Proof.
  intro H. induction l as [|x l IH]; cbn; [lia|]. rewrite H. destruct (P x); cbn; lia.
Qed.

Lemma parse_kept g start input it it1 : opens g start input it -> visits it it1 ->
  let n := length (tt_arena (s_tree (it_state it1))) in 3 * n <= kept (it_state it1) <= 5 * n.
Proof.
  intros Ho Hv. destruct (parse_tables _ _ _ _ _ Ho Hv) as (H1 & H2 & H3). destruct (parse_vectors _ _ _ _ _ Ho Hv) as (H4 & H5 & H6 & H7). cbv zeta in *.
  destruct (visits_ok _ _ _ _ _ Ho Hv) as (_ & st0 & _ & gh & d & HI). pose proof (inv_q _ _ _ _ _ _ HI) as HQ. pose proof (qi_queue _ _ _ HQ) as Eq. pose proof (qi_le _ _ _ HQ) as Hd.
  apply (f_equal (@length nat)) in Eq. rewrite seq_length, <- (ti_len _ _ _ _ _ (inv_t _ _ _ _ _ _ HI)) in Eq. rewrite <- (ti_len _ _ _ _ _ (inv_t _ _ _ _ _ _ HI)) in Hd.
  apply Permutation_length in H1, H2, H3, H4, H5. apply nonempty_concat in H6, H7. unfold kept, ids_where in *. rewrite map_length in *. rewrite seq_length in H3.
  set (A := tt_arena (s_tree (it_state it1))) in *. set (pop := firstn _ A) in *.
  pose proof (split_all is_root is_child A) as Ha. pose proof (split_length is_waiting is_finished pop) as Hb.
  specialize (Ha ltac:(intro x; unfold is_root, is_child; destruct (t_from x); reflexivity)).
  specialize (Hb ltac:(intro x; unfold is_waiting, is_finished; destruct (next_unmatched x) as [[]|]; intros; congruence)).
  assert (Hl : length pop <= length A - length (q_queue (s_queue (it_state it1)))) by (unfold pop; rewrite firstn_length; lia). lia.
Qed.

(** ** Nothing is removed *)

Lemma retains_refl st : retains st st.
Proof.
  split; [exists []; rewrite app_nil_r; reflexivity|]. split; [auto|]. split; [auto|]. split; [apply incl_refl|]. intro k. split; apply incl_refl.
Qed.
Lemma retains_trans a b c : retains a b -> retains b c -> retains a c.
Proof.
  intros ((m & E) & H1 & H2 & H3 & H4) ((m' & E') & H1' & H2' & H3' & H4'). split; [exists (m ++ m'); rewrite E', E, app_assoc; reflexivity|].
  split; [auto|]. split; [auto|]. split; [eapply incl_tran; eassumption|]. intro k. destruct (H4 k), (H4' k). split; eapply incl_tran; eassumption.
Qed.

Lemma insert_keeps {K V} (eqb : K -> K -> bool) (Heqb : forall a b, eqb a b = true <-> a = b) (m : hmap K V) key v : hm_get eqb m key = None ->
  forall k id, hm_get eqb m k = Some id -> hm_get eqb (hm_insert m key v) k = Some id.
Proof. intros Hn k id H. rewrite hm_get_insert_other; [exact H|exact Heqb|]. intros ->. congruence. Qed.

Lemma push_keeps q id : incl (q_processed q) (q_processed (q_push q id)).
Proof. unfold q_push. destruct (memb _ _ _); [apply incl_refl|]. apply incl_tl, incl_refl. Qed.

Lemma predict_retains tr q cm range pid rhs b : let '(id, tr') := tt_predict tr range pid rhs b in retains (mkS tr q cm) (mkS tr' (q_push q id) cm).
Proof.
  unfold tt_predict. destruct (hm_get troot_eqb (tt_roots tr) (pid, total_len range)) as [id|] eqn:E.
  - split; [exists []; rewrite app_nil_r; reflexivity|]. split; [auto|]. split; [auto|]. split; [apply push_keeps|]. intro k. split; apply incl_refl.
  - split; [eexists; reflexivity|]. split; [exact (insert_keeps _ troot_eqb_eq _ _ _ E)|]. split; [auto|]. split; [apply push_keeps|]. intro k. split; apply incl_refl.
Qed.

Lemma match_retains tr q cm par m id tr' : tt_match_term tr par m = Ok (id, tr') -> retains (mkS tr q cm) (mkS tr' (q_push q id) cm).
Proof.
  unfold tt_match_term. destruct (nth_error (tt_arena tr) par) as [p|]; cbn [expect rbind]; [|discriminate].
  match goal with |- (let* _ := ?r in _) = _ -> _ => destruct r as [range| |]; cbn [rbind]; try discriminate end.
  destruct (t_unmatched p) as [|u r]; cbn [rbind]; [discriminate|]. destruct (hm_get tedge_eqb (tt_edges tr) (m, t_id p)) as [i|] eqn:E; intro H; injection H as <- <-.
  - split; [exists []; rewrite app_nil_r; reflexivity|]. split; [auto|]. split; [auto|]. split; [apply push_keeps|]. intro k. split; apply incl_refl.
  - split; [eexists; reflexivity|]. split; [auto|]. split; [exact (insert_keeps _ tedge_eqb_eq _ _ _ E)|]. split; [apply push_keeps|]. intro k. split; apply incl_refl.
Qed.

Lemma predict_all_retains pg range b pids : forall tr q tr' q' cm, predict_all pg range b pids tr q = Ok (tr', q') -> retains (mkS tr q cm) (mkS tr' q' cm).
Proof.
  induction pids as [|pid pids IH]; intros tr q tr' q' cm H; cbn [predict_all] in H; [injection H as <- <-; apply retains_refl|].
  destruct (get_production_by_id pg pid) as [prod| |]; cbn [rbind] in H; try discriminate. pose proof (predict_retains tr q cm range pid (snd prod) b) as Hp.
  destruct (tt_predict tr range pid (snd prod) b) as [id tr1]. eapply retains_trans; [exact Hp|]. apply IH, H.
Qed.
Lemma match_all_retains l : forall tr q tr' q' cm, match_all l tr q = Ok (tr', q') -> retains (mkS tr q cm) (mkS tr' q' cm).
Proof.
  induction l as [|[par m] l IH]; intros tr q tr' q' cm H; cbn [match_all] in H; [injection H as <- <-; apply retains_refl|].
  destruct (tt_match_term tr par m) as [[id tr1]| |] eqn:E; cbn [rbind] in H; try discriminate.
  eapply retains_trans; [exact (match_retains _ _ _ _ _ _ _ E)|]. apply IH, H.
Qed.
Lemma insert_retains tr q cm t lhs : retains (mkS tr q cm) (mkS tr q (cm_insert cm t lhs)).
Proof.
  split; [exists []; rewrite app_nil_r; reflexivity|]. split; [auto|]. split; [auto|]. split; [apply incl_refl|]. intro k. cbn [s_comp]. unfold cm_insert.
  destruct (next_unmatched t) as [[s|n]|]; [split; apply incl_refl| |]; cbn [cm_incomplete cm_complete]; (split; [|try apply incl_refl] || split); try apply incl_refl;
    rewrite lookup_insert; (destruct (ckey_eqb _ k) eqn:E; [apply ckey_eqb_eq in E; subst k; intros i Hi; apply sorted_vec_insert_In; left; exact Hi|apply incl_refl]).
Qed.

Lemma process_retains pg tr q cm id r st : process pg tr q cm id = Ok (r, st) -> retains (mkS tr q cm) st.
Proof.
  unfold process. destruct (tt_get tr id) as [t| |]; cbn [rbind]; try discriminate. destruct (next_unmatched t) as [[s|n]|].
  - destruct (starts_with _ _); [|intro H; injection H as <- <-; apply retains_refl].
    destruct (match_all _ tr q) as [[tr1 q1]| |] eqn:E; cbn [rbind]; try discriminate. intro H. injection H as <- <-. exact (match_all_retains _ _ _ _ _ _ E).
  - destruct (get_production_by_id pg (t_pid t)) as [prod| |]; cbn [rbind]; try discriminate.
    destruct (predict_all _ _ _ _ tr q) as [[tr1 q1]| |] eqn:E1; cbn [rbind]; try discriminate.
    destruct (match_all _ tr1 q1) as [[tr2 q2]| |] eqn:E2; cbn [rbind]; try discriminate. intro H. injection H as <- <-.
    eapply retains_trans; [exact (insert_retains tr q cm t (fst prod))|]. eapply retains_trans; [exact (predict_all_retains _ _ _ _ _ _ _ _ _ E1)|exact (match_all_retains _ _ _ _ _ _ E2)].
  - destruct (get_production_by_id pg (t_pid t)) as [prod| |]; cbn [rbind]; try discriminate.
    destruct (match_all _ tr q) as [[tr2 q2]| |] eqn:E2; cbn [rbind]; try discriminate. intro H. injection H as _ <-.
    eapply retains_trans; [exact (insert_retains tr q cm t (fst prod))|exact (match_all_retains _ _ _ _ _ _ E2)].
Qed.

Lemma earley_retains fuel pg : forall st r st', earley fuel pg st = Ok (r, st') -> retains st st'.
Proof.
  induction fuel as [|fuel IH]; intros st r st' H; cbn [earley] in H; [discriminate|].
  destruct (q_queue (s_queue st)) as [|id rest] eqn:Eq; [injection H as <- <-; apply retains_refl|].
  destruct (process _ _ _ _ _) as [[found st1]| |] eqn:E; cbn [rbind] in H; try discriminate. apply process_retains in E.
  assert (Hr : retains st st1) by (destruct st as [tr q cm]; exact E).
  destruct found as [i|]; [injection H as <- <-; exact Hr|]. eapply retains_trans; [exact Hr|eapply IH; exact H].
Qed.

Lemma visits_iff it it1 : visits it it1 <-> it1 = it \/ exists it0 fuel o, visits it it0 /\ iter_next fuel it0 = Ok (o, it1).
Proof.
  split.
  - intro H. destruct H as [|it0 fuel o it2 H E]; [left; reflexivity|right; exists it0, fuel, o; auto].
  - intros [->|(it0 & fuel & o & H & E)]; [constructor|econstructor; eassumption].
Qed.

Lemma visits_retains it it1 : visits it it1 -> retains (it_state it) (it_state it1).
Proof.
  induction 1 as [|it1 f o it2 _ IH E]; [apply retains_refl|]. eapply retains_trans; [exact IH|]. unfold iter_next in E.
  destruct (earley _ _ _) as [[found st]| |] eqn:Ee; cbn [rbind] in E; try discriminate. apply earley_retains in Ee.
  destruct found as [id|]; [destruct (parse_tree _ _ _ _) as [tr| |]; cbn [rbind] in E; try discriminate|]; injection E as _ <-; exact Ee.
Qed.

(** ** Bounds *)

Lemma arena_bound g start input B it it1 : NoDup (flat_prods g) ->
  (forall l, NoDup l -> (forall x, In x l -> partial_parse g start input x) -> length l <= B) ->
  opens g start input it -> visits it it1 -> length (tt_arena (s_tree (it_state it1))) <= B.
Proof.
  intros Hnd HB Ho Hv. destruct (visits_ok _ _ _ _ _ Ho Hv) as (_ & st0 & _ & gh & d & HI). rewrite (ti_len _ _ _ _ _ (inv_t _ _ _ _ _ _ HI)).
  destruct (inv_partial g input start _ gh d Hnd HI) as [H1 H2]. pose proof (HB _ H1 H2) as H. rewrite map_length in H. exact H.
Qed.

Lemma linear_kept g start input it it1 : predictive g -> NoDup (flat_prods g) -> opens g start input it -> visits it it1 -> kept (it_state it1) <= 5 * linear_bound g input.
Proof.
  intros Hp Hnd Ho Hv. destruct (parse_kept _ _ _ _ _ Ho Hv) as [_ H]. pose proof (arena_bound g start input (linear_bound g input) it it1 Hnd) as Hb.
  specialize (Hb (fun l H1 H2 => predictive_partial g start input l Hp H1 H2) Ho Hv). lia.
Qed.
Lemma quadratic_kept g start input it it1 : unambiguous g start -> fruitful g start -> NoDup (flat_prods g) -> opens g start input it -> visits it it1 ->
  kept (it_state it1) <= 5 * quadratic_bound g input.
Proof.
  intros Hu Hf Hnd Ho Hv. destruct (parse_kept _ _ _ _ _ Ho Hv) as [_ H]. pose proof (arena_bound g start input (quadratic_bound g input) it it1 Hnd) as Hb.
  specialize (Hb (fun l H1 H2 => unambiguous_partial g start input l Hu Hf H1 H2) Ho Hv). lia.
Qed.
