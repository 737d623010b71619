(** The machine's arithmetic does not overflow: proofs for C108. *)
From Verif Require Import Machine EarleySpec EarleyInv NormalizeProofs NormalizeClosed NormalizeSpec TextTotal TreeSpec TreeDepth.
From Coq Require Import FinFun.
From Coq Require String.
Import String.StringSyntax.
Open Scope list_scope.

Section MachineProofs.
  Variable checks : bool.
  Variable umax : nat.
  Notation word_add := (word_add checks umax).
  Notation word_sub := (word_sub checks umax).

  Lemma word_add_fits a b : a + b <= umax -> word_add a b = Ok (a + b).
  Proof. intro H. unfold Machine.word_add. apply Nat.leb_le in H. rewrite H. reflexivity. Qed.
  Lemma word_sub_fits a b : b <= a -> word_sub a b = Ok (a - b).
  Proof. intro H. unfold Machine.word_sub. apply Nat.leb_le in H. rewrite H. reflexivity. Qed.

  (** ** Parsing *)

  Section Parsing.
    Variable input : str.
    Hypothesis Hmax : byte_len input <= umax.

    (** Every range lies inside of the input. *)
    Definition within (r : irange) : Prop := r_input r = input /\ total_len r <= byte_len input.
    Definition within_tree (tr : ttree) : Prop :=
      forall i t, nth_error (tt_arena tr) i = Some t -> t_id t = i /\ within (t_range t).
    Definition grows (tr tr' : ttree) : Prop := exists more, tt_arena tr' = tt_arena tr ++ more.
    (** The completed traversals of a key start at its position, the waiting ones have read up to it. *)
    Definition within_map (tr : ttree) (cm : cmap) : Prop :=
      (forall k i, In i (cm_lookup (cm_complete cm) k) ->
         exists t, nth_error (tt_arena tr) i = Some t /\ r_start (t_range t) = snd k) /\
      (forall k i, In i (cm_lookup (cm_incomplete cm) k) ->
         exists t, nth_error (tt_arena tr) i = Some t /\ total_len (t_range t) = snd k).
    (** A match does not reach beyond the input. *)
    Definition fits (tr : ttree) (pm : nat * tmatch) : Prop :=
      exists tp, nth_error (tt_arena tr) (fst pm) = Some tp /\
        match snd pm with
        | MTerminal s => total_len (t_range tp) + byte_len s <= byte_len input
        | MNonterminal c => exists tc, nth_error (tt_arena tr) c = Some tc /\ r_start (t_range tc) = total_len (t_range tp)
        end.

    Lemma grows_refl tr : grows tr tr.
    Proof. exists []. rewrite app_nil_r. reflexivity. Qed.
    Lemma grows_trans a b c : grows a b -> grows b c -> grows a c.
    Proof. intros [x Hx] [y Hy]. exists (x ++ y). rewrite Hy, Hx, app_assoc. reflexivity. Qed.
    Lemma grows_nth tr tr' i t : grows tr tr' -> nth_error (tt_arena tr) i = Some t -> nth_error (tt_arena tr') i = Some t.
    Proof. intros [m ->] H. rewrite nth_error_app1; [assumption|]. apply nth_error_Some. congruence. Qed.
    Lemma grows_map tr tr' cm : grows tr tr' -> within_map tr cm -> within_map tr' cm.
    Proof.
      intros G [H1 H2]. split; intros k i Hi; [destruct (H1 k i Hi) as (t & Ht & E)|destruct (H2 k i Hi) as (t & Ht & E)];
        exists t; (split; [eapply grows_nth; eassumption|exact E]).
    Qed.
    Lemma grows_fits tr tr' pm : grows tr tr' -> fits tr pm -> fits tr' pm.
    Proof.
      intros G (tp & Hp & H). exists tp. split; [eapply grows_nth; eassumption|]. destruct (snd pm) as [s|c]; [exact H|].
      destruct H as (tc & Hc & E). exists tc. split; [eapply grows_nth; eassumption|exact E].
    Qed.

    Lemma snoc_within tr t roots edges : within_tree tr -> t_id t = length (tt_arena tr) -> within (t_range t) ->
      within_tree (mkTT (tt_arena tr ++ [t]) roots edges).
    Proof.
      intros H Hi Hw i t' Ht. cbn [tt_arena] in Ht. destruct (Nat.lt_ge_cases i (length (tt_arena tr))) as [L|L].
      - rewrite nth_error_app1 in Ht by assumption. apply H. assumption.
      - rewrite nth_error_app2 in Ht by assumption. destruct (i - length (tt_arena tr)) as [|d] eqn:E.
        + cbn in Ht. injection Ht as <-. split; [rewrite Hi; lia|assumption].
        + destruct d; discriminate.
    Qed.

    Lemma predict_w tr range pid rhs b : within range -> within_tree tr ->
      tt_predict_w checks umax tr range pid rhs b = Ok (tt_predict tr range pid rhs b) /\
      within_tree (snd (tt_predict tr range pid rhs b)) /\ grows tr (snd (tt_predict tr range pid rhs b)).
    Proof.
      intros [Hi Hr] Ht. unfold total_len in Hr. unfold tt_predict_w, tt_predict, total_len_w, range_after_w.
      rewrite word_add_fits by lia. cbn [rbind]. fold (total_len range).
      destruct (hm_get troot_eqb (tt_roots tr) (pid, total_len range)) as [id|].
      - cbn [snd]. split; [reflexivity|]. split; [assumption|apply grows_refl].
      - cbn [snd]. split; [reflexivity|]. split.
        + apply snoc_within; [assumption|reflexivity|]. split; [exact Hi|]. unfold total_len. cbn. lia.
        + eexists. cbn [tt_arena]. reflexivity.
    Qed.

    Lemma advance_w r step : within r -> r_len r + step <= umax ->
      advance_by_w checks umax r step = advance_by r step /\ forall r', advance_by r step = Ok r' -> within r'.
    Proof.
      intros [Hi Hr] Hs. unfold total_len in Hr. unfold advance_by_w, advance_by. rewrite Hi.
      rewrite word_sub_fits by lia. cbn [rbind]. rewrite word_add_fits by lia. cbn [rbind].
      destruct (Nat.ltb_spec (byte_len input) (r_start r)); [lia|]. split; [reflexivity|].
      intros r' E. injection E as <-. split; [reflexivity|]. unfold total_len. cbn [r_start r_len]. lia.
    Qed.

    Lemma match_term_w tr p m : within_tree tr -> fits tr (p, m) ->
      tt_match_term_w checks umax tr p m = tt_match_term tr p m /\
      forall id tr', tt_match_term tr p m = Ok (id, tr') -> within_tree tr' /\ grows tr tr'.
    Proof.
      intros Ht (tp & Hp & Hm). cbn [fst snd] in *. destruct (Ht _ _ Hp) as [_ Hw].
      unfold tt_match_term_w, tt_match_term. rewrite Hp. cbn [expect rbind].
      assert (A : exists step,
        (match m with
         | MTerminal s => advance_by_w checks umax (t_range tp) (byte_len s)
         | MNonterminal nid => let* nt := expect (nth_error (tt_arena tr) nid) in advance_by_w checks umax (t_range tp) (r_len (t_range nt))
         end) = advance_by_w checks umax (t_range tp) step /\
        (match m with
         | MTerminal s => advance_by (t_range tp) (byte_len s)
         | MNonterminal nid => let* nt := expect (nth_error (tt_arena tr) nid) in advance_by (t_range tp) (r_len (t_range nt))
         end) = advance_by (t_range tp) step /\ r_len (t_range tp) + step <= umax).
      { destruct m as [s|c].
        - exists (byte_len s). split; [reflexivity|]. split; [reflexivity|]. unfold total_len in Hm. lia.
        - destruct Hm as (tc & Hc & E). exists (r_len (t_range tc)). rewrite Hc. cbn [expect rbind].
          split; [reflexivity|]. split; [reflexivity|]. destruct (Ht _ _ Hc) as [_ [_ Hwc]]. unfold total_len in *. lia. }
      destruct A as (step & -> & -> & Hs). destruct (advance_w (t_range tp) step Hw Hs) as [-> Hr].
      destruct (advance_by (t_range tp) step) as [range| |]; cbn [rbind]; [|split; [reflexivity|discriminate]..].
      destruct (t_unmatched tp) as [|x un]; cbn [rbind]; [split; [reflexivity|discriminate]|]. split; [reflexivity|].
      intros id tr'. destruct (hm_get tedge_eqb (tt_edges tr) (m, t_id tp)) as [e|]; intro E; injection E as <- <-.
      - split; [assumption|apply grows_refl].
      - split; [|eexists; cbn [tt_arena]; reflexivity]. apply snoc_within; [assumption|reflexivity|]. apply Hr. reflexivity.
    Qed.

    Lemma predict_all_w_eq pg range b : within range -> forall pids tr q, within_tree tr ->
      predict_all_w checks umax pg range b pids tr q = predict_all pg range b pids tr q /\
      forall tr' q', predict_all pg range b pids tr q = Ok (tr', q') -> within_tree tr' /\ grows tr tr'.
    Proof.
      intros Hr. induction pids as [|pid pids IH]; intros tr q Ht; cbn [predict_all_w predict_all].
      - split; [reflexivity|]. intros tr' q' E. injection E as <- <-. split; [assumption|apply grows_refl].
      - destruct (get_production_by_id pg pid) as [prod| |]; cbn [rbind]; [|split; [reflexivity|discriminate]..].
        destruct (predict_w tr range pid (snd prod) b Hr Ht) as (-> & H1 & H2).
        destruct (tt_predict tr range pid (snd prod) b) as [id tr1]. cbn [rbind snd] in *.
        destruct (IH tr1 (q_push q id) H1) as [E H]. rewrite E. split; [reflexivity|].
        intros tr' q' E'. destruct (H tr' q' E') as [H3 H4]. split; [assumption|]. eapply grows_trans; eassumption.
    Qed.

    Lemma match_all_w_eq : forall l tr q, within_tree tr -> (forall pm, In pm l -> fits tr pm) ->
      match_all_w checks umax l tr q = match_all l tr q /\
      forall tr' q', match_all l tr q = Ok (tr', q') -> within_tree tr' /\ grows tr tr'.
    Proof.
      induction l as [|[p m] l IH]; intros tr q Ht Hl; cbn [match_all_w match_all].
      - split; [reflexivity|]. intros tr' q' E. injection E as <- <-. split; [assumption|apply grows_refl].
      - destruct (match_term_w tr p m Ht (Hl _ (or_introl eq_refl))) as [-> H1].
        destruct (tt_match_term tr p m) as [[id tr1]| |]; cbn [rbind]; [|split; [reflexivity|discriminate]..].
        destruct (H1 id tr1 eq_refl) as [H2 H3].
        destruct (IH tr1 (q_push q id) H2) as [E H]; [intros pm Hpm; eapply grows_fits; [eassumption|apply Hl; right; assumption]|].
        rewrite E. split; [reflexivity|]. intros tr' q' E'. destruct (H tr' q' E') as [H4 H5].
        split; [assumption|]. eapply grows_trans; eassumption.
    Qed.

    Lemma lookup_insert m k v k' : cm_lookup (hm_insert m k v) k' = if ckey_eqb k k' then v else cm_lookup m k'.
    Proof. unfold cm_lookup. cbn. destruct (ckey_eqb k k'); reflexivity. Qed.
    Lemma ckey_eqb_snd k k' : ckey_eqb k k' = true -> k = k'.
    Proof.
      unfold ckey_eqb. intro H. apply andb_prop in H. destruct H as [H1 H2]. apply term_eqb_eq in H1. apply Nat.eqb_eq in H2.
      destruct k, k'. cbn in *. congruence.
    Qed.

    Lemma insert_w tr cm t lhs : within_tree tr -> within_map tr cm -> nth_error (tt_arena tr) (t_id t) = Some t ->
      cm_insert_w checks umax cm t lhs = Ok (cm_insert cm t lhs) /\ within_map tr (cm_insert cm t lhs).
    Proof.
      intros Ht [Hc Hi] Hn. destruct (Ht _ _ Hn) as [_ [_ Hw]]. unfold cm_insert_w, cm_insert, key_total_w, total_len_w.
      unfold total_len in Hw. rewrite word_add_fits by lia. cbn [rbind]. fold (total_len (t_range t)).
      destruct (next_unmatched t) as [[s|n]|].
      - split; [reflexivity|split; assumption].
      - split; [reflexivity|]. split; [exact Hc|]. cbn [cm_incomplete]. intros k i. rewrite lookup_insert.
        destruct (ckey_eqb (key_total (Nonterminal n) (t_range t)) k) eqn:E; [|apply Hi].
        apply ckey_eqb_snd in E. subst k. rewrite sorted_vec_insert_In. intros [H| ->]; [apply Hi; exact H|].
        exists t. split; [exact Hn|reflexivity].
      - split; [reflexivity|]. split; [|exact Hi]. cbn [cm_complete]. intros k i. rewrite lookup_insert.
        destruct (ckey_eqb (key_start lhs (t_range t)) k) eqn:E; [|apply Hc].
        apply ckey_eqb_snd in E. subst k. rewrite sorted_vec_insert_In. intros [H| ->]; [apply Hc; exact H|].
        exists t. split; [exact Hn|reflexivity].
    Qed.

    Lemma next_w r : within r -> range_next_w checks umax r = Ok (range_next r).
    Proof. intros [Hi Hr]. unfold total_len in Hr. unfold range_next_w, range_next. rewrite word_add_fits by lia. reflexivity. Qed.
    Lemma next_fits r s : within r -> starts_with (range_next r) s = true -> total_len r + byte_len s <= byte_len input.
    Proof.
      intros [Hi Hr] H. apply starts_with_spec in H. destruct H as [rest H]. unfold range_next in H.
      destruct (str_get_from (r_start r + r_len r) (r_input r)) as [w|] eqn:E.
      - apply str_get_from_inv in E. destruct E as (a & E & Ea). rewrite <- Hi, E, H, !byte_len_app, Ea. unfold total_len. lia.
      - destruct s as [|c s]; [|discriminate]. cbn. lia.
    Qed.

    Definition within_state (st : pstate) : Prop := within_tree (s_tree st) /\ within_map (s_tree st) (s_comp st).

    Lemma process_w_eq pg tr q cm id : within_tree tr -> within_map tr cm ->
      process_w checks umax pg tr q cm id = process pg tr q cm id /\
      forall found st, process pg tr q cm id = Ok (found, st) -> within_state st.
    Proof.
      intros Ht Hc. unfold process_w, process, tt_get.
      destruct (nth_error (tt_arena tr) id) as [t|] eqn:Hn; cbn [expect rbind]; [|split; [reflexivity|discriminate]].
      destruct (Ht _ _ Hn) as [Hid Hw]. assert (Hn' : nth_error (tt_arena tr) (t_id t) = Some t) by (rewrite Hid; exact Hn).
      destruct (next_unmatched t) as [[s|n]|] eqn:Hu.
      - rewrite next_w by assumption. cbn [rbind]. destruct (starts_with (range_next (t_range t)) s) eqn:Es.
        + destruct (match_all_w_eq [(id, MTerminal s)] tr q Ht) as [-> H].
          { intros pm [<-|[]]. exists t. split; [exact Hn|]. cbn [snd]. apply next_fits; assumption. }
          destruct (match_all [(id, MTerminal s)] tr q) as [[tr' q']| |]; cbn [rbind]; [|split; [reflexivity|discriminate]..].
          split; [reflexivity|]. intros found st E. injection E as <- <-. destruct (H _ _ eq_refl) as [H1 H2].
          split; [exact H1|]. eapply grows_map; eassumption.
        + split; [reflexivity|]. intros found st E. injection E as <- <-. split; assumption.
      - destruct (get_production_by_id pg (t_pid t)) as [prod| |]; cbn [rbind]; [|split; [reflexivity|discriminate]..].
        destruct (insert_w tr cm t (fst prod) Ht Hc Hn') as [-> Hc']. cbn [rbind].
        destruct (predict_all_w_eq pg (t_range t) false Hw (get_productions_by_lhs pg (Nonterminal n)) tr q Ht) as [-> H].
        destruct (predict_all pg (t_range t) false (get_productions_by_lhs pg (Nonterminal n)) tr q) as [[tr1 q1]| |];
          cbn [rbind]; [|split; [reflexivity|discriminate]..].
        destruct (H _ _ eq_refl) as [Ht1 G1]. pose proof (grows_map _ _ _ G1 Hc') as Hc1.
        assert (E : get_complete_w checks umax (cm_insert cm t (fst prod)) (Nonterminal n) (t_range t)
                    = Ok (get_complete (cm_insert cm t (fst prod)) (Nonterminal n) (t_range t))).
        { unfold get_complete_w, key_total_w, total_len_w. destruct Hw as [_ Hw]. unfold total_len in Hw. rewrite word_add_fits by lia. reflexivity. }
        rewrite E. cbn [rbind].
        match goal with |- context [match_all_w _ _ ?l tr1 q1] => destruct (match_all_w_eq l tr1 q1 Ht1) as [-> H2] end.
        { intros pm Hpm. apply in_map_iff in Hpm. destruct Hpm as (c & <- & Hin). exists t. split; [exact (grows_nth _ _ _ _ G1 Hn)|].
          cbn [snd]. destruct (proj1 Hc1 _ _ Hin) as (tc & Htc & Es). exists tc. split; [exact Htc|exact Es]. }
        match goal with |- context [match_all ?l tr1 q1] => destruct (match_all l tr1 q1) as [[tr2 q2]| |] end;
          cbn [rbind]; [|split; [reflexivity|discriminate]..].
        split; [reflexivity|]. intros found st E'. injection E' as <- <-. destruct (H2 _ _ eq_refl) as [H3 H4].
        split; [exact H3|]. eapply grows_map; eassumption.
      - destruct (get_production_by_id pg (t_pid t)) as [prod| |]; cbn [rbind]; [|split; [reflexivity|discriminate]..].
        destruct (insert_w tr cm t (fst prod) Ht Hc Hn') as [-> Hc']. cbn [rbind].
        match goal with |- context [match_all_w _ _ ?l tr q] => destruct (match_all_w_eq l tr q Ht) as [-> H2] end.
        { intros pm Hpm. apply in_map_iff in Hpm. destruct Hpm as (i & <- & Hin).
          destruct (proj2 Hc' _ _ Hin) as (ti & Hti & Es). exists ti. split; [exact Hti|]. cbn [snd].
          exists t. split; [exact Hn|]. symmetry. exact Es. }
        match goal with |- context [match_all ?l tr q] => destruct (match_all l tr q) as [[tr2 q2]| |] end;
          cbn [rbind]; [|split; [reflexivity|discriminate]..].
        split; [reflexivity|]. intros found st E'. injection E' as <- <-. destruct (H2 _ _ eq_refl) as [H3 H4].
        split; [exact H3|]. eapply grows_map; eassumption.
    Qed.

    Lemma earley_w_eq pg : forall fuel st, within_state st ->
      earley_w checks umax fuel pg st = earley fuel pg st /\
      forall found st', earley fuel pg st = Ok (found, st') -> within_state st'.
    Proof.
      induction fuel as [|fuel IH]; intros st [Ht Hc]; cbn [earley_w earley]; [split; [reflexivity|discriminate]|].
      destruct (q_queue (s_queue st)) as [|id rest].
      - split; [reflexivity|]. intros found st' E. injection E as <- <-. split; assumption.
      - destruct (process_w_eq pg (s_tree st) (mkQ (q_processed (s_queue st)) rest) (s_comp st) id Ht Hc) as [-> H].
        destruct (process pg (s_tree st) (mkQ (q_processed (s_queue st)) rest) (s_comp st) id) as [[found st1]| |];
          cbn [rbind]; [|split; [reflexivity|discriminate]..].
        specialize (H _ _ eq_refl). destruct found as [i|]; [|apply IH; exact H].
        split; [reflexivity|]. intros found st' E. injection E as <- <-. exact H.
    Qed.

    Lemma iter_next_w_eq fuel it : within_state (it_state it) ->
      iter_next_w checks umax fuel it = iter_next fuel it /\
      forall o it', iter_next fuel it = Ok (o, it') -> within_state (it_state it').
    Proof.
      intro H. unfold iter_next_w, iter_next. destruct (earley_w_eq (gp_pg (it_parser it)) fuel _ H) as [-> H1].
      destruct (earley fuel (gp_pg (it_parser it)) (it_state it)) as [[found st]| |]; cbn [rbind]; [|split; [reflexivity|discriminate]..].
      specialize (H1 _ _ eq_refl). split; [reflexivity|]. intros o it' E. destruct found as [id|].
      - destruct (parse_tree _ (s_tree st) _ id) as [t| |]; cbn [rbind] in E; try discriminate. injection E as <- <-. exact H1.
      - injection E as <- <-. exact H1.
    Qed.

    Lemma within_new : within (range_new input).
    Proof. split; [reflexivity|]. cbn. lia. Qed.
    Lemma within_empty : within_tree (mkTT [] [] []).
    Proof. intros i t H. destruct i; discriminate. Qed.

    Lemma iter_new_w_eq p start : iter_new_w checks umax p input start = iter_new p input start /\
      forall it, iter_new p input start = Ok it -> within_state (it_state it).
    Proof.
      unfold iter_new_w, iter_new.
      match goal with |- context [predict_all_w _ _ ?pg ?r ?b ?pids ?tr ?q] =>
        destruct (predict_all_w_eq pg r b within_new pids tr q within_empty) as [-> H];
        destruct (predict_all pg r b pids tr q) as [[tr1 q1]| |] end; cbn [rbind]; [|split; [reflexivity|discriminate]..].
      split; [reflexivity|]. intros it E. injection E as <-. destruct (H _ _ eq_refl) as [H1 _]. split; [exact H1|].
      split; intros k i [].
    Qed.

    Lemma opens_within g start it : opens g start input it -> within_state (it_state it).
    Proof.
      intros [ho p it0 _ H|ho p it0 _ _ H|it0 H|it0 _ H].
      - exact (proj2 (iter_new_w_eq p (Some start)) _ H).
      - exact (proj2 (iter_new_w_eq p (Some (gp_start p))) _ H).
      - unfold grammar_parse_input_starting_with in H. destruct (parser_new_unchecked g) as [p| |]; try discriminate.
        exact (proj2 (iter_new_w_eq p (Some start)) _ H).
      - unfold grammar_parse_input in H. destruct (parser_new_unchecked g) as [p| |]; try discriminate.
        exact (proj2 (iter_new_w_eq p None) _ H).
    Qed.
    Lemma produces_within it ts it1 : produces it ts it1 -> within_state (it_state it) -> within_state (it_state it1).
    Proof. induction 1 as [|it t it1 ts it2 fuel E _ IH]; intro H; [exact H|]. apply IH. exact (proj2 (iter_next_w_eq fuel it H) _ _ E). Qed.

    Lemma parsing_words g start it ts it1 fuel : opens g start input it -> produces it ts it1 ->
      iter_next_w checks umax fuel it1 = iter_next fuel it1.
    Proof. intros Ho Hp. apply iter_next_w_eq. exact (produces_within _ _ _ Hp (opens_within _ _ _ Ho)). Qed.
  End Parsing.
  (** ** Names for groups *)

  Lemma fresh_name_w used : forall fuel k n u c, fresh_anon_name fuel used k = Ok (n, u, c) -> c <= umax ->
    fresh_anon_name_w checks umax fuel used k = Ok (n, u, c).
  Proof.
    induction fuel as [|fuel IH]; intros k n u c H Hc; [discriminate|].
    pose proof (fresh_anon_name_dense used _ _ _ _ _ H) as (j & Hj & _ & _ & _ & _ & Ec).
    cbn [fresh_anon_name fresh_anon_name_w] in *. rewrite word_add_fits by lia. cbn [rbind]. rewrite Nat.add_1_r.
    destruct (str_memb (lit "__anon" ++ dec k) used); [apply IH; assumption|exact H].
  Qed.

  (** All smaller numbers are in use, so the counter is at most the number of names in use. *)
  Definition dense (st : lstate) : Prop := forall i, i < l_counter st -> In (anon_name i) (l_used st).
  Lemma dense_count (used : list str) n : (forall i, i < n -> In (anon_name i) used) -> n <= length used.
  Proof.
    intro H. replace n with (length (map anon_name (seq 0 n))) by (rewrite map_length, seq_length; reflexivity).
    apply NoDup_incl_length.
    - apply Injective_map_NoDup; [exact anon_name_inj|apply seq_NoDup].
    - intros x Hx. apply in_map_iff in Hx. destruct Hx as (i & <- & Hi). apply in_seq in Hi. apply H. lia.
  Qed.

  Definition counts {A B} (f f_w : A -> lstate -> res (B * lstate)) (count : A -> nat) (x : A) : Prop :=
    forall st, dense st -> length (l_used st) + count x <= umax ->
      f_w x st = f x st /\ forall y st', f x st = Ok (y, st') -> dense st' /\ length (l_used st') = length (l_used st) + count x.

  Lemma fresh_w_eq st : dense st -> length (l_used st) + 1 <= umax ->
    exists n st', fresh st = Ok (n, st') /\ fresh_w checks umax st = Ok (n, st') /\ dense st' /\ length (l_used st') = length (l_used st) + 1.
  Proof.
    intros Hd Hl. destruct (fresh_dense st) as (j & H1 & H2 & H3 & E). pose proof E as E'. unfold fresh in E.
    destruct (fresh_anon_name _ _ _) as [[[n u] c]| |] eqn:Ef; cbn in E; try discriminate. injection E as -> -> ->.
    assert (Hj : j <= length (l_used st)).
    { apply dense_count. intros i Hi. destruct (Nat.lt_ge_cases i (l_counter st)); [apply Hd; assumption|apply H3; assumption]. }
    exists (anon_name j), (mkL (anon_name j :: l_used st) (S j) (l_anon st)). split; [exact E'|]. split.
    { unfold fresh_w. rewrite (fresh_name_w _ _ _ _ _ _ Ef) by lia. reflexivity. }
    split; [|cbn; lia]. intros i Hi. cbn [l_counter l_used] in *. destruct (Nat.eq_dec i j) as [->|]; [left; reflexivity|right].
    destruct (Nat.lt_ge_cases i (l_counter st)); [apply Hd; assumption|apply H3; lia].
  Qed.

  Lemma map_st_counts {A B} (f f_w : A -> lstate -> res (B * lstate)) count l : (forall x, In x l -> counts f f_w count x) ->
    counts (map_st f) (map_st f_w) (fun l => list_sum (map count l)) l.
  Proof.
    induction l as [|x l IH]; intros H st Hd Hl.
    - split; [reflexivity|]. intros y st' E. cbn in E. injection E as <- <-. split; [assumption|cbn; lia].
    - rewrite !map_st_cons. cbn [map] in *. unfold list_sum in *. cbn [fold_right] in *.
      destruct (H x (or_introl eq_refl) st Hd) as [-> H1]; [lia|].
      destruct (f x st) as [[y st1]| |]; cbn [rbind]; [|split; [reflexivity|discriminate]..].
      destruct (H1 _ _ eq_refl) as [D1 L1].
      destruct (IH (fun y Hy => H y (or_intror Hy)) st1 D1) as [-> H2]; [lia|].
      destruct (map_st f l st1) as [[ys st2]| |]; cbn [rbind]; [|split; [reflexivity|discriminate]..].
      destruct (H2 _ _ eq_refl) as [D2 L2]. split; [reflexivity|]. intros y' st' E. injection E as <- <-.
      split; [assumption|lia].
  Qed.

  Lemma lower_term_counts t : counts lower_term (lower_term_w checks umax) count_groups t.
  Proof.
    induction t as [t|es IH|es IH] using parsed_term_ind'; intros st Hd Hl.
    - split; [reflexivity|]. intros y st' E. cbn in E. injection E as <- <-. split; [assumption|cbn; lia].
    - cbn [lower_term lower_term_w count_groups] in *. destruct (fresh_w_eq st Hd) as (n & st1 & -> & -> & D1 & L1); [lia|]. cbn [rbind].
      destruct (map_st_counts (map_st lower_term) (map_st (lower_term_w checks umax)) (fun e => list_sum (map count_groups e)) es
        (fun e He => map_st_counts _ _ _ e (IH e He)) st1 D1) as [-> H1]; [lia|].
      destruct (map_st (map_st lower_term) es st1) as [[rhs st2]| |]; cbn [rbind]; [|split; [reflexivity|discriminate]..].
      destruct (H1 _ _ eq_refl) as [D2 L2]. split; [reflexivity|]. intros y st' E. injection E as <- <-. split; [exact D2|cbn; lia].
    - cbn [lower_term lower_term_w count_groups] in *. destruct (fresh_w_eq st Hd) as (n & st1 & -> & -> & D1 & L1); [lia|]. cbn [rbind].
      destruct (map_st_counts (map_st lower_term) (map_st (lower_term_w checks umax)) (fun e => list_sum (map count_groups e)) es
        (fun e He => map_st_counts _ _ _ e (IH e He)) st1 D1) as [-> H1]; [lia|].
      destruct (map_st (map_st lower_term) es st1) as [[rhs st2]| |]; cbn [rbind]; [|split; [reflexivity|discriminate]..].
      destruct (H1 _ _ eq_refl) as [D2 L2]. split; [reflexivity|]. intros y st' E. injection E as <- <-. split; [exact D2|cbn; lia].
  Qed.

  Lemma lower_production_counts p : counts lower_production (lower_production_w checks umax)
    (fun p => list_sum (map (fun e => list_sum (map count_groups e)) (pp_rhs p))) p.
  Proof.
    intros st Hd Hl. unfold lower_production, lower_production_w.
    destruct (map_st_counts lower_expression (lower_expression_w checks umax) (fun e => list_sum (map count_groups e)) (pp_rhs p)
      (fun e He => map_st_counts _ _ _ e (fun t _ => lower_term_counts t)) st Hd Hl) as [-> H1].
    destruct (map_st lower_expression (pp_rhs p) st) as [[rhs st2]| |]; cbn [rbind]; [|split; [reflexivity|discriminate]..].
    split; [reflexivity|]. intros y st' E. injection E as <- <-. exact (H1 _ _ eq_refl).
  Qed.

  Lemma normalize_words pg : length pg + count_all pg <= umax -> normalize_w checks umax pg = normalize_parsed_grammar pg.
  Proof.
    intro H. unfold normalize_w, normalize_parsed_grammar.
    destruct (map_st_counts lower_production (lower_production_w checks umax) _ pg (fun p _ => lower_production_counts p)
      (mkL (map pp_lhs pg) 0 [])) as [-> _]; [intros i Hi; cbn in Hi; lia| |reflexivity].
    cbn [l_used]. rewrite map_length. exact H.
  Qed.

  (** ** Formatting *)

  Section Kids.
  Variables (n : nat) (a : str).
  Fixpoint mermaid_kids (ks : list (node term)) (count : nat) : res (str * nat) :=
    match ks with
    | nil => Ok ([], count)
    | k :: ks' =>
        let count := count + 1 in
        let* (out, count) :=
          match k with
          | Leaf s => Ok (mermaid_line n a count (escape_mermaid_label s), count)
          | Sub t' =>
              let* rhs := mermaid_lhs (match t' with Node l' _ => l' end) in
              let line := mermaid_line n a count (escape_mermaid_label rhs) in
              let* (out, count) := mermaid_fmt t' count in
              Ok (line ++ out, count)
          end in
        let* (rest, count) := mermaid_kids ks' count in
        Ok (out ++ rest, count)
    end.
  Fixpoint mermaid_kids_w (ks : list (node term)) (count : nat) : res (str * nat) :=
    match ks with
    | nil => Ok ([], count)
    | k :: ks' =>
        let* count := word_add count 1 in
        let* (out, count) :=
          match k with
          | Leaf s => Ok (mermaid_line n a count (escape_mermaid_label s), count)
          | Sub t' =>
              let* rhs := mermaid_lhs (match t' with Node l' _ => l' end) in
              let line := mermaid_line n a count (escape_mermaid_label rhs) in
              let* (out, count) := mermaid_fmt_w checks umax t' count in
              Ok (line ++ out, count)
          end in
        let* (rest, count) := mermaid_kids_w ks' count in
        Ok (out ++ rest, count)
    end.
  End Kids.
  Lemma mermaid_Node l ks c : mermaid_fmt (Node l ks) c =
    (let* lhs := mermaid_lhs l in let* (body, count) := mermaid_kids c (escape_mermaid_label lhs) ks c in
     Ok ((if Nat.eqb c 0 then lit "flowchart TD" ++ newline else []) ++ body, count)).
  Proof. reflexivity. Qed.
  Lemma mermaid_w_Node l ks c : mermaid_fmt_w checks umax (Node l ks) c =
    (let* lhs := mermaid_lhs l in let* (body, count) := mermaid_kids_w c (escape_mermaid_label lhs) ks c in
     Ok ((if Nat.eqb c 0 then lit "flowchart TD" ++ newline else []) ++ body, count)).
  Proof. reflexivity. Qed.

  Lemma mermaid_words_at t : forall c, c + tree_size t <= S umax ->
    mermaid_fmt_w checks umax t c = mermaid_fmt t c /\ forall out c', mermaid_fmt t c = Ok (out, c') -> S c' = c + tree_size t.
  Proof.
    induction t as [l ks IH] using tree_ind'. intros c Hc. rewrite mermaid_Node, mermaid_w_Node.
    destruct (mermaid_lhs l) as [lhs| |]; cbn [rbind]; [|split; [reflexivity|discriminate]..].
    assert (A : forall n a ks, (forall t, In (Sub t) ks -> forall c, c + tree_size t <= S umax ->
        mermaid_fmt_w checks umax t c = mermaid_fmt t c /\ forall out c', mermaid_fmt t c = Ok (out, c') -> S c' = c + tree_size t) ->
      forall c, c + list_sum (map node_size ks) <= umax ->
        mermaid_kids_w n a ks c = mermaid_kids n a ks c /\
        forall out c', mermaid_kids n a ks c = Ok (out, c') -> c' = c + list_sum (map node_size ks)).
    { clear. intros n a. induction ks as [|k ks IH]; intros Hk c Hc; cbn [mermaid_kids_w mermaid_kids].
      - split; [reflexivity|]. intros out c' E. injection E as <- <-. cbn. lia.
      - unfold list_sum in *. cbn [map fold_right] in *. specialize (IH (fun t Ht => Hk t (or_intror Ht))).
        destruct k as [s|t]; cbn [node_size] in *.
        + rewrite word_add_fits by lia. cbn [rbind]. destruct (IH (c + 1)) as [-> H]; [lia|].
          destruct (mermaid_kids n a ks (c + 1)) as [[rest c2]| |]; cbn [rbind]; [|split; [reflexivity|discriminate]..].
          split; [reflexivity|]. intros out c' E. injection E as <- <-. rewrite (H _ _ eq_refl). lia.
        + assert (Hpos : 1 <= tree_size t) by (destruct t; cbn; lia). rewrite word_add_fits by lia. cbn [rbind].
          destruct (mermaid_lhs (match t with Node l' _ => l' end)) as [rhs| |]; cbn [rbind]; [|split; [reflexivity|discriminate]..].
          destruct (Hk t (or_introl eq_refl) (c + 1)) as [-> H1]; [lia|].
          destruct (mermaid_fmt t (c + 1)) as [[out1 c1]| |]; cbn [rbind]; [|split; [reflexivity|discriminate]..].
          specialize (H1 _ _ eq_refl). destruct (IH c1) as [-> H]; [lia|].
          destruct (mermaid_kids n a ks c1) as [[rest c2]| |]; cbn [rbind]; [|split; [reflexivity|discriminate]..].
          split; [reflexivity|]. intros out c' E. injection E as <- <-. rewrite (H _ _ eq_refl). lia. }
    change (tree_size (Node l ks)) with (S (list_sum (map node_size ks))) in *.
    destruct (A c (escape_mermaid_label lhs) ks IH c) as [-> H]; [lia|].
    destruct (mermaid_kids c (escape_mermaid_label lhs) ks c) as [[body c']| |]; cbn [rbind]; [|split; [reflexivity|discriminate]..].
    split; [reflexivity|]. intros out c2 E. injection E as <- <-. rewrite (H _ _ eq_refl). lia.
  Qed.
  Lemma mermaid_words t : tree_size t <= S umax -> display_mermaid_w checks umax t = display_mermaid t.
  Proof. intro H. unfold display_mermaid_w, display_mermaid. destruct (mermaid_words_at t 0 H) as [-> _]. reflexivity. Qed.

  Lemma prefix_words set d b : d <= umax -> fmt_node_prefix_w checks umax set d b = Ok (fmt_node_prefix set d b).
  Proof.
    intro H. unfold fmt_node_prefix_w, fmt_node_prefix. assert (A : forall i, In i (seq 0 d) -> i + 1 <= umax).
    { intros i Hi. apply in_seq in Hi. lia. }
    revert A. generalize (seq 0 d). induction l as [|i l IH]; intro A; cbn [prefix_w flat_map]; [reflexivity|].
    rewrite word_add_fits by (apply A; left; reflexivity). cbn [rbind]. rewrite IH by (intros j Hj; apply A; right; exact Hj). reflexivity.
  Qed.

  Section Kids.
  Variables (d child_depth : nat).
  Fixpoint fmt_kids (ks : list (node term)) (set : format_set) : str * format_set :=
    match ks with
    | nil => ([], set)
    | k :: ks' =>
        let last := match ks' with nil => true | _ => false end in
        let set := if last then fs_remove d set else set in
        let (out, set) := match k with
                          | Leaf s => (fmt_node_prefix set (d + 1) last ++ TreeFormat.quoted s ++ newline, set)
                          | Sub t => fmt_tree t set (d + 1) last
                          end in
        let (rest, set) := fmt_kids ks' set in
        (out ++ rest, set)
    end.
  Fixpoint fmt_kids_w (ks : list (node term)) (set : format_set) : res (str * format_set) :=
    match ks with
    | nil => Ok ([], set)
    | k :: ks' =>
        let last := match ks' with nil => true | _ => false end in
        let set := if last then fs_remove d set else set in
        let* (out, set) := match k with
                           | Leaf s => let* prefix := fmt_node_prefix_w checks umax set child_depth last in
                                       Ok (prefix ++ TreeFormat.quoted s ++ newline, set)
                           | Sub t => fmt_tree_w checks umax t set child_depth last
                           end in
        let* (rest, set) := fmt_kids_w ks' set in
        Ok (out ++ rest, set)
    end.
  End Kids.
  Lemma fmt_Node l ks set d b : fmt_tree (Node l ks) set d b =
    let set := fs_insert d set in
    let (body, set') := fmt_kids d ks set in ((fmt_node_prefix set d b ++ fmt_header l ks ++ newline) ++ body, set').
  Proof. reflexivity. Qed.
  Lemma fmt_w_Node l ks set d b : fmt_tree_w checks umax (Node l ks) set d b =
    let set := fs_insert d set in
    let* prefix := fmt_node_prefix_w checks umax set d b in
    let* child_depth := word_add d 1 in
    let* (body, set') := fmt_kids_w d child_depth ks set in
    Ok ((prefix ++ fmt_header l ks ++ newline) ++ body, set').
  Proof. reflexivity. Qed.

  Lemma fmt_words_at t : forall set d b, d + height t <= umax -> fmt_tree_w checks umax t set d b = Ok (fmt_tree t set d b).
  Proof.
    induction t as [l ks IH] using tree_ind'. intros set d b H. rewrite fmt_Node, fmt_w_Node. cbv zeta.
    cbn [height] in H. rewrite prefix_words by lia. cbn [rbind]. rewrite word_add_fits by lia. cbn [rbind].
    assert (A : forall ks, (forall t, In (Sub t) ks -> forall set d b, d + height t <= umax -> fmt_tree_w checks umax t set d b = Ok (fmt_tree t set d b)) ->
      S d + list_max (map (fun k => match k with Leaf _ => 0 | Sub c => height c end) ks) <= umax ->
      forall set, fmt_kids_w d (d + 1) ks set = Ok (fmt_kids d ks set)).
    { clear. induction ks as [|k ks IH]; intros Hk Hm set; cbn [fmt_kids_w fmt_kids]; [reflexivity|].
      unfold list_max in Hm. cbn [map fold_right] in Hm. fold (list_max (map (fun k => match k with Leaf _ => 0 | Sub c => height c end) ks)) in Hm.
      specialize (IH (fun t Ht => Hk t (or_intror Ht))).
      set (last := match ks with nil => true | _ => false end). set (set1 := if last then fs_remove d set else set).
      destruct k as [s|t].
      - rewrite prefix_words by lia. cbn [rbind]. rewrite IH by lia. cbn [rbind]. destruct (fmt_kids d ks set1). reflexivity.
      - rewrite (Hk t (or_introl eq_refl)) by lia. cbn [rbind]. destruct (fmt_tree t set1 (d + 1) last) as [out set2].
        rewrite IH by lia. cbn [rbind]. destruct (fmt_kids d ks set2). reflexivity. }
    rewrite (A ks IH) by lia. cbn [rbind]. destruct (fmt_kids d ks (fs_insert d set)). reflexivity.
  Qed.
  Lemma display_words t : height t <= umax -> display_tree_w checks umax t = Ok (display_tree t).
  Proof.
    intro H. unfold display_tree_w, display_tree. rewrite fmt_words_at by exact H. cbn [rbind]. destruct (fmt_tree t [] 0 true). reflexivity.
  Qed.

  (** ** Generation *)

  Lemma eval_terms_ext {S} (f f' : term -> S -> res (result str * S)) : (forall t st, f t st = f' t st) ->
    forall e acc st, eval_terms f e acc st = eval_terms f' e acc st.
  Proof.
    intros H. induction e as [|t e IH]; intros acc st; cbn [eval_terms]; [reflexivity|]. rewrite H.
    destruct (f' t st) as [[[s|x] st1]| |]; cbn [rbind]; auto.
  Qed.
  Lemma traverse_loop_ext {S} choose accept g (f f' : str -> S -> res (result str * S)) : (forall n st, f n st = f' n st) ->
    forall tries ident st d, traverse_loop choose accept g f tries ident st d = traverse_loop choose accept g f' tries ident st d.
  Proof.
    intros H. induction tries as [|tries IH]; intros ident st d; cbn [traverse_loop]; [reflexivity|].
    destruct (find_production g ident 0) as [[ix p]|]; [|reflexivity]. destruct (production_has_no_choice p); [reflexivity|].
    destruct (choose st ix p d) as [[[e|] st1]| |]; cbn [rbind]; try reflexivity.
    rewrite (eval_terms_ext _ (fun t st => match t with Nonterminal nt => f' nt st | Terminal s => Ok (ROk s, st) end))
      by (intros [s|n] st0; [reflexivity|apply H]).
    match goal with |- context [eval_terms ?a ?b ?c ?d] => destruct (eval_terms a b c d) as [[[s|x] st2]| |] end; cbn [rbind]; try reflexivity.
    destruct (accept st2 ident s) as [[|] st3]; [reflexivity|apply IH].
  Qed.
  Lemma traverse_words {S} choose accept g tries : forall levels ident (st : S) d, d + levels <= umax ->
    traverse_w checks umax choose accept g tries levels ident st d = traverse_deep choose accept g tries levels ident st d.
  Proof.
    induction levels as [|levels IH]; intros ident st d H; cbn [traverse_w traverse_deep]; [reflexivity|].
    apply traverse_loop_ext. intros n st0. rewrite word_add_fits by lia. cbn [rbind]. apply IH. lia.
  Qed.
  Lemma generate_words {S} choose accept g tries levels fuel (st : S) : levels <= umax ->
    generate_w checks umax choose accept g tries levels fuel st = generate_deep choose accept g tries levels fuel st.
  Proof.
    intro H. unfold generate_w, generate_deep. destruct (terminates fuel g) as [[|]| |]; cbn [rbind negb]; try reflexivity.
    destruct g as [|p g]; [reflexivity|]. destruct (p_lhs p) as [s|n]; [reflexivity|]. apply traverse_words. exact H.
  Qed.
End MachineProofs.
