(** Proofs about the built-in strategies. *)
From Coq Require Import Permutation.
From Verif Require Export GenProofs.

Lemma NoDup_app_intro {A} (l l' : list A) : NoDup l -> NoDup l' -> (forall x, In x l -> ~ In x l') -> NoDup (l ++ l').
Proof.
  intros H H' Hd. induction l as [|a l IH]; cbn; [assumption|]. inversion H; subst. constructor.
  - rewrite in_app_iff. intros [Hin|Hin]; [contradiction|]. apply (Hd a); [left; reflexivity|assumption].
  - apply IH; [assumption|]. intros x Hx. apply Hd. right; assumption.
Qed.
Lemma firstn_In {A} (l : list A) n x : In x (firstn n l) -> In x l.
Proof. rewrite <- (firstn_skipn n l) at 2. intro H. apply in_or_app. left; assumption. Qed.

(** ** Picking *)

Section Pick.
  Context {R : Type} (rng : rng_ops R).

  Lemma random_index_spec r n : 0 < n -> exists i r', random_index rng r n = Ok (i, r') /\ i < n.
  Proof.
    intro H. unfold random_index. destruct (Nat.eqb_spec n 0); [lia|].
    pose proof (draw_usize_lt _ rng r n H). destruct (draw_usize rng r n) as [i r']. eauto.
  Qed.

  Lemma pick_from_spec r buf n : 0 < n -> (forall i, In i buf -> i < n) ->
    exists i r', pick_from rng r buf n = Ok (i, r') /\ i < n /\ (buf <> [] -> In i buf).
  Proof.
    intros Hn Hb. unfold pick_from. destruct buf as [|b buf].
    - destruct (random_index_spec r n Hn) as (i & r' & H & Hi). exists i, r'. split; [assumption|]. split; [assumption|congruence].
    - destruct (random_index_spec r (length (b :: buf))) as (i & r' & H & Hi); [cbn; lia|].
      rewrite H. cbn [rbind]. destruct (nth_error (b :: buf) i) as [x|] eqn:E; [|apply nth_error_None in E; lia].
      cbn [expect rbind]. pose proof (nth_error_In _ _ E). exists x, r'. split; [reflexivity|]. split; [apply Hb; assumption|auto].
  Qed.

  Lemma nth_error_some_In {A} (l : list A) i : i < length l -> exists x, nth_error l i = Some x /\ In x l.
  Proof.
    intro H. destruct (nth_error l i) as [x|] eqn:E; [|apply nth_error_None in E; lia].
    exists x. split; [reflexivity|]. eapply nth_error_In; exact E.
  Qed.

  Lemma rhs_length p : p_rhs p <> [] -> 0 < length (p_rhs p).
  Proof. destruct (p_rhs p); cbn; [congruence|lia]. Qed.

  Lemma random_walk_picks r addr p depth : p_rhs p <> [] ->
    exists e r', random_walk rng r addr p depth = Ok (Some e, r') /\ In e (p_rhs p).
  Proof.
    intro H. apply rhs_length in H. unfold random_walk.
    destruct (random_index_spec r _ H) as (i & r' & E & Hi). rewrite E. cbn [rbind].
    destruct (nth_error_some_In _ _ Hi) as (e & -> & He). eauto.
  Qed.

  Lemma indices_where_spec {A} (f : nat -> A -> bool) (l : list A) : forall i0 i,
    In i (indices_where f i0 l) <-> exists x, i0 <= i /\ nth_error l (i - i0) = Some x /\ f i x = true.
  Proof.
    induction l as [|a l IH]; intros i0 i; cbn [indices_where].
    - split; [intros []|]. intros (x & _ & H & _). destruct (i - i0); discriminate.
    - assert (Hrec : In i (indices_where f (S i0) l) <-> exists x, i0 < i /\ nth_error (a :: l) (i - i0) = Some x /\ f i x = true).
      { rewrite IH. split; intros (x & H1 & H2 & H3); exists x; (split; [lia|]); (split; [|assumption]).
        - replace (i - i0) with (S (i - S i0)) by lia. exact H2.
        - replace (i - i0) with (S (i - S i0)) in H2 by lia. exact H2. }
      assert (Hsplit : (exists x, i0 <= i /\ nth_error (a :: l) (i - i0) = Some x /\ f i x = true) <->
        (i = i0 /\ f i0 a = true) \/ (exists x, i0 < i /\ nth_error (a :: l) (i - i0) = Some x /\ f i x = true)).
      { split.
        - intros (x & H1 & H2 & H3). destruct (Nat.eq_dec i i0) as [->|Hne].
          + rewrite Nat.sub_diag in H2. injection H2 as <-. auto.
          + right. exists x. split; [lia|auto].
        - intros [[-> H]|(x & H1 & H2 & H3)].
          + exists a. rewrite Nat.sub_diag. auto.
          + exists x. split; [lia|auto]. }
      rewrite Hsplit, <- Hrec. destruct (f i0 a) eqn:E; cbn; split; intuition congruence.
  Qed.

  Lemma eligible_bound max p depth i : In i (depth_bounded_eligible max p depth) -> i < length (p_rhs p).
  Proof.
    unfold depth_bounded_eligible. destruct (Nat.leb max depth).
    - intro H. apply indices_where_spec in H. destruct H as (x & _ & H & _). rewrite Nat.sub_0_r in H.
      eapply nth_error_lt; exact H.
    - rewrite in_seq. lia.
  Qed.

  Lemma depth_bounded_picks max r addr p depth : p_rhs p <> [] ->
    exists e r', depth_bounded rng max r addr p depth = Ok (Some e, r') /\ In e (p_rhs p) /\
      (max <= depth -> (exists e', In e' (p_rhs p) /\ expression_all_terminals e' = true) ->
       expression_all_terminals e = true).
  Proof.
    intro H. apply rhs_length in H. unfold depth_bounded.
    destruct (pick_from_spec r (depth_bounded_eligible max p depth) _ H (eligible_bound max p depth))
      as (i & r' & E & Hi & Hin). rewrite E. cbn [rbind].
    destruct (nth_error_some_In _ _ Hi) as (e & Hn & He). rewrite Hn. exists e, r'.
    split; [reflexivity|]. split; [assumption|]. intros Hd (e' & He' & Ht').
    assert (Hne : depth_bounded_eligible max p depth <> []).
    { apply In_nth_error in He'. destruct He' as [j Hj]. intro Hnil.
      assert (In j (depth_bounded_eligible max p depth)); [|rewrite Hnil in *; auto].
      unfold depth_bounded_eligible. destruct (Nat.leb_spec max depth); [|lia].
      apply indices_where_spec. exists e'. split; [lia|]. rewrite Nat.sub_0_r. auto. }
    specialize (Hin Hne). unfold depth_bounded_eligible in Hin. destruct (Nat.leb_spec max depth); [|lia].
    apply indices_where_spec in Hin. destruct Hin as (x & _ & H2 & H3). rewrite Nat.sub_0_r in H2. congruence.
  Qed.

  Lemma coverage_index_ok (c : coverage) addr p : p_rhs p <> [] ->
    exists i c', coverage_index rng c addr p = Ok (i, c') /\ i < length (p_rhs p) /\
      c_seen c' = (addr, i) :: c_seen c /\
      ((exists j, j < length (p_rhs p) /\ ~ In (addr, j) (c_seen c)) -> ~ In (addr, i) (c_seen c)).
  Proof.
    intro H. apply rhs_length in H. unfold coverage_index.
    assert (Hse : forall x, memb seen_eqb x (c_seen c) = true <-> In x (c_seen c)).
    { intro x. apply memb_In. intros [a b] [a' b']. unfold seen_eqb; cbn.
      rewrite andb_true_iff, !Nat.eqb_eq. split; [intros []|intro E; injection E]; intros; subst; auto. }
    set (buf := filter _ _).
    assert (Hbuf : forall j, In j buf <-> j < length (p_rhs p) /\ ~ In (addr, j) (c_seen c)).
    { intro j. unfold buf. rewrite filter_In, in_seq, negb_true_iff, <- Hse, <- not_true_iff_false. split; intros []; split; auto; lia. }
    destruct (pick_from_spec (c_rng c) buf _ H) as (i & r' & E & Hi & Hin). { intros j Hj. apply Hbuf in Hj. tauto. }
    rewrite E. cbn [rbind]. eexists i, _. split; [reflexivity|]. split; [assumption|]. split; [reflexivity|].
    intros (j & Hj). apply Hbuf in Hj. apply Hbuf. apply Hin. intro Hnil. rewrite Hnil in Hj. destruct Hj.
  Qed.

  Lemma coverage_guided_picks (c : coverage) addr p depth : p_rhs p <> [] ->
    exists e c', coverage_guided rng c addr p depth = Ok (Some e, c') /\ In e (p_rhs p).
  Proof.
    intro H. unfold coverage_guided. destruct (coverage_index_ok c addr p H) as (i & c' & E & Hi & _).
    rewrite E. cbn [rbind]. destruct (nth_error_some_In _ _ Hi) as (e & -> & He). eauto.
  Qed.

  Definition nsum (ws : list N) : N := fold_right N.add 0%N ws.

  Lemma weighted_scan_spec ws : forall i0 x i, weighted_scan ws i0 x = Some i <->
    i0 <= i /\ exists w, nth_error ws (i - i0) = Some w /\
      (nsum (firstn (i - i0) ws) <= x)%N /\ (x < nsum (firstn (i - i0) ws) + w)%N.
  Proof.
    induction ws as [|w0 ws IH]; intros i0 x i; cbn [weighted_scan].
    - split; [discriminate|]. intros (_ & w & H & _). destruct (i - i0); discriminate.
    - destruct (N.ltb_spec x w0) as [Hlt|Hge].
      + split.
        * intro H. injection H as <-. split; [lia|]. exists w0. rewrite Nat.sub_diag. cbn. split; [reflexivity|lia].
        * intros (Hle & w & Hn & H1 & H2). f_equal. destruct (i - i0) as [|k] eqn:Ek; [lia|]. exfalso.
          cbn [firstn nsum fold_right] in H1. fold (nsum (firstn k ws)) in H1. lia.
      + rewrite IH. split; intros (Hle & w & Hn & H1 & H2).
        * split; [lia|]. exists w. replace (i - i0) with (S (i - S i0)) by lia.
          cbn [nth_error firstn nsum fold_right]. fold (nsum (firstn (i - S i0) ws)). split; [assumption|lia].
        * destruct (i - i0) as [|k] eqn:Ek.
          { cbn in Hn, H1, H2. injection Hn as <-. lia. }
          replace (i - S i0) with k by lia. split; [lia|]. exists w.
          cbn [nth_error firstn nsum fold_right] in Hn, H1, H2. fold (nsum (firstn k ws)) in H1, H2.
          split; [assumption|lia].
  Qed.

  Lemma weighted_scan_total ws : forall i0 x, (x < nsum ws)%N -> exists i, weighted_scan ws i0 x = Some i.
  Proof.
    induction ws as [|w ws IH]; intros i0 x H; cbn in *; [lia|]. fold (nsum ws) in H.
    destruct (N.ltb_spec x w); [eauto|]. apply IH. lia.
  Qed.

  Lemma weighted_scan_bound ws i0 x i : weighted_scan ws i0 x = Some i -> i < i0 + length ws.
  Proof.
    intro H. apply weighted_scan_spec in H. destruct H as (Hle & w & Hn & _). apply nth_error_lt in Hn. lia.
  Qed.

  Lemma weighted_picks checks rec nonrec r addr p depth : p_rhs p <> [] ->
    checks = false \/ (nsum (fill_weights rec nonrec p) < u32_max_plus_1)%N ->
    exists e r', weighted rng checks rec nonrec r addr p depth = Ok (Some e, r') /\ In e (p_rhs p).
  Proof.
    intros H Hc. apply rhs_length in H. unfold weighted, weighted_random_index, sum_u32.
    fold (nsum (fill_weights rec nonrec p)).
    assert (Hs : checks && N.leb u32_max_plus_1 (nsum (fill_weights rec nonrec p)) = false).
    { destruct Hc as [->|Hc]; [reflexivity|]. rewrite andb_false_iff. right. apply N.leb_gt. assumption. }
    rewrite Hs. cbn [rbind].
    destruct (N.eqb _ 0).
    - destruct (random_index_spec r _ H) as (i & r' & E & Hi). rewrite E. cbn [rbind].
      destruct (nth_error_some_In _ _ Hi) as (e & -> & He). eauto.
    - destruct (draw_u32 rng r _) as [x r']. cbn [rbind].
      match goal with |- context [nth_error (p_rhs p) ?i] => assert (Hi : i < length (p_rhs p)) end.
      { destruct (weighted_scan _ 0 x) as [i|] eqn:E.
        - apply weighted_scan_bound in E. unfold fill_weights in E. rewrite map_length in E. exact E.
        - unfold fill_weights. rewrite map_length. lia. }
      destruct (nth_error_some_In _ _ Hi) as (e & -> & He). eauto.
  Qed.

  Lemma weighted_overflow_panics rec nonrec r addr p depth :
    (u32_max_plus_1 <= nsum (fill_weights rec nonrec p))%N ->
    weighted rng true rec nonrec r addr p depth = Panic.
  Proof.
    intro H. unfold weighted, weighted_random_index, sum_u32. fold (nsum (fill_weights rec nonrec p)).
    apply N.leb_le in H. rewrite H. reflexivity.
  Qed.

  (** Weighted: which draw selects which alternative. *)
  Lemma weighted_select checks rec nonrec r addr p depth i w :
    let ws := fill_weights rec nonrec p in
    (0 < nsum ws)%N -> (nsum ws < u32_max_plus_1)%N -> nth_error ws i = Some w ->
    (nsum (firstn i ws) <= fst (draw_u32 rng r (nsum ws)))%N ->
    (fst (draw_u32 rng r (nsum ws)) < nsum (firstn i ws) + w)%N ->
    weighted rng checks rec nonrec r addr p depth = Ok (nth_error (p_rhs p) i, snd (draw_u32 rng r (nsum ws))).
  Proof.
    intros ws H0 H1 Hn Hlo Hhi. unfold weighted, weighted_random_index, sum_u32. fold ws. fold (nsum ws).
    assert (Hs : checks && N.leb u32_max_plus_1 (nsum ws) = false).
    { rewrite andb_false_iff. right. apply N.leb_gt. assumption. }
    rewrite Hs. cbn [rbind]. rewrite N.mod_small by assumption.
    destruct (N.eqb_spec (nsum ws) 0); [lia|]. destruct (draw_u32 rng r (nsum ws)) as [x r'] eqn:E. cbn [fst snd] in *.
    assert (Hsc : weighted_scan ws 0 x = Some i).
    { apply weighted_scan_spec. rewrite Nat.sub_0_r. split; [lia|]. exists w. auto. }
    rewrite Hsc. reflexivity.
  Qed.

  Lemma weighted_zero checks rec nonrec r addr p depth :
    nsum (fill_weights rec nonrec p) = 0%N ->
    weighted rng checks rec nonrec r addr p depth = random_walk rng r addr p depth.
  Proof.
    intro H. unfold weighted, weighted_random_index, sum_u32, random_walk. fold (nsum (fill_weights rec nonrec p)).
    rewrite H. rewrite andb_false_r. reflexivity.
  Qed.
End Pick.

(** The weights are those documented: [rec] for an alternative that mentions the left-hand
    side, [nonrec] for the others. *)
Lemma fill_weights_spec rec nonrec p i e : nth_error (p_rhs p) i = Some e ->
  (In (p_lhs p) e -> nth_error (fill_weights rec nonrec p) i = Some rec) /\
  (~ In (p_lhs p) e -> nth_error (fill_weights rec nonrec p) i = Some nonrec).
Proof.
  intro H. unfold fill_weights. rewrite nth_error_map, H. cbn [option_map].
  assert (Hc : expression_contains e (p_lhs p) = true <-> In (p_lhs p) e).
  { unfold expression_contains. rewrite existsb_exists. split.
    - intros (x & Hx & E). apply term_eqb_eq in E. subst x. assumption.
    - intro Hin. exists (p_lhs p). split; [assumption|apply term_eqb_refl]. }
  split; intro Hin.
  - apply Hc in Hin. rewrite Hin. reflexivity.
  - rewrite <- Hc in Hin. apply not_true_iff_false in Hin. rewrite Hin. reflexivity.
Qed.

(** Draws that select an alternative. *)
Definition n_range (lo n : N) : list N := map (fun k => (lo + N.of_nat k)%N) (seq 0 (N.to_nat n)).
Lemma n_range_spec lo n x : In x (n_range lo n) <-> (lo <= x)%N /\ (x < lo + n)%N.
Proof.
  unfold n_range. rewrite in_map_iff. split.
  - intros (k & <- & Hk). apply in_seq in Hk. lia.
  - intros [H1 H2]. exists (N.to_nat (x - lo)). split; [lia|]. apply in_seq. lia.
Qed.
Lemma n_range_NoDup lo n : NoDup (n_range lo n).
Proof.
  unfold n_range. apply FinFun.Injective_map_NoDup; [|apply seq_NoDup]. intros a b H. lia.
Qed.
Lemma n_range_length lo n : length (n_range lo n) = N.to_nat n.
Proof. unfold n_range. rewrite map_length, seq_length. reflexivity. Qed.

(** A generator that always draws [x] (or 0 when [x] is out of range). *)
Definition const_draw_u32 (x : N) (r : unit) (n : N) : N * unit := (if N.ltb x n then x else 0%N, r).
Lemma const_draw_u32_lt x r n : (0 < n)%N -> (fst (const_draw_u32 x r n) < n)%N.
Proof. intro H. cbn [const_draw_u32 fst]. destruct (N.ltb_spec x n); lia. Qed.
Definition const_draw_usize (r : unit) (n : nat) : nat * unit := (0, r).
Definition const_rng (x : N) : rng_ops unit :=
  mkRng _ const_draw_usize (const_draw_u32 x) (fun r n H => H) (const_draw_u32_lt x).

(** ** Coverage *)

Section Coverage.
  Context {R : Type} (rng : rng_ops R).

  (** A history of [choose] calls on one strategy: (address, production, depth), and the results. *)
  Fixpoint coverage_run (c : coverage) (calls : list (nat * production * nat)) : res (list (option expression) * coverage) :=
    match calls with
    | nil => Ok ([], c)
    | (addr, p, depth) :: calls =>
        let* (e, c) := coverage_guided rng c addr p depth in
        let* (es, c) := coverage_run c calls in
        Ok (e :: es, c)
    end.

  (** The results of the calls for one address. *)
  Fixpoint answers_for (a : nat) (calls : list (nat * production * nat)) (es : list (option expression)) : list (option expression) :=
    match calls, es with
    | (addr, _, _) :: calls, e :: es => if Nat.eqb addr a then e :: answers_for a calls es else answers_for a calls es
    | _, _ => []
    end.

  Definition seen_at (c : coverage (R := R)) (a : nat) : list nat :=
    map snd (filter (fun x => Nat.eqb (fst x) a) (c_seen c)).

  Lemma seen_at_In c a i : In i (seen_at c a) <-> In (a, i) (c_seen c).
  Proof.
    unfold seen_at. rewrite in_map_iff. split.
    - intros ([a' i'] & <- & H). apply filter_In in H. destruct H as [H E]. cbn in *. apply Nat.eqb_eq in E. subst. assumption.
    - intro H. exists (a, i). split; [reflexivity|]. apply filter_In. split; [assumption|]. cbn. apply Nat.eqb_refl.
  Qed.

  (** The indices chosen later, given those chosen before: no repetition before all are used. *)
  Lemma coverage_run_indices a p : p_rhs p <> [] -> forall calls c es c',
    (forall addr q depth, In (addr, q, depth) calls -> addr = a -> q = p) ->
    NoDup (seen_at c a) -> (forall i, In i (seen_at c a) -> i < length (p_rhs p)) ->
    coverage_run c calls = Ok (es, c') ->
    exists is, answers_for a calls es = map (nth_error (p_rhs p)) is /\
      (forall i, In i is -> i < length (p_rhs p)) /\
      let k := length (p_rhs p) - length (seen_at c a) in
      NoDup (rev (seen_at c a) ++ firstn k is).
  Proof.
    intro Hp. induction calls as [|[[addr q] depth] calls IH]; intros c es c' Hsame Hnd Hb H; cbn [coverage_run] in H.
    - injection H as <- <-. exists []. cbn. split; [reflexivity|]. split; [intros i []|].
      rewrite firstn_nil, app_nil_r. apply NoDup_rev. assumption.
    - destruct (coverage_guided rng c addr q depth) as [[e c1]| |] eqn:E; cbn [rbind] in H; try discriminate.
      destruct (coverage_run c1 calls) as [[es1 c2]| |] eqn:E2; cbn [rbind] in H; try discriminate.
      injection H as <- <-. cbn [answers_for].
      assert (Hsame' : forall addr q depth, In (addr, q, depth) calls -> addr = a -> q = p).
      { intros; eapply Hsame; [right; eassumption|assumption]. }
      unfold coverage_guided in E.
      destruct (Nat.eqb_spec addr a) as [->|Hne].
      + assert (q = p) as -> by (eapply Hsame; [left; reflexivity|reflexivity]).
        destruct (coverage_index_ok rng c a p Hp) as (i & c1' & E1 & Hi & Hs & Hfresh).
        rewrite E1 in E. cbn [rbind] in E. injection E as <- <-.
        assert (Hsa : seen_at c1' a = i :: seen_at c a).
        { unfold seen_at. rewrite Hs. cbn. rewrite Nat.eqb_refl. reflexivity. }
        destruct (le_lt_dec (length (p_rhs p)) (length (seen_at c a))) as [Hfull|Hroom].
        * (* everything has been seen already: nothing is claimed about later choices *)
          replace (length (p_rhs p) - length (seen_at c a)) with 0 by lia. cbn [firstn].
          assert (Hall : exists is, answers_for a calls es1 = map (nth_error (p_rhs p)) is /\ forall i, In i is -> i < length (p_rhs p)).
          { clear - E2 Hsame' Hp. revert c1' es1 c2 E2. induction calls as [|[[addr q] depth] calls IH]; intros c1 es1 c2 E2; cbn [coverage_run] in E2.
            - injection E2 as <- <-. exists []. split; [reflexivity|intros i []].
            - destruct (coverage_guided rng c1 addr q depth) as [[e c3]| |] eqn:E; cbn [rbind] in E2; try discriminate.
              destruct (coverage_run c3 calls) as [[es3 c4]| |] eqn:E3; cbn [rbind] in E2; try discriminate.
              injection E2 as <- <-. destruct (IH ltac:(intros; eapply Hsame'; [right; eassumption|assumption]) _ _ _ E3) as (is & His & Hb).
              cbn [answers_for]. destruct (Nat.eqb_spec addr a) as [->|]; [|eauto].
              assert (q = p) as -> by (eapply Hsame'; [left; reflexivity|reflexivity]).
              unfold coverage_guided in E. destruct (coverage_index_ok rng c1 a p Hp) as (i & c1' & E1 & Hi & _).
              rewrite E1 in E. cbn [rbind] in E. injection E as <- <-. exists (i :: is). cbn. rewrite His.
              split; [reflexivity|]. intros j [<-|Hj]; auto. }
          destruct Hall as (is & His & Hbi). exists (i :: is). cbn [map]. rewrite His. split; [reflexivity|].
          split; [intros j [<-|Hj]; auto|]. rewrite app_nil_r. apply NoDup_rev. assumption.
        * assert (Hni : ~ In i (seen_at c a)).
          { rewrite seen_at_In. apply Hfresh.
            (* pigeonhole: some index is unseen *)
            destruct (existsb (fun j => negb (memb Nat.eqb j (seen_at c a))) (seq 0 (length (p_rhs p)))) eqn:Eex.
            - apply existsb_exists in Eex. destruct Eex as (j & Hj & Hm). exists j. apply in_seq in Hj. split; [lia|].
              rewrite <- seen_at_In. intro Hin. apply negb_true_iff in Hm.
              assert (memb Nat.eqb j (seen_at c a) = true) by (apply memb_In; [apply Nat.eqb_eq|assumption]). congruence.
            - exfalso. assert (Hincl : incl (seq 0 (length (p_rhs p))) (seen_at c a)).
              { intros j Hj. destruct (memb Nat.eqb j (seen_at c a)) eqn:Em.
                - apply (memb_In Nat.eqb Nat.eqb_eq) in Em. assumption.
                - assert (existsb (fun j => negb (memb Nat.eqb j (seen_at c a))) (seq 0 (length (p_rhs p))) = true); [|congruence].
                  apply existsb_exists. exists j. rewrite Em. auto. }
              apply NoDup_incl_length in Hincl; [|apply seq_NoDup]. rewrite seq_length in Hincl. lia. }
          assert (Hnd' : NoDup (seen_at c1' a)) by (rewrite Hsa; constructor; assumption).
          assert (Hb' : forall j, In j (seen_at c1' a) -> j < length (p_rhs p)).
          { rewrite Hsa. intros j [<-|Hj]; auto. }
          destruct (IH _ _ _ Hsame' Hnd' Hb' E2) as (is & His & Hbi & Hfin).
          exists (i :: is). cbn [map]. rewrite His. split; [reflexivity|].
          split; [intros j [<-|Hj]; auto|]. cbv zeta in Hfin |- *. rewrite Hsa in Hfin. cbn [rev length] in Hfin.
          rewrite <- app_assoc in Hfin. cbn [app] in Hfin.
          replace (length (p_rhs p) - length (seen_at c a)) with (S (length (p_rhs p) - S (length (seen_at c a)))) by lia.
          exact Hfin.
      + assert (Hsa : seen_at c1 a = seen_at c a).
        { unfold coverage_index in E.
          destruct (pick_from rng (c_rng c) _ _) as [[i r]| |]; cbn [rbind] in E; try discriminate.
          injection E as _ <-. unfold seen_at. cbn. destruct (Nat.eqb_spec addr a); [contradiction|reflexivity]. }
        rewrite <- Hsa in Hnd, Hb. destruct (IH _ _ _ Hsame' Hnd Hb E2) as (is & His & Hbi & Hfin).
        rewrite Hsa in Hfin. exists is. auto.
  Qed.

  Lemma map_nth_error_seq {A} (l : list A) : map (nth_error l) (seq 0 (length l)) = map Some l.
  Proof.
    induction l as [|a l IH]; cbn; [reflexivity|]. f_equal. rewrite <- seq_shift, map_map. exact IH.
  Qed.

  Lemma NoDup_extend (is : list nat) n : NoDup is -> (forall i, In i is -> i < n) ->
    exists rest, Permutation (is ++ rest) (seq 0 n).
  Proof.
    intros Hnd Hb. exists (filter (fun i => negb (memb Nat.eqb i is)) (seq 0 n)).
    assert (Hm : forall i, memb Nat.eqb i is = true <-> In i is) by (intro i; apply memb_In, Nat.eqb_eq).
    apply NoDup_Permutation.
    - apply NoDup_app_intro; [assumption|apply NoDup_filter, seq_NoDup|].
      intros x Hx Hf. apply filter_In in Hf. destruct Hf as [_ Hf]. apply negb_true_iff in Hf. apply Hm in Hx. congruence.
    - apply seq_NoDup.
    - intro x. rewrite in_app_iff, filter_In, in_seq, negb_true_iff, <- not_true_iff_false, Hm. split.
      + intros [H|[[_ H] _]]; [split; [lia|apply Hb; assumption]|split; [lia|exact H]].
      + intros [_ H]. destruct (in_dec Nat.eq_dec x is); [left; assumption|right]. split; [split; [lia|lia]|assumption].
  Qed.

  Lemma coverage_permutation a p c calls es c' : p_rhs p <> [] ->
    (forall addr q depth, In (addr, q, depth) calls -> addr = a -> q = p) ->
    (forall i, ~ In (a, i) (c_seen c)) ->
    coverage_run c calls = Ok (es, c') ->
    exists rest, Permutation (firstn (length (p_rhs p)) (answers_for a calls es) ++ rest) (map Some (p_rhs p)) /\
      (length (p_rhs p) <= length (answers_for a calls es) -> rest = []).
  Proof.
    intros Hp Hsame Hfresh H.
    assert (Hs : seen_at c a = []).
    { destruct (seen_at c a) as [|i l] eqn:E; [reflexivity|exfalso].
      apply (Hfresh i). apply seen_at_In. rewrite E. left; reflexivity. }
    destruct (coverage_run_indices a p Hp calls c es c' Hsame) as (is & His & Hb & Hnd).
    - rewrite Hs. constructor.
    - rewrite Hs. intros i [].
    - assumption.
    - rewrite Hs in Hnd. cbv zeta in Hnd. cbn [rev length app] in Hnd. rewrite Nat.sub_0_r in Hnd.
      destruct (NoDup_extend (firstn (length (p_rhs p)) is) (length (p_rhs p)) Hnd) as [rest Hperm].
      { intros i Hi. apply Hb. eapply firstn_In; exact Hi. }
      exists (map (nth_error (p_rhs p)) rest). rewrite His, firstn_map. split.
      + rewrite <- map_app, <- map_nth_error_seq. apply Permutation_map. assumption.
      + rewrite map_length. intro Hlen. apply Permutation_length in Hperm.
        rewrite app_length, seq_length, firstn_length_le in Hperm by assumption.
        destruct rest; [reflexivity|cbn in Hperm; lia].
  Qed.
End Coverage.

(** ** DepthBounded *)

(** Every production has an alternative without nonterminals. *)
Definition all_terminal_exit (g : grammar) : Prop :=
  forall p, In p g -> exists e, In e (p_rhs p) /\ forall n, ~ In (Nonterminal n) e.

Lemma all_terminals_spec e : expression_all_terminals e = true <-> forall n, ~ In (Nonterminal n) e.
Proof.
  unfold expression_all_terminals. rewrite forallb_forall. split.
  - intros H n Hn. specialize (H _ Hn). discriminate.
  - intros H [s|n] Hin; [reflexivity|destruct (H n Hin)].
Qed.

Section Bounded.
  Context {R : Type} (rng : rng_ops R).
  Variable max_depth : nat.
  Variable g : grammar.
  Hypothesis Hexit : all_terminal_exit g.
  Variable m : nat.
  Hypothesis Hm : forall p e t, In p g -> In e (p_rhs p) -> In t e ->
    length e <= m /\ match t with Terminal s => length s | Nonterminal s => length s end <= m.

  (** Bound on the text generated with [k] levels left. *)
  Fixpoint size_bound (k : nat) : nat := match k with 0 => m * m | S k => m * (m + size_bound k) end.

  Lemma eval_terms_bounded (eval : term -> R -> res (result str * R)) b e :
    (forall t st, In t e -> exists r st', eval t st = Ok (r, st') /\ (forall w, r = ROk w -> length w <= b)) ->
    forall acc st, exists r st', eval_terms eval e acc st = Ok (r, st') /\
      (forall w, r = ROk w -> length w <= length acc + length e * b).
  Proof.
    intro He. induction e as [|t e IH]; intros acc st; cbn [eval_terms].
    - exists (ROk acc), st. split; [reflexivity|]. intros w E. injection E as <-. lia.
    - destruct (He t st) as (r & st' & -> & Hr); [left; reflexivity|]. cbn [rbind]. destruct r as [s|x].
      + destruct (IH ltac:(intros; apply He; right; assumption) (acc ++ s) st') as (r & st2 & -> & Hr2).
        exists r, st2. split; [reflexivity|]. intros w E. specialize (Hr2 w E). specialize (Hr s eq_refl).
        rewrite app_length in Hr2. cbn [length]. lia.
      + exists (RErr x), st'. split; [reflexivity|discriminate].
  Qed.

  Notation run := (traverse (depth_bounded rng max_depth) (pure_callback (fun _ _ => true)) g).

  Lemma traverse_bounded : forall k fuel depth, k < fuel -> max_depth <= depth + k ->
    forall ident st, exists r st', run fuel ident st depth = Ok (r, st') /\
      (has_lhs g ident -> forall w, r = ROk w -> length w <= size_bound k) /\
      (~ has_lhs g ident -> r = ROk ident).
  Proof.
    induction k as [|k IH]; intros fuel depth Hfuel Hdep ident st; (destruct fuel as [|fuel]; [lia|]); cbn [traverse];
      (destruct (find_production g ident 0) as [[ix p]|] eqn:Ef;
       [|exists (ROk ident), st; split; [reflexivity|]; split; [intro Hl; destruct (find_production_None _ _ _ Ef Hl)|reflexivity]]);
      apply find_production_Some in Ef; destruct Ef as (Hff & _ & _);
      pose proof (first_for_has_lhs _ _ _ Hff) as Hl; apply first_for_In in Hff; destruct Hff as [Hp _];
      (destruct (production_has_no_choice p);
        [eexists _, st; split; [reflexivity|]; split; [discriminate|contradiction]|]);
      destruct (Hexit p Hp) as (e0 & He0 & Ht0); apply all_terminals_spec in Ht0;
      assert (Hne : p_rhs p <> []) by (intro E; rewrite E in He0; destruct He0);
      destruct (depth_bounded_picks rng max_depth st ix p depth Hne) as (e & r1 & -> & He & Hall); cbn [rbind];
      match goal with |- context [eval_terms ?ev e [] r1] => set (eval := ev) end.
    - assert (Hat : forall n, ~ In (Nonterminal n) e) by (apply all_terminals_spec, Hall; [lia|eauto]).
      destruct (eval_terms_bounded eval m e) with (acc := @nil char) (st := r1) as (r & st2 & -> & Hr).
      { intros [s|n] st0 Hin; [|destruct (Hat n Hin)]. exists (ROk s), st0. split; [reflexivity|].
        intros w E. injection E as <-. apply (Hm p e (Terminal s)) in Hin; tauto. }
      cbn [rbind]. destruct r as [s|x].
      + cbn. exists (ROk s), st2. split; [reflexivity|]. split; [|contradiction]. intros _ w E. injection E as <-.
        specialize (Hr s eq_refl). cbn [length size_bound] in *.
        destruct e as [|t e']; [cbn in Hr; lia|]. destruct (Hm p (t :: e') t Hp He) as [Hlen _]; [left; reflexivity|]. nia.
      + exists (RErr x), st2. split; [reflexivity|]. split; [discriminate|contradiction].
    - destruct (eval_terms_bounded eval (m + size_bound k) e) with (acc := @nil char) (st := r1) as (r & st2 & -> & Hr).
      { intros [s|n] st0 Hin.
        - exists (ROk s), st0. split; [reflexivity|]. intros w E. injection E as <-.
          apply (Hm p e (Terminal s)) in Hin; try assumption. lia.
        - destruct (IH fuel (depth + 1) ltac:(lia) ltac:(lia) n st0) as (r & st' & E & H1 & H2).
          exists r, st'. split; [exact E|]. intros w Ew.
          destruct (find_production g n 0) as [[j q]|] eqn:Ef.
          + apply find_production_Some in Ef. destruct Ef as (Hff & _). apply first_for_has_lhs in Hff.
            specialize (H1 Hff w Ew). lia.
          + apply find_production_None in Ef. specialize (H2 Ef). rewrite H2 in Ew. injection Ew as <-.
            apply (Hm p e (Nonterminal n)) in Hin; try assumption. lia. }
      cbn [rbind]. destruct r as [s|x].
      + cbn. exists (ROk s), st2. split; [reflexivity|]. split; [|contradiction]. intros _ w E. injection E as <-.
        specialize (Hr s eq_refl). cbn [length size_bound] in *.
        destruct e as [|t e']; [cbn in Hr; lia|]. destruct (Hm p (t :: e') t Hp He) as [Hlen _]; [left; reflexivity|]. nia.
      + exists (RErr x), st2. split; [reflexivity|]. split; [discriminate|contradiction].
  Qed.

  Lemma generate_bounded fuel st : length g < fuel -> max_depth < fuel ->
    exists r st', generate_with_strategy (depth_bounded rng max_depth) g fuel st = Ok (r, st') /\
      forall w, r = ROk w -> length w <= size_bound max_depth.
  Proof.
    intros H1 H2. unfold generate_with_strategy, generate.
    destruct (terminates_ends fuel g H1) as [b ->]. cbn [rbind]. destruct b; cbn [negb].
    - destruct g as [|p rest] eqn:Eg; [eexists _, st; split; [reflexivity|discriminate]|].
      destruct (p_lhs p) as [s|n] eqn:El; [eexists _, st; split; [reflexivity|discriminate]|].
      rewrite <- Eg in *.
      destruct (traverse_bounded max_depth fuel 0 H2 ltac:(lia) n st) as (r & st' & E & Hb & _).
      exists r, st'. split; [exact E|]. apply Hb. exists p. rewrite Eg. split; [left; reflexivity|assumption].
    - eexists _, st. split; [reflexivity|discriminate].
  Qed.
End Bounded.

(** Such an [m] exists for every grammar. *)
Lemma list_bound {A} (f : A -> nat) (l : list A) : exists m, forall x, In x l -> f x <= m.
Proof.
  induction l as [|a l [m IH]]; [exists 0; intros x []|]. exists (max (f a) m). intros x [<-|Hx]; [lia|].
  specialize (IH x Hx). lia.
Qed.

Lemma grammar_bound (g : grammar) : exists m, forall p e t, In p g -> In e (p_rhs p) -> In t e ->
    length e <= m /\ match t with Terminal s => length s | Nonterminal s => length s end <= m.
Proof.
  destruct (list_bound (@length term) (flat_map p_rhs g)) as [m1 H1].
  destruct (list_bound (fun t => match t with Terminal s => length s | Nonterminal s => length s end)
    (flat_map (fun p => concat (p_rhs p)) g)) as [m2 H2].
  exists (max m1 m2). intros p e t Hp He Ht. split.
  - assert (length e <= m1); [|lia]. apply H1. apply in_flat_map. eauto.
  - assert (In t (flat_map (fun p => concat (p_rhs p)) g)) as Hin.
    { apply in_flat_map. exists p. split; [assumption|]. apply in_concat. eauto. }
    apply H2 in Hin. lia.
Qed.

Lemma depth_bounded_generates {R} (rng : rng_ops R) max_depth g : all_terminal_exit g ->
  exists fuel bound, forall st, exists r st',
    generate_with_strategy (depth_bounded rng max_depth) g fuel st = Ok (r, st') /\
    forall w, r = ROk w -> length w <= bound.
Proof.
  intro H. destruct (grammar_bound g) as [m Hm].
  exists (S (length g + max_depth)), (size_bound m max_depth). intro st.
  apply generate_bounded; try assumption; lia.
Qed.

(** Lawfulness of the built-in strategies. *)
Lemma lawful_random_walk {R} (rng : rng_ops R) : lawful (random_walk rng).
Proof.
  intros st addr p depth e st' H. unfold random_walk in H.
  destruct (random_index _ _ _) as [[i r]| |]; cbn [rbind] in H; try discriminate.
  injection H as H _. eapply nth_error_In; exact H.
Qed.
Lemma lawful_depth_bounded {R} (rng : rng_ops R) m : lawful (depth_bounded rng m).
Proof.
  intros st addr p depth e st' H. unfold depth_bounded in H.
  destruct (pick_from _ _ _ _) as [[i r]| |]; cbn [rbind] in H; try discriminate.
  injection H as H _. eapply nth_error_In; exact H.
Qed.
Lemma lawful_coverage_guided {R} (rng : rng_ops R) : lawful (coverage_guided rng).
Proof.
  intros st addr p depth e st' H. unfold coverage_guided in H.
  destruct (coverage_index _ _ _ _) as [[i r]| |]; cbn [rbind] in H; try discriminate.
  injection H as H _. eapply nth_error_In; exact H.
Qed.
Lemma lawful_weighted {R} (rng : rng_ops R) c a b : lawful (weighted rng c a b).
Proof.
  intros st addr p depth e st' H. unfold weighted in H.
  destruct (weighted_random_index _ _ _ _ _) as [[i r]| |]; cbn [rbind] in H; try discriminate.
  injection H as H _. eapply nth_error_In; exact H.
Qed.

(** ** No panics during generation *)

Lemma traverse_no_panic {S} (choose : S -> nat -> production -> nat -> res (option expression * S)) accept g :
  (forall st addr p depth, In p g -> p_rhs p <> [] -> choose st addr p depth <> Panic) ->
  forall fuel ident st depth, traverse choose accept g fuel ident st depth <> Panic.
Proof.
  intros Hc. induction fuel as [|fuel IH]; intros ident st depth; cbn [traverse]; [discriminate|].
  destruct (find_production g ident 0) as [[ix p]|] eqn:Ef; [|discriminate].
  destruct (production_has_no_choice p) eqn:Enc; [discriminate|].
  apply find_production_Some in Ef. destruct Ef as (Hff & _). apply first_for_In in Hff.
  assert (Hne : p_rhs p <> []) by (intro E; apply not_true_iff_false in Enc; apply Enc, no_choice_spec; auto).
  pose proof (Hc st ix p depth (proj1 Hff) Hne) as Hcp.
  destruct (choose st ix p depth) as [[[e|] st1]| |]; cbn [rbind]; try discriminate; [|congruence].
  match goal with |- context [eval_terms ?ev e [] st1] => set (ev0 := ev) end.
  assert (Hev : forall e acc st, eval_terms ev0 e acc st <> Panic).
  { clear - IH. induction e as [|t e IHe]; intros acc st; cbn [eval_terms]; [discriminate|].
    assert (Ht : ev0 t st <> Panic) by (unfold ev0; destruct t; [discriminate|apply IH]).
    destruct (ev0 t st) as [[[s|x] st2]| |]; cbn [rbind]; try discriminate; [apply IHe|congruence]. }
  specialize (Hev e [] st1). destruct (eval_terms ev0 e [] st1) as [[[s|x] st2]| |]; cbn [rbind]; try discriminate; [|congruence].
  destruct (accept st2 ident s) as [[|] st3]; [discriminate|apply IH].
Qed.

Lemma terminates_no_panic fuel g : terminates fuel g <> Panic.
Proof.
  unfold terminates. destruct (starting_term g) as [start|]; [|discriminate]. destruct (term_init g) as [|t rules]; [discriminate|].
  generalize (t :: rules). induction fuel as [|fuel IH]; intro l; cbn [term_loop]; [discriminate|].
  destruct (term_pass start g l false) as [[rules' [|]]|]; try discriminate. apply IH.
Qed.

Lemma generate_no_panic {S} (choose : S -> nat -> production -> nat -> res (option expression * S)) accept g :
  (forall st addr p depth, In p g -> p_rhs p <> [] -> choose st addr p depth <> Panic) ->
  forall fuel st, generate choose accept g fuel st <> Panic.
Proof.
  intros Hc fuel st. unfold generate. pose proof (terminates_no_panic fuel g).
  destruct (terminates fuel g) as [b| |]; cbn [rbind]; try discriminate; [|congruence].
  destruct b; cbn [negb]; [|discriminate]. destruct g as [|p rest] eqn:Eg; [discriminate|].
  destruct (p_lhs p); [discriminate|]. rewrite <- Eg in *. apply traverse_no_panic. assumption.
Qed.
