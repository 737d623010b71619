(** Last steps to C70. *)
From Verif Require Export WalkProofs.
From Coq Require Import Lia.

Definition no_alternative : error := GenerateError msg_no_alternative.

(** ** RandomWalk *)
Lemma random_one_draw f i addr p d : p_rhs p <> [] ->
  exists e, nth_error (random_alternatives d p) (f i mod length (random_alternatives d p)) = Some e /\
    random_walk (stream_rng f) i addr p d = Ok (Some e, S i).
Proof.
  intro H. rewrite random_walk_one_draw by assumption. cbn [draw_usize stream_rng stream_draw]. unfold stream_draw, random_alternatives.
  destruct (nth_error (p_rhs p) (f i mod length (p_rhs p))) as [e|] eqn:E; [eauto|].
  apply nth_error_None in E. apply rhs_length in H. pose proof (Nat.mod_upper_bound (f i) (length (p_rhs p))). lia.
Qed.

(** ** DepthBounded *)
Lemma indices_where_filter {A} (t : A -> bool) (l : list A) : forall i0 k,
  length (indices_where (fun _ => t) i0 l) = length (filter t l) /\
  (k < length (filter t l) -> i0 <= nth k (indices_where (fun _ => t) i0 l) 0 /\
   nth_error l (nth k (indices_where (fun _ => t) i0 l) 0 - i0) = nth_error (filter t l) k).
Proof.
  induction l as [|a l IH]; intros i0 k; cbn [indices_where filter]; [split; [reflexivity|cbn; lia]|].
  destruct (t a); cbn [length].
  - destruct (IH (S i0) 0) as [Hl _]. rewrite Hl. split; [reflexivity|]. intro Hk. destruct k as [|k]; cbn [nth].
    + rewrite Nat.sub_diag. cbn. auto.
    + destruct (IH (S i0) k) as [_ H]. destruct (H ltac:(lia)) as [H1 H2]. split; [lia|].
      replace (nth k (indices_where (fun _ => t) (S i0) l) 0 - i0) with (S (nth k (indices_where (fun _ => t) (S i0) l) 0 - S i0)) by lia.
      exact H2.
  - destruct (IH (S i0) k) as [Hl H]. split; [exact Hl|]. intro Hk. destruct (H Hk) as [H1 H2]. split; [lia|].
    replace (nth k (indices_where (fun _ => t) (S i0) l) 0 - i0) with (S (nth k (indices_where (fun _ => t) (S i0) l) 0 - S i0)) by lia.
    exact H2.
Qed.

Lemma all_terminals_negb e : expression_all_terminals e = negb (existsb is_nonterminal e).
Proof. unfold expression_all_terminals. induction e as [|[s|n] e IH]; [reflexivity|exact IH|reflexivity]. Qed.

Lemma depth_one_draw max f i addr p d : p_rhs p <> [] ->
  exists e, nth_error (depth_alternatives max d p) (f i mod length (depth_alternatives max d p)) = Some e /\
    depth_bounded (stream_rng f) max i addr p d = Ok (Some e, S i).
Proof.
  intro H. apply rhs_length in H. unfold depth_bounded. pose proof (pick_from_total (stream_rng f) i (depth_bounded_eligible max p d) _ H) as E.
  cbv zeta in E. rewrite E. clear E. cbn [draw_usize stream_rng]. unfold stream_draw. cbn [rbind].
  set (el := match depth_bounded_eligible max p d with nil => seq 0 (length (p_rhs p)) | _ => depth_bounded_eligible max p d end).
  cut (0 < length el /\ length el = length (depth_alternatives max d p) /\ forall k, k < length el ->
       nth_error (p_rhs p) (nth k el 0) = nth_error (depth_alternatives max d p) k).
  { intros (H0 & Hl & Hk). rewrite <- Hl. pose proof (Nat.mod_upper_bound (f i) (length el) ltac:(lia)) as Hm.
    destruct (nth_error (depth_alternatives max d p) (f i mod length el)) as [e|] eqn:E.
    - exists e. split; [reflexivity|]. rewrite Hk by assumption. rewrite E. reflexivity.
    - apply nth_error_None in E. lia. }
  assert (Hs : 0 < length (seq 0 (length (p_rhs p))) /\ length (seq 0 (length (p_rhs p))) = length (p_rhs p) /\
    forall k, k < length (seq 0 (length (p_rhs p))) -> nth_error (p_rhs p) (nth k (seq 0 (length (p_rhs p))) 0) = nth_error (p_rhs p) k).
  { rewrite seq_length. repeat split; [assumption|]. intros k Hk. rewrite seq_nth by assumption. reflexivity. }
  unfold el, depth_bounded_eligible, depth_alternatives. destruct (Nat.leb_spec max d), (Nat.ltb_spec d max); try lia.
  - assert (E : filter (fun e => negb (existsb is_nonterminal e)) (p_rhs p) = filter expression_all_terminals (p_rhs p)).
    { apply filter_ext. intro e. symmetry. apply all_terminals_negb. }
    rewrite E. clear E. pose proof (indices_where_filter expression_all_terminals (p_rhs p) 0) as Hi.
    destruct (Hi 0) as [Hl _]. cbn beta in *.
    destruct (indices_where (fun _ => expression_all_terminals) 0 (p_rhs p)) as [|a l] eqn:Ei,
      (filter expression_all_terminals (p_rhs p)) as [|e es] eqn:Ef; try discriminate Hl; [exact Hs|].
    split; [cbn; lia|]. split; [exact Hl|]. intros k Hk. rewrite Hl in Hk. destruct (Hi k) as [_ H2].
    destruct (H2 Hk) as [_ H3]. rewrite Nat.sub_0_r in H3. exact H3.
  - destruct (seq 0 (length (p_rhs p))); exact Hs.
Qed.

(** ** Weighted *)
Lemma weighted_alternatives_scan (wt : expression -> N) : forall l i0 x,
  (x < nsum (map wt l))%N ->
  exists i, weighted_scan (map wt l) i0 x = Some i /\ i0 <= i /\
    nth_error (flat_map (fun e => repeat e (N.to_nat (wt e))) l) (N.to_nat x) = nth_error l (i - i0).
Proof.
  induction l as [|e l IH]; intros i0 x Hx; [cbn in Hx; lia|]. cbn [map weighted_scan flat_map nsum fold_right] in *.
  destruct (N.ltb_spec x (wt e)) as [Hlt|Hge].
  - exists i0. rewrite Nat.sub_diag. repeat split; [lia|]. cbn [nth_error].
    rewrite nth_error_app1 by (rewrite repeat_length; lia).
    rewrite (nth_error_nth' _ e) by (rewrite repeat_length; lia). rewrite nth_repeat. reflexivity.
  - destruct (IH (S i0) (x - wt e)%N) as (i & H1 & H2 & H3). { unfold nsum in *. lia. }
    exists i. split; [exact H1|]. split; [lia|]. rewrite nth_error_app2 by (rewrite repeat_length; lia).
    rewrite repeat_length. replace (N.to_nat x - N.to_nat (wt e)) with (N.to_nat (x - wt e)) by lia. rewrite H3.
    replace (i - i0) with (S (i - S i0)) by lia. reflexivity.
Qed.

Lemma weighted_alternatives_length (wt : expression -> N) l :
  length (flat_map (fun e => repeat e (N.to_nat (wt e))) l) = N.to_nat (nsum (map wt l)).
Proof.
  induction l as [|e l IH]; [reflexivity|]. cbn [flat_map map nsum fold_right]. rewrite app_length, repeat_length, IH.
  unfold nsum. lia.
Qed.

Lemma weighted_one_draw checks rec nonrec f i addr p d : p_rhs p <> [] -> (nsum (fill_weights rec nonrec p) < 2 ^ 32)%N ->
  exists e, nth_error (weighted_alternatives rec nonrec d p) (f i mod length (weighted_alternatives rec nonrec d p)) = Some e /\
    weighted (stream_rng f) checks rec nonrec i addr p d = Ok (Some e, S i).
Proof.
  intros H Hlt.
  set (wt := fun e : expression => if existsb (fun t => term_eqb t (p_lhs p)) e then rec else nonrec).
  pose proof (weighted_alternatives_length wt (p_rhs p)) as Hl.
  change (map wt (p_rhs p)) with (fill_weights rec nonrec p) in Hl.
  assert (Ea : weighted_alternatives rec nonrec d p =
    match flat_map (fun e : expression => repeat e (N.to_nat (wt e))) (p_rhs p) with nil => p_rhs p | l => l end) by reflexivity.
  destruct (N.eq_dec (nsum (fill_weights rec nonrec p)) 0) as [E0|E0].
  - rewrite weighted_zero by assumption. rewrite E0 in Hl.
    destruct (flat_map (fun e : expression => repeat e (N.to_nat (wt e))) (p_rhs p)) as [|e l]; [|discriminate Hl].
    rewrite Ea. apply random_one_draw. assumption.
  - assert (Ea' : weighted_alternatives rec nonrec d p = flat_map (fun e : expression => repeat e (N.to_nat (wt e))) (p_rhs p)).
    { rewrite Ea. destruct (flat_map (fun e : expression => repeat e (N.to_nat (wt e))) (p_rhs p)); [cbn in Hl; lia|reflexivity]. }
    rewrite Ea', Hl. clear Ea Ea'.
    unfold weighted, weighted_random_index, sum_u32. fold (nsum (fill_weights rec nonrec p)).
    set (total := nsum (fill_weights rec nonrec p)) in *.
    destruct (N.leb_spec u32_max_plus_1 total) as [Hge|_]; [unfold u32_max_plus_1 in Hge; lia|]. rewrite andb_false_r. cbn [rbind].
    rewrite N.mod_small by (unfold u32_max_plus_1; lia). destruct (N.eqb_spec total 0) as [|_]; [lia|].
    cbn [draw_u32 stream_rng]. unfold stream_draw_u32. cbn [rbind].
    destruct (weighted_alternatives_scan wt (p_rhs p) 0 (N.of_nat (f i) mod total)%N) as (j & H1 & _ & H3).
    { apply N.mod_lt. assumption. }
    change (map wt (p_rhs p)) with (fill_weights rec nonrec p) in H1. rewrite H1. rewrite Nat.sub_0_r in H3.
    assert (Em : N.to_nat (N.of_nat (f i) mod total) = f i mod N.to_nat total).
    { rewrite N2Nat.inj_mod, Nat2N.id by assumption. reflexivity. }
    rewrite Em in H3. destruct (nth_error (p_rhs p) j) as [e|] eqn:Ej; [exists e; auto|].
    apply nth_error_None in H3. rewrite Hl in H3.
    pose proof (Nat.mod_upper_bound (f i) (N.to_nat total) ltac:(lia)). lia.
Qed.

(** ** The theorems *)
Section Facts.
  Variables (g : grammar) (p : production) (rest : list production) (n : str) (fuel0 : nat).
  Hypothesis Eg : g = p :: rest.
  Hypothesis Hl : p_lhs p = Nonterminal n.
  Hypothesis Ht : terminates fuel0 g = Ok true.

  Lemma C70_random_walk_proof ok f r l :
    (exists fuel, generate_random (stream_rng f) ok g fuel 0 = Ok (r, l)) <->
    (exists ds, walk g ok random_alternatives no_alternative 0 n ds r /\ length ds = l /\ follows f 0 ds).
  Proof.
    apply (generate_walk g ok random_alternatives f (random_walk (stream_rng f))
      (fun i addr p d _ => random_one_draw f i addr p d) p rest n r l fuel0 Eg Hl Ht).
  Qed.

  Lemma C70_depth_bounded_proof max ok f r l :
    (exists fuel, generate (depth_bounded (stream_rng f) max) (pure_callback ok) g fuel 0 = Ok (r, l)) <->
    (exists ds, walk g ok (depth_alternatives max) no_alternative 0 n ds r /\ length ds = l /\ follows f 0 ds).
  Proof.
    apply (generate_walk g ok (depth_alternatives max) f (depth_bounded (stream_rng f) max)
      (fun i addr p d _ => depth_one_draw max f i addr p d) p rest n r l fuel0 Eg Hl Ht).
  Qed.

  Lemma C70_weighted_proof checks rec nonrec ok f r l :
    (forall q, In q g -> (nsum (fill_weights rec nonrec q) < 2 ^ 32)%N) ->
    (exists fuel, generate (weighted (stream_rng f) checks rec nonrec) (pure_callback ok) g fuel 0 = Ok (r, l)) <->
    (exists ds, walk g ok (weighted_alternatives rec nonrec) no_alternative 0 n ds r /\ length ds = l /\ follows f 0 ds).
  Proof.
    intro Hw. apply (generate_walk g ok (weighted_alternatives rec nonrec) f (weighted (stream_rng f) checks rec nonrec)
      (fun i addr p d Hp Hr => weighted_one_draw checks rec nonrec f i addr p d Hr (Hw p Hp)) p rest n r l fuel0 Eg Hl Ht).
  Qed.

  (** The lists of [len] numbers below [base] that make a generator return [r] within [len]
      draws: [k] of them. *)
  Definition returning (run : (nat -> nat) -> nat -> res (result str * nat)) (base len : nat) (r : result str) (k : nat) : Prop :=
    forall S, NoDup S -> (forall s, In s S <-> In s (scripts base len) /\
      exists fuel l, l <= len /\ run (source s) fuel = Ok (r, l)) -> length S = k.

  Variables (base len : nat).
  Hypothesis Hbase : 0 < base.

  Lemma C70_random_walk_probability_proof ok r :
    (forall d q, In q g -> choosable q -> Nat.divide (length (random_alternatives d q)) base) ->
    exists W, NoDup W /\ (forall ds, In ds W <-> walk g ok random_alternatives no_alternative 0 n ds r /\ length ds <= len) /\
      returning (fun f fuel => generate_random (stream_rng f) ok g fuel 0) base len r
        (list_sum (map (fun ds => base ^ len / product (map snd ds)) W)).
  Proof.
    intro Hd. exact (probability g ok random_alternatives (fun f => random_walk (stream_rng f))
      (fun f i addr p d _ => random_one_draw f i addr p d) base len Hbase Hd p rest n r fuel0 Eg Hl Ht).
  Qed.

  Lemma C70_depth_bounded_probability_proof max ok r :
    (forall d q, In q g -> choosable q -> Nat.divide (length (depth_alternatives max d q)) base) ->
    exists W, NoDup W /\ (forall ds, In ds W <-> walk g ok (depth_alternatives max) no_alternative 0 n ds r /\ length ds <= len) /\
      returning (fun f fuel => generate (depth_bounded (stream_rng f) max) (pure_callback ok) g fuel 0) base len r
        (list_sum (map (fun ds => base ^ len / product (map snd ds)) W)).
  Proof.
    intro Hd. exact (probability g ok (depth_alternatives max) (fun f => depth_bounded (stream_rng f) max)
      (fun f i addr p d _ => depth_one_draw max f i addr p d) base len Hbase Hd p rest n r fuel0 Eg Hl Ht).
  Qed.

  Lemma C70_weighted_probability_proof checks rec nonrec ok r :
    (forall q, In q g -> (nsum (fill_weights rec nonrec q) < 2 ^ 32)%N) ->
    (forall d q, In q g -> choosable q -> Nat.divide (length (weighted_alternatives rec nonrec d q)) base) ->
    exists W, NoDup W /\ (forall ds, In ds W <-> walk g ok (weighted_alternatives rec nonrec) no_alternative 0 n ds r /\ length ds <= len) /\
      returning (fun f fuel => generate (weighted (stream_rng f) checks rec nonrec) (pure_callback ok) g fuel 0) base len r
        (list_sum (map (fun ds => base ^ len / product (map snd ds)) W)).
  Proof.
    intros Hw Hd. exact (probability g ok (weighted_alternatives rec nonrec) (fun f => weighted (stream_rng f) checks rec nonrec)
      (fun f i addr p d Hp Hr => weighted_one_draw checks rec nonrec f i addr p d Hr (Hw p Hp)) base len Hbase Hd p rest n r fuel0 Eg Hl Ht).
  Qed.
End Facts.

Lemma C70_scripts_proof base len : NoDup (scripts base len) /\ length (scripts base len) = base ^ len /\
  forall s, In s (scripts base len) <-> length s = len /\ forall x, In x s -> x < base.
Proof. split; [apply scripts_NoDup|]. split; [apply scripts_length|apply scripts_spec]. Qed.

Lemma C70_share_proof g ok alts bad d n ds r base len : walk g ok alts bad d n ds r ->
  0 < base -> (forall d p, In p g -> choosable p -> Nat.divide (length (alts d p)) base) -> length ds <= len ->
  (forall s, length s = len -> gives ds s = true <-> follows (source s) 0 ds) /\
  count (gives ds) (scripts base len) * product (map snd ds) = base ^ len.
Proof.
  intros Hw Hb Hd Hlen. split.
  - intros s Hs. apply gives_follows; [lia|]. reflexivity.
  - apply share; [assumption..|].
    assert (Hk : forall d p k e, In p g -> choosable p -> nth_error (alts d p) k = Some e ->
      k < length (alts d p) /\ Nat.divide (length (alts d p)) base).
    { intros d0 p k e Hp Hc Hk. split; [apply nth_error_Some; congruence|auto]. }
    exact (proj1 (walk_draws g ok alts bad (fun k m => k < m /\ Nat.divide m base) Hk) _ _ _ _ Hw).
Qed.

Lemma C70_one_walk_proof g ok alts bad d n f ds ds' r r' :
  walk g ok alts bad d n ds r -> walk g ok alts bad d n ds' r' -> follows f 0 ds -> follows f 0 ds' -> ds = ds' /\ r = r'.
Proof. intros H H'. exact (proj1 (walk_unique g ok alts bad f) d n ds r H 0 ds' r' H'). Qed.
