(** Proofs of the theorems of Properties_Strategies.v that are not instances of a single lemma. *)
From Coq Require Import Permutation.
From Verif Require Import ParseExamples StrategyProofs.

Lemma C22_random_walk_proof : forall R (rng : rng_ops R) r addr p depth, p_rhs p <> [] ->
  exists e r', random_walk rng r addr p depth = Ok (Some e, r') /\ In e (p_rhs p).
Proof. intros R rng. apply random_walk_picks. Qed.

Lemma C22_depth_bounded_proof : forall R (rng : rng_ops R) max r addr p depth, p_rhs p <> [] ->
  exists e r', depth_bounded rng max r addr p depth = Ok (Some e, r') /\ In e (p_rhs p).
Proof.
  intros R rng max r addr p depth H. destruct (depth_bounded_picks rng max r addr p depth H) as (e & r' & H1 & H2 & _). eauto.
Qed.

Lemma C22_coverage_guided_proof : forall R (rng : rng_ops R) c addr p depth, p_rhs p <> [] ->
  exists e c', coverage_guided rng c addr p depth = Ok (Some e, c') /\ In e (p_rhs p).
Proof. intros R rng. apply coverage_guided_picks. Qed.

Lemma C22_weighted_proof : forall R (rng : rng_ops R) checks rec nonrec r addr p depth, p_rhs p <> [] ->
  checks = false \/ (nsum (fill_weights rec nonrec p) < 2 ^ 32)%N ->
  exists e r', weighted rng checks rec nonrec r addr p depth = Ok (Some e, r') /\ In e (p_rhs p).
Proof. intros R rng checks rec nonrec r addr p depth. apply weighted_picks. Qed.

Lemma C22_weighted_overflow_refuted_proof : exists p, p_rhs p <> [] /\
  forall R (rng : rng_ops R) r addr depth, weighted rng true 4294967295 4294967295 r addr p depth = Panic.
Proof.
  exists (mkProd (N_ "s") [[N_ "s"]; [T_ "a"]]). split; [discriminate|]. intros R rng r addr depth.
  apply weighted_overflow_panics. vm_compute. discriminate.
Qed.

Lemma C22_generation_no_panic_proof : forall R (rng : rng_ops R) g fuel,
  (forall accept r, generate (random_walk rng) accept g fuel r <> Panic) /\
  (forall max accept r, generate (depth_bounded rng max) accept g fuel r <> Panic) /\
  (forall accept c, generate (coverage_guided rng) accept g fuel c <> Panic) /\
  (forall rec nonrec accept r, generate (weighted rng false rec nonrec) accept g fuel r <> Panic).
Proof.
  intros R rng g fuel. repeat split.
  - intros accept r. apply generate_no_panic. intros st addr p depth _ H E.
    destruct (random_walk_picks rng st addr p depth H) as (e & r' & E' & _). congruence.
  - intros max accept r. apply generate_no_panic. intros st addr p depth _ H E.
    destruct (depth_bounded_picks rng max st addr p depth H) as (e & r' & E' & _). congruence.
  - intros accept c. apply generate_no_panic. intros st addr p depth _ H E.
    destruct (coverage_guided_picks rng st addr p depth H) as (e & r' & E' & _). congruence.
  - intros rec nonrec accept r. apply generate_no_panic. intros st addr p depth _ H E.
    destruct (weighted_picks rng false rec nonrec st addr p depth H (or_introl eq_refl)) as (e & r' & E' & _). congruence.
Qed.

Definition two_alts : production := mkProd (N_ "s") [[N_ "s"; T_ "a"]; [T_ "b"]].

Lemma C23_terminals_at_depth_proof : forall R (rng : rng_ops R) max r addr p depth e r',
  max <= depth -> (exists e', In e' (p_rhs p) /\ forall n, ~ In (Nonterminal n) e') ->
  depth_bounded rng max r addr p depth = Ok (Some e, r') ->
  In e (p_rhs p) /\ forall n, ~ In (Nonterminal n) e.
Proof.
  intros R rng max r addr p depth e r' Hd (e' & He' & Ht') H.
  assert (Hne : p_rhs p <> []) by (intro E; rewrite E in He'; destruct He').
  destruct (depth_bounded_picks rng max r addr p depth Hne) as (e1 & r1 & E1 & Hin & Hall).
  rewrite E1 in H. injection H as <- <-. split; [assumption|]. apply all_terminals_spec. apply Hall; [assumption|].
  exists e'. split; [assumption|]. apply all_terminals_spec. assumption.
Qed.

Lemma C23_generation_bounded_proof : forall R (rng : rng_ops R) max_depth g,
  (forall p, In p g -> exists e, In e (p_rhs p) /\ forall n, ~ In (Nonterminal n) e) ->
  exists fuel bound, forall st, exists r st',
    generate_with_strategy (depth_bounded rng max_depth) g fuel st = Ok (r, st') /\
    forall w, r = ROk w -> List.length w <= bound.
Proof. intros R rng max_depth g. apply depth_bounded_generates. Qed.

Definition no_exit_grammar : grammar := [mkProd (N_ "s") [[N_ "s"; N_ "t"]; [N_ "t"]]; mkProd (N_ "t") [[T_ "a"]]].

Lemma no_exit_oof max f fuel : forall st depth,
  traverse (depth_bounded (const_rng 0) max) (pure_callback f) no_exit_grammar fuel (lit "s") st depth = OutOfFuel.
Proof.
  induction fuel as [|fuel IH]; intros st depth; [reflexivity|]. cbn [traverse].
  change (find_production no_exit_grammar (lit "s") 0) with (Some (0, mkProd (N_ "s") [[N_ "s"; N_ "t"]; [N_ "t"]])).
  cbn [production_has_no_choice p_rhs].
  assert (E : depth_bounded (const_rng 0) max st 0 (mkProd (N_ "s") [[N_ "s"; N_ "t"]; [N_ "t"]]) depth =
    Ok (Some [N_ "s"; N_ "t"], st)).
  { unfold depth_bounded, depth_bounded_eligible. destruct (Nat.leb max depth); reflexivity. }
  rewrite E. cbn [rbind]. unfold N_. cbn [eval_terms]. rewrite IH. reflexivity.
Qed.

Lemma C23_termination_refuted_proof : exists g,
  (forall p, In p g -> p_rhs p <> []) /\ terminates 5 g = Ok true /\
  forall max f fuel, generate (depth_bounded (const_rng 0) max) (pure_callback f) g fuel tt = OutOfFuel.
Proof.
  exists no_exit_grammar. split; [intros p [<-|[<-|[]]]; discriminate|]. split; [reflexivity|].
  intros max f fuel. unfold generate. destruct (terminates fuel no_exit_grammar) as [b| |] eqn:E; cbn [rbind].
  - assert (b = true) as ->.
    { apply (terminates_mono _ fuel (fuel + 5)) in E; [|lia].
      assert (E' : terminates 5 no_exit_grammar = Ok true) by reflexivity.
      apply (terminates_mono _ 5 (fuel + 5)) in E'; [|lia]. congruence. }
    apply no_exit_oof.
  - destruct (terminates_no_panic _ _ E).
  - reflexivity.
Qed.

Lemma C24_coverage_proof : forall R (rng : rng_ops R) a p c calls es c',
  p_rhs p <> [] ->
  (forall addr q depth, In (addr, q, depth) calls -> addr = a -> q = p) ->
  (forall i, ~ In (a, i) (c_seen c)) ->
  coverage_run rng c calls = Ok (es, c') ->
  exists rest,
    Permutation (firstn (List.length (p_rhs p)) (answers_for a calls es) ++ rest) (map Some (p_rhs p)) /\
    (List.length (p_rhs p) <= List.length (answers_for a calls es) -> rest = []).
Proof. intros R rng a p c calls es c'. apply coverage_permutation. Qed.

Lemma C24_address_reuse_refuted_proof : exists p q,
  forall a, exists es c', coverage_run (const_rng 0) (mkCov [] tt) [(a, p, 0); (a, p, 0); (a, q, 0); (a, q, 0)] = Ok (es, c') /\
    skipn 2 es = [Some [T_ "c"]; Some [T_ "c"]] /\ p_rhs q = [[T_ "c"]; [T_ "d"]].
Proof.
  exists two_alts, (mkProd (N_ "t") [[T_ "c"]; [T_ "d"]]). intro a. cbn.
  unfold coverage_guided, coverage_index. cbn. unfold seen_eqb. cbn. rewrite !Nat.eqb_refl. cbn.
  rewrite !Nat.eqb_refl. cbn. rewrite !Nat.eqb_refl. cbn. eexists _, _. split; [reflexivity|]. split; reflexivity.
Qed.

Lemma C25_proportional_proof : forall R (rng : rng_ops R) checks rec nonrec p,
  let ws := fill_weights rec nonrec p in
  (0 < nsum ws)%N -> (nsum ws < 2 ^ 32)%N ->
  (* the draws are split among the alternatives *)
  (forall x, (x < nsum ws)%N -> exists i w, nth_error ws i = Some w /\ In x (n_range (nsum (firstn i ws)) w)) /\
  forall i w, nth_error ws i = Some w ->
  let xs := n_range (nsum (firstn i ws)) w in
  NoDup xs /\ List.length xs = N.to_nat w /\ (forall x, In x xs -> (x < nsum ws)%N) /\
  forall r addr depth, In (fst (draw_u32 rng r (nsum ws))) xs ->
    weighted rng checks rec nonrec r addr p depth = Ok (nth_error (p_rhs p) i, snd (draw_u32 rng r (nsum ws))).
Proof.
  intros R rng checks rec nonrec p ws H0 H1. split.
  - intros x Hx. destruct (weighted_scan_total ws 0 x Hx) as [i Hi]. apply weighted_scan_spec in Hi.
    destruct Hi as (_ & w & Hn & Hlo & Hhi). rewrite Nat.sub_0_r in *. exists i, w. split; [assumption|].
    apply n_range_spec. auto.
  - intros i w Hi xs. split; [apply n_range_NoDup|]. split; [apply n_range_length|]. split.
    + intros x Hx. apply n_range_spec in Hx.
      assert (Hs : forall (l : list N) i w, nth_error l i = Some w -> (nsum (firstn i l) + w <= nsum l)%N).
      { clear. induction l as [|a l IH]; intros [|i] w H; cbn in *; try discriminate.
        - injection H as <-. lia.
        - specialize (IH _ _ H). unfold nsum in IH. lia. }
      specialize (Hs _ _ _ Hi). lia.
    + intros r addr depth Hx. apply n_range_spec in Hx. destruct Hx as [Hlo Hhi].
      exact (weighted_select rng checks rec nonrec r addr p depth i w H0 H1 Hi Hlo Hhi).
Qed.

Lemma C25_zero_total_proof : forall R (rng : rng_ops R) checks rec nonrec r addr p depth,
  nsum (fill_weights rec nonrec p) = 0%N ->
  weighted rng checks rec nonrec r addr p depth = random_walk rng r addr p depth.
Proof. intros R rng checks rec nonrec r addr p depth. apply weighted_zero. Qed.

Lemma C25_overflow_refuted_proof : exists p rec nonrec, (0 < rec)%N /\ (0 < nonrec)%N /\
  (rec < 2 ^ 32)%N /\ (nonrec < 2 ^ 32)%N /\ p_rhs p = [[N_ "s"; T_ "a"]; [T_ "b"]] /\
  forall R (rng : rng_ops R) r addr depth r', weighted rng false rec nonrec r addr p depth <> Ok (Some [T_ "b"], r').
Proof.
  exists two_alts, 4294967295%N, 2%N. repeat (split; [reflexivity|]). intros R rng r addr depth r' H.
  unfold weighted, weighted_random_index, sum_u32 in H.
  change (fill_weights 4294967295 2 two_alts) with [4294967295%N; 2%N] in H.
  change (N.modulo (fold_right N.add 0%N [4294967295%N; 2%N]) u32_max_plus_1) with 1%N in H. cbn [andb rbind] in H.
  change (N.eqb 1 0) with false in H. cbv iota in H.
  pose proof (draw_u32_lt _ rng r 1%N eq_refl) as Hlt.
  destruct (draw_u32 rng r 1%N) as [x r1]. cbn [fst] in Hlt. assert (x = 0%N) as -> by lia.
  cbn in H. discriminate.
Qed.

