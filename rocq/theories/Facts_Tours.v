(** Last steps to the part of C70 about CoverageGuided. *)
From Verif Require Export TourProofs.
From Verif Require Import ParseExamples StrategyProofs Facts_Strategies.
From Coq Require Import Lia.

Lemma C70_coverage_proof : forall g p rest n fuel0,
  g = p :: rest -> p_lhs p = Nonterminal n -> terminates fuel0 g = Ok true -> forall ok f seen r seen' l,
  (exists fuel, generate (coverage_guided (stream_rng f)) (pure_callback ok) g fuel (mkCov seen 0) = Ok (r, mkCov seen' l)) <->
  (exists ds, tour g ok no_alternative seen n ds r seen' /\ length ds = l /\ follows f 0 ds).
Proof. intros g p rest n fuel0 Eg Hl Ht ok f seen r seen' l. exact (generate_tour g ok f p rest n seen r seen' l fuel0 Eg Hl Ht). Qed.

Lemma C70_one_tour_proof : forall g ok f s n ds r s' ds' r' s2,
  tour g ok no_alternative s n ds r s' -> tour g ok no_alternative s n ds' r' s2 -> follows f 0 ds -> follows f 0 ds' ->
  ds = ds' /\ r = r' /\ s' = s2.
Proof. intros g ok f s n ds r s' ds' r' s2 H H'. exact (proj1 (tour_unique g ok f) s n ds r s' H 0 ds' r' s2 H'). Qed.

Lemma C70_tour_share_proof : forall g ok bad s n ds r s' base len,
  tour g ok bad s n ds r s' -> common_multiple g base -> length ds <= len ->
  count (gives ds) (scripts base len) * product (map snd ds) = base ^ len.
Proof. intros; eapply tour_share; eassumption. Qed.

Lemma C70_coverage_probability_proof : forall g p rest n fuel0,
  g = p :: rest -> p_lhs p = Nonterminal n -> terminates fuel0 g = Ok true -> forall base len, common_multiple g base -> forall ok seen r,
  exists W, NoDup W /\ (forall ds, In ds W <-> (exists seen', tour g ok no_alternative seen n ds r seen') /\ length ds <= len) /\
    returning (fun f fuel => let* (r, c) := generate (coverage_guided (stream_rng f)) (pure_callback ok) g fuel (mkCov seen 0) in Ok (r, c_rng c))
      base len r (list_sum (map (fun ds => base ^ len / product (map snd ds)) W)).
Proof. intros g p rest n fuel0 Eg Hl Ht base len Hb ok seen r. exact (tour_probability g ok base len Hb p rest n seen r fuel0 Eg Hl Ht). Qed.

Lemma draws_followed (ds : list draw) : (forall k m, In (k, m) ds -> k < m) -> follows (source (map fst ds)) 0 ds.
Proof.
  intro H. cut (forall f i, (forall j, j < length ds -> f (i + j) = nth j (map fst ds) 0) -> follows f i ds).
  { intro Hc. apply Hc. intros j _. reflexivity. }
  induction ds as [|[k m] ds IH]; intros f i Hf; cbn [follows]; [exact I|]. split.
  - specialize (Hf 0 ltac:(cbn; lia)). rewrite Nat.add_0_r in Hf. rewrite Hf. cbn. apply Nat.mod_small. apply H. left; reflexivity.
  - apply IH; [intros; apply H; right; assumption|]. intros j Hj. specialize (Hf (S j) ltac:(cbn; lia)). cbn in Hf. rewrite <- Hf. f_equal. lia.
Qed.
Lemma C70_tour_taken_proof : forall g ok bad s n ds r s', tour g ok bad s n ds r s' -> follows (source (map fst ds)) 0 ds.
Proof.
  intros g ok bad s n ds r s' H. apply draws_followed.
  refine (proj1 (tour_draws g ok bad (fun k m => k < m) _) _ _ _ _ _ H). intros. apply nth_error_Some. congruence.
Qed.

Lemma tours_example :
  let g := [two_alts] in let yes := fun _ _ : str => true in let s := lit "s" in
  common_multiple g 2 /\ terminates 3 g = Ok true /\
  offered [(0, 0)] 0 two_alts = [1] /\ offered [(0, 1); (0, 0)] 0 two_alts = [0; 1] /\
  tour g yes no_alternative [] s [(0, 2); (0, 1)] (ROk (lit "ba")) [(0, 1); (0, 0)] /\
  (forall ds r seen, tour g yes no_alternative [] s ds r seen <->
     ds = [(1, 2)] /\ r = ROk (lit "b") /\ seen = [(0, 1)] \/
     ds = [(0, 2); (0, 1)] /\ r = ROk (lit "ba") /\ seen = [(0, 1); (0, 0)]) /\
  filter (fun l => match generate (coverage_guided (stream_rng (source l))) (pure_callback yes) g 10 (mkCov [] 0) with
                   | Ok (ROk w, c) => list_eqb N.eqb w (lit "ba") | _ => false end) (scripts 2 2) = [[0; 0]; [0; 1]].
Proof.
  cbv zeta.
  assert (Hf : forall ix p, first_at [two_alts] (lit "s") ix p <-> ix = 0 /\ p = two_alts).
  { intros ix p. split.
    - intros (H1 & _). destruct ix as [|[|ix]]; cbn in H1; try discriminate. injection H1 as <-. auto.
    - intros [-> ->]. repeat split. intros j q Hj. lia. }
  assert (Hc : choosable two_alts) by (split; discriminate).
  assert (Ht : tour [two_alts] (fun _ _ => true) no_alternative [] (lit "s") [(0, 2); (0, 1)] (ROk (lit "ba")) [(0, 1); (0, 0)]).
  { apply (tr_accept _ _ _ [] (lit "s") 0 two_alts 0 0 [N_ "s"; T_ "a"] [(0, 1)] (lit "ba")); [apply Hf; auto|assumption|reflexivity|reflexivity| |reflexivity].
    refine (trs_nonterminal _ _ _ _ _ _ [(0, 1)] [] (lit "b") (lit "a") _ _ _ _).
    - apply (tr_accept _ _ _ [(0, 0)] (lit "s") 0 two_alts 0 1 [T_ "b"] [] (lit "b")); [apply Hf; auto|assumption|reflexivity|reflexivity| |reflexivity].
      refine (trs_terminal _ _ _ _ (lit "b") [] [] [] _ _). constructor.
    - refine (trs_terminal _ _ _ _ (lit "a") [] [] [] _ _). constructor. }
  assert (Hb : tour [two_alts] (fun _ _ => true) no_alternative [] (lit "s") [(1, 2)] (ROk (lit "b")) [(0, 1)]).
  { apply (tr_accept _ _ _ [] (lit "s") 0 two_alts 1 1 [T_ "b"] [] (lit "b")); [apply Hf; auto|assumption|reflexivity|reflexivity| |reflexivity].
    refine (trs_terminal _ _ _ _ (lit "b") [] [] [] _ _). constructor. }
  split.
  { split; [lia|]. intros p k [<-|[]] Hk. cbn in Hk. assert (k = 1 \/ k = 2) as [->| ->] by lia; [exists 2|exists 1]; reflexivity. }
  split; [vm_compute; reflexivity|]. split; [reflexivity|]. split; [reflexivity|]. split; [exact Ht|]. split; [|vm_compute; reflexivity].
  intros ds r seen. split; [|intros [(-> & -> & ->)|(-> & -> & ->)]; assumption].
  intro H.
  pose proof (C70_tour_taken_proof _ _ _ _ _ _ _ _ H) as Hfo. set (f := source (map fst ds)) in *.
  assert (E : f 0 mod 2 = 0 \/ f 0 mod 2 = 1) by (pose proof (Nat.mod_upper_bound (f 0) 2); lia). destruct E as [E|E].
  - right. apply (C70_one_tour_proof _ _ f _ _ _ _ _ _ _ _ H Ht Hfo). cbn [follows]. rewrite Nat.mod_1_r. auto.
  - left. apply (C70_one_tour_proof _ _ f _ _ _ _ _ _ _ _ H Hb Hfo). cbn [follows]. auto.
Qed.
