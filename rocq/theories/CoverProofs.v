(** What CoverageGuided covers in several runs of the generator. *)
From Verif Require Export CoverSpec TraceProofs StrategyProofs WalkProofs.
From Coq Require Import Lia Permutation.

(** ** Invariants of the generator *)

Section Invariant.
  Context {S : Type}.
  Variable choose : S -> nat -> production -> nat -> res (option expression * S).
  Variable accept : S -> str -> str -> bool * S.
  Variable g : grammar.
  Variable P : S -> Prop.
  Hypothesis Hc : forall n ix p st d o st', find_production g n 0 = Some (ix, p) -> P st -> choose st ix p d = Ok (o, st') -> P st'.
  Hypothesis Ha : forall st n w b st', P st -> accept st n w = (b, st') -> P st'.

  Lemma eval_terms_inv (ev : term -> S -> res (result str * S)) :
    (forall t st r st', P st -> ev t st = Ok (r, st') -> P st') ->
    forall e acc st r st', P st -> eval_terms ev e acc st = Ok (r, st') -> P st'.
  Proof.
    intro Hev. induction e as [|t e IH]; intros acc st r st' HP H; cbn [eval_terms] in H.
    - injection H as _ <-. assumption.
    - destruct (ev t st) as [[r1 st1]| |] eqn:E; cbn [rbind] in H; try discriminate. apply Hev in E; [|assumption].
      destruct r1 as [s|x]; [eapply IH; eassumption|]. injection H as _ <-. assumption.
  Qed.

  Lemma traverse_inv fuel : forall n st d r st', P st -> traverse choose accept g fuel n st d = Ok (r, st') -> P st'.
  Proof.
    induction fuel as [|fuel IH]; intros n st d r st' HP H; [discriminate|]. cbn [traverse] in H.
    destruct (find_production g n 0) as [[ix p]|] eqn:Ef; [|injection H as _ <-; assumption].
    destruct (production_has_no_choice p); [injection H as _ <-; assumption|].
    destruct (choose st ix p d) as [[o st1]| |] eqn:Ec; cbn [rbind] in H; try discriminate.
    apply (Hc _ _ _ _ _ _ _ Ef HP) in Ec. destruct o as [e|]; [|injection H as _ <-; assumption].
    match type of H with context [eval_terms ?ev e [] st1] => set (ev0 := ev) in * end.
    destruct (eval_terms ev0 e [] st1) as [[r1 st2]| |] eqn:Ee; cbn [rbind] in H; try discriminate.
    apply eval_terms_inv in Ee; [|intros [s|m] s1 r2 s2 H1 H2; cbn in H2; [injection H2 as _ <-; assumption|eapply IH; eassumption]|assumption].
    destruct r1 as [w|x]; [|injection H as _ <-; assumption].
    destruct (accept st2 n w) as [ok st3] eqn:Ea. apply Ha in Ea; [|assumption].
    destruct ok; [injection H as _ <-; assumption|eapply IH; eassumption].
  Qed.

  Lemma generate_inv fuel st r st' : P st -> generate choose accept g fuel st = Ok (r, st') -> P st'.
  Proof.
    intros HP. assert (Ht : forall n, traverse choose accept g fuel n st 0 = Ok (r, st') -> P st') by (intros n H; eapply traverse_inv; eassumption).
    unfold generate. destruct (terminates fuel g) as [[|]| |]; cbn [rbind negb]; try discriminate.
    2:{ intro H. injection H as _ <-. assumption. }
    destruct g as [|p rest]; [intro H; injection H as _ <-; assumption|].
    destruct (p_lhs p) as [s|n]; [intro H; injection H as _ <-; assumption|]. apply Ht.
  Qed.

  Lemma generate_times_inv fuel k : forall st rs st', P st -> generate_times choose accept g fuel k st = Ok (rs, st') -> P st'.
  Proof.
    induction k as [|k IH]; intros st rs st' HP H; cbn [generate_times] in H; [injection H as _ <-; assumption|].
    destruct (generate choose accept g fuel st) as [[r st1]| |] eqn:E; cbn [rbind] in H; try discriminate.
    destruct (generate_times choose accept g fuel k st1) as [[rs1 st2]| |] eqn:E2; cbn [rbind] in H; try discriminate.
    injection H as _ <-. eapply IH; [|exact E2]. eapply generate_inv; eassumption.
  Qed.
End Invariant.

(** ** The record of several runs *)

Section Times.
  Context {S : Type}.
  Variable choose : S -> nat -> production -> nat -> res (option expression * S).
  Variable accept : S -> str -> str -> bool * S.
  Variable g : grammar.

  (** The events of one run. *)
  Definition run_events (evs : list event) (r : result str) : Prop :=
    (evs = [] /\ exists m, r = RErr (GenerateError m)) \/
    exists n p rest, g = p :: rest /\ p_lhs p = Nonterminal n /\ dialogue g bad_error none_error 0 n evs r.

  Lemma generate_traced_log fuel st log r st' : generate choose accept g fuel st = Ok (r, st') -> exists evs,
    generate (traced_choose choose) (traced_accept accept) g fuel (st, log) = Ok (r, (st', rev evs ++ log)) /\ run_events evs r.
  Proof.
    unfold generate, run_events. destruct (terminates fuel g) as [[|]| |]; cbn [rbind negb]; try discriminate.
    2:{ intro H. injection H as <- <-. exists []. split; [reflexivity|]. left. eauto. }
    destruct g as [|p rest] eqn:Eg; [intro H; injection H as <- <-; exists []; split; [reflexivity|]; left; eauto|].
    destruct (p_lhs p) as [s|n] eqn:El.
    { intro H; injection H as <- <-; exists []; split; [reflexivity|]. left; eauto. }
    rewrite <- Eg in *. intro H. destruct (traverse_traced choose accept g fuel n st 0 log _ _ H) as (evs & E & Hd).
    exists evs. split; [exact E|]. right. exists n, p, rest. auto.
  Qed.

  Lemma times_traced fuel k : forall st log rs st', generate_times choose accept g fuel k st = Ok (rs, st') -> exists evss,
    generate_times (traced_choose choose) (traced_accept accept) g fuel k (st, log) = Ok (rs, (st', rev (concat evss) ++ log)) /\
    Forall2 run_events evss rs /\ length rs = k.
  Proof.
    induction k as [|k IH]; intros st log rs st' H; cbn [generate_times] in *.
    - injection H as <- <-. exists []. cbn. auto.
    - destruct (generate choose accept g fuel st) as [[r st1]| |] eqn:E; cbn [rbind] in H; try discriminate.
      destruct (generate_times choose accept g fuel k st1) as [[rs1 st2]| |] eqn:E2; cbn [rbind] in H; try discriminate.
      injection H as <- <-. destruct (generate_traced_log fuel st log _ _ E) as (evs & E3 & He).
      destruct (IH st1 (rev evs ++ log) _ _ E2) as (evss & E4 & Hes & Hl). exists (evs :: evss).
      rewrite E3. cbn [rbind]. rewrite E4. cbn [rbind concat]. rewrite rev_app_distr, <- app_assoc.
      split; [reflexivity|]. split; [constructor; assumption|]. cbn. f_equal. exact Hl.
  Qed.
End Times.

(** ** Unavoidable nonterminals *)

Lemma unavoidable_chosen g m p : first_for g m p ->
  (forall d n evs r, dialogue g bad_error none_error d n evs r -> forall w, r = ROk w ->
     (forall q d e, In (Chose q d (Some e)) evs -> In e (p_rhs q)) -> unavoidable g m n ->
     exists d e, In (Chose p d (Some e)) evs) /\
  (forall d e evs r, dialogues g bad_error none_error d e evs r -> forall w, r = ROk w ->
     (forall q d e, In (Chose q d (Some e)) evs -> In e (p_rhs q)) -> forall x, In (Nonterminal x) e -> unavoidable g m x ->
     exists d e, In (Chose p d (Some e)) evs).
Proof.
  intro Hp.
  assert (Hu : forall n q, first_for g n q -> unavoidable g m n -> q = p /\ n = m \/
             exists next, (forall e, In e (p_rhs q) -> In (Nonterminal (next e)) e) /\ forall e, In e (p_rhs q) -> unavoidable g m (next e)).
  { intros n q Hq Hun. inversion Hun as [|? q' next Hq' H1 H2]; subst.
    - left. split; [eapply first_for_unique; eassumption|reflexivity].
    - right. assert (q' = q) as -> by (eapply first_for_unique; eassumption). eauto. }
  apply dialogue_mutind; try (intros; discriminate).
  - intros d n Hn w _ _ Hun. exfalso. apply Hn. inversion Hun; subst; eapply first_for_has_lhs; eassumption.
  - intros d n q e evs v Hq Hch Hd IH w Ew Hl Hun. destruct (Hu _ _ Hq Hun) as [[-> _]|(next & H1 & H2)]; [exists d, e; left; reflexivity|].
    assert (He : In e (p_rhs q)) by (apply (Hl q d); left; reflexivity).
    destruct (IH v eq_refl) with (x := next e) as (d' & e' & H'); [|apply H1, He|apply H2, He|].
    + intros q0 d0 e0 H0. apply (Hl q0 d0). right. apply in_or_app. left. exact H0.
    + exists d', e'. right. apply in_or_app. left. exact H'.
  - intros d n q e evs v evs' r Hq Hch Hd IH Hd' IH' w Ew Hl Hun. destruct (IH' w Ew) as (d' & e' & H'); [|exact Hun|].
    + intros q0 d0 e0 H0. apply (Hl q0 d0). right. apply in_or_app. right. right. exact H0.
    + exists d', e'. right. apply in_or_app. right. right. exact H'.
  - intros d w _ _ x [].
  - intros d s e evs v Hd IH w Ew Hl x [Hx|Hx] Hun; [discriminate|]. eapply IH; eauto.
  - intros d n e evs evs' v v' Hd IH Hd' IH' w Ew Hl x [Hx|Hx] Hun.
    + injection Hx as ->. destruct (IH v eq_refl) as (d' & e' & H'); [|exact Hun|].
      * intros q0 d0 e0 H0. apply (Hl q0 d0). apply in_or_app. left. exact H0.
      * exists d', e'. apply in_or_app. left. exact H'.
    + destruct (IH' v' eq_refl) with (x := x) as (d' & e' & H'); [|exact Hx|exact Hun|].
      * intros q0 d0 e0 H0. apply (Hl q0 d0). apply in_or_app. right. exact H0.
      * exists d', e'. apply in_or_app. right. exact H'.
Qed.

(** ** Coverage *)

Section Coverage.
  Context {R : Type} (rng : rng_ops R).
  Variable g : grammar.
  Variable f : str -> str -> bool.

  Definition call_ok (x : nat * production * nat) : Prop :=
    let '(a, p, _) := x in exists n, find_production g n 0 = Some (a, p).

  (** The record [log] (latest first) belongs to calls that lead from [c0] to [c]. *)
  Definition recorded (c0 : coverage (R := R)) (sl : coverage (R := R) * list event) : Prop :=
    exists calls es, coverage_run rng c0 calls = Ok (es, fst sl) /\ (forall x, In x calls -> call_ok x) /\
      length calls = length es /\
      forall a p, (forall q d, In (a, q, d) calls -> q = p) -> (forall b q d, In (b, q, d) calls -> q = p -> b = a) ->
        answers_for a calls es = map Some (chosen_from p (rev (snd sl))).

  Lemma coverage_run_snoc c calls es c1 a p d o c2 : coverage_run rng c calls = Ok (es, c1) ->
    coverage_guided rng c1 a p d = Ok (o, c2) -> coverage_run rng c (calls ++ [(a, p, d)]) = Ok (es ++ [o], c2).
  Proof.
    revert c es. induction calls as [|[[b q] d'] calls IH]; intros c es H Hg; cbn [coverage_run app] in *.
    - injection H as <- <-. rewrite Hg. reflexivity.
    - destruct (coverage_guided rng c b q d') as [[o' c3]| |]; cbn [rbind] in *; try discriminate.
      destruct (coverage_run rng c3 calls) as [[es' c4]| |] eqn:E; cbn [rbind] in *; try discriminate.
      injection H as <- <-. rewrite (IH _ _ E Hg). reflexivity.
  Qed.
  Lemma answers_for_snoc a calls es b p d o : length calls = length es ->
    answers_for a (calls ++ [(b, p, d)]) (es ++ [o]) = answers_for a calls es ++ if Nat.eqb b a then [o] else [].
  Proof.
    revert es. induction calls as [|[[c q] d'] calls IH]; intros [|e es] H; try discriminate; cbn [answers_for app].
    - destruct (Nat.eqb b a); reflexivity.
    - injection H as H. rewrite IH by assumption. destruct (Nat.eqb c a); reflexivity.
  Qed.

  Lemma recorded_choose c0 n ix p sl d o sl' : find_production g n 0 = Some (ix, p) -> recorded c0 sl ->
    traced_choose (coverage_guided rng) sl ix p d = Ok (o, sl') -> recorded c0 sl'.
  Proof.
    intros Hf (calls & es & Hr & Hok & Hl & Hans) H. unfold traced_choose in H.
    destruct (coverage_guided rng (fst sl) ix p d) as [[o' c']| |] eqn:E; cbn [rbind] in H; try discriminate.
    injection H as <- <-. exists (calls ++ [(ix, p, d)]), (es ++ [o']). cbn [fst snd].
    split; [eapply coverage_run_snoc; eassumption|].
    split; [intros x Hx; apply in_app_or in Hx; destruct Hx as [Hx|[<-|[]]]; [auto|exists n; assumption]|].
    split; [rewrite !app_length; cbn; lia|].
    intros a q H1 H2. rewrite answers_for_snoc by assumption.
    rewrite (Hans a q).
    2:{ intros q' d' H. apply (H1 q' d'). apply in_or_app. left. exact H. }
    2:{ intros b q' d' H. apply (H2 b q' d'). apply in_or_app. left. exact H. }
    cbn [rev]. unfold chosen_from. rewrite flat_map_app, map_app. f_equal. cbn [flat_map]. rewrite app_nil_r.
    assert (Hin : In (ix, p, d) (calls ++ [(ix, p, d)])) by (apply in_or_app; right; left; reflexivity).
    destruct (Nat.eqb_spec ix a) as [->|Hne].
    - assert (p = q) as -> by (eapply H1; exact Hin).
      unfold coverage_guided in E. destruct (coverage_index rng (fst sl) a q) as [[i c2]| |] eqn:Ei; cbn [rbind] in E; try discriminate.
      injection E as <- <-.
      assert (Hq : p_rhs q <> []).
      { intro Hq. unfold coverage_index in Ei. rewrite Hq in Ei. cbn in Ei. discriminate. }
      destruct (coverage_index_ok rng (fst sl) a q Hq) as (i' & c3 & E' & Hi & _).
      rewrite E' in Ei. injection Ei as -> ->. apply nth_error_Some in Hi. destruct (nth_error (p_rhs q) i) as [e|]; [|congruence].
      destruct (production_eq_dec q q); [reflexivity|congruence].
    - destruct o' as [e|]; [|reflexivity]. destruct (production_eq_dec p q) as [Epq|]; [|reflexivity].
      exfalso. apply Hne. exact (H2 _ _ _ Hin Epq).
  Qed.

  Lemma recorded_accept c0 sl n w b sl' : recorded c0 sl -> traced_accept (pure_callback f) sl n w = (b, sl') -> recorded c0 sl'.
  Proof.
    intros (calls & es & Hr & Hok & Hl & Hans) H. unfold traced_accept, pure_callback in H. injection H as <- <-.
    exists calls, es. cbn [fst snd]. split; [assumption|]. split; [assumption|]. split; [assumption|].
    intros a p H1 H2. rewrite (Hans a p H1 H2). cbn [rev]. unfold chosen_from. rewrite flat_map_app. cbn [flat_map]. rewrite !app_nil_r. reflexivity.
  Qed.

  (** ** Several runs from a new strategy *)

  Lemma coverage_times fuel k r0 rs c' :
    generate_times (coverage_guided rng) (pure_callback f) g fuel k (mkCov [] r0) = Ok (rs, c') -> exists evss,
      generate_times (traced_choose (coverage_guided rng)) (traced_accept (pure_callback f)) g fuel k (mkCov [] r0, []) =
        Ok (rs, (c', rev (concat evss))) /\
      Forall2 (run_events g) evss rs /\ length rs = k /\
      forall n p, first_for g n p -> p_rhs p <> [] -> exists rest,
        Permutation (firstn (length (p_rhs p)) (chosen_from p (concat evss)) ++ rest) (p_rhs p) /\
        (length (p_rhs p) <= length (chosen_from p (concat evss)) -> rest = []).
  Proof.
    intro H. destruct (times_traced _ _ _ fuel k _ [] _ _ H) as (evss & E & Hev & Hlen). rewrite app_nil_r in E.
    exists evss. split; [exact E|]. split; [exact Hev|]. split; [exact Hlen|]. intros n p Hp Hne.
    assert (Hrec : recorded (mkCov [] r0) (c', rev (concat evss))).
    { eapply (generate_times_inv (traced_choose (coverage_guided rng)) (traced_accept (pure_callback f)) g (recorded (mkCov [] r0))); [| | |exact E].
      - intros; eapply recorded_choose; eassumption.
      - intros; eapply recorded_accept; eassumption.
      - exists [], []. repeat split; try reflexivity. intros x []. }
    destruct Hrec as (calls & es & Hr & Hok & Hl & Hans). cbn [fst snd] in *. rewrite rev_involutive in Hans.
    destruct (find_production_first _ _ _ Hp) as [a Ha].
    assert (H1 : forall q d, In (a, q, d) calls -> q = p).
    { intros q d Hin. destruct (Hok _ Hin) as [m Hm]. apply find_production_Some in Ha, Hm.
      destruct Ha as (_ & _ & Ha), Hm as (_ & _ & Hm). congruence. }
    assert (H2 : forall b q d, In (b, q, d) calls -> q = p -> b = a).
    { intros b q d Hin ->. destruct (Hok _ Hin) as [m Hm]. pose proof (find_production_Some _ _ _ _ _ Hm) as (Hm1 & _).
      assert (m = n) as ->.
      { apply first_for_In in Hm1, Hp. destruct Hm1 as [_ Hm1], Hp as [_ Hp']. congruence. }
      congruence. }
    destruct (coverage_permutation rng a p (mkCov [] r0) calls es c' Hne) as (rest & Hperm & Hrest).
    - intros addr q depth Hin ->. eapply H1; exact Hin.
    - intros i [].
    - exact Hr.
    - rewrite (Hans a p H1 H2), firstn_map in Hperm. rewrite (Hans a p H1 H2), map_length in Hrest.
      assert (Hrm : exists l, rest = map Some l).
      { assert (Hall : forall o, In o rest -> exists e, o = Some e).
        { intros o Ho. assert (Hin : In o (map Some (p_rhs p))) by (eapply Permutation_in; [exact Hperm|apply in_or_app; right; exact Ho]).
          apply in_map_iff in Hin. destruct Hin as (e & <- & _). eauto. }
        clear - Hall. induction rest as [|o rest IH]; [exists []; reflexivity|].
        destruct (Hall o (or_introl eq_refl)) as [e ->]. destruct IH as [l ->]; [intros; apply Hall; right; assumption|]. exists (e :: l). reflexivity. }
      destruct Hrm as [l ->]. exists l. rewrite <- map_app in Hperm. split.
      + apply Permutation_map_inv in Hperm. destruct Hperm as (l3 & E3 & Hp3).
        assert (Hinj : forall x y : list expression, map Some x = map Some y -> x = y).
        { induction x as [|a0 x IH]; intros [|b0 y] Hxy; cbn in Hxy; try discriminate; [reflexivity|]. injection Hxy as -> Hxy. f_equal. auto. }
        apply Hinj in E3. rewrite E3. symmetry. exact Hp3.
      + intro Hle. specialize (Hrest Hle). destruct l; [reflexivity|discriminate].
  Qed.
End Coverage.
