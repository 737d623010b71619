(** Generation on two grammars with the same first productions. *)
From Verif Require Export GenSameSpec.
From Verif Require Import GenProofs DocProofs EarleySpec Facts_Rename.

Lemma mentions_reach g start n m : expands_to g start n -> mentions g n m -> expands_to g start m.
Proof. intros H1 H2. eapply rt_trans; [exact H1|]. apply rt_step. exact H2. Qed.

Lemma no_choice_renamed h p p' : p_rhs p' = map (map (rename h)) (p_rhs p) ->
  production_has_no_choice p' = production_has_no_choice p.
Proof. intro E. unfold production_has_no_choice. rewrite E. destruct (p_rhs p) as [|[|t e] [|e' l]]; reflexivity. Qed.

Section Same.
  Context {S S' : Type}.
  Variable choose : S -> nat -> production -> nat -> res (option expression * S).
  Variable choose' : S' -> nat -> production -> nat -> res (option expression * S').
  Variable accept : S -> str -> str -> bool * S.
  Variable accept' : S' -> str -> str -> bool * S'.
  Variable T : S -> S' -> Prop.
  Variables (h : str -> str) (g g' : grammar) (start : str).
  Hypothesis Hshow : shows h g start g'.
  Hypothesis Hchoose : corresponding h g start g' T choose choose'.
  Hypothesis Haccept : forall n s st st', expands_to g start n -> T st st' ->
    fst (accept' st' (h n) s) = fst (accept st n s) /\ T (snd (accept st n s)) (snd (accept' st' (h n) s)).

  Lemma eval_terms_same (ev : term -> S -> res (result str * S)) (ev' : term -> S' -> res (result str * S')) e :
    (forall s st, ev (Terminal s) st = Ok (ROk s, st)) -> (forall s st, ev' (Terminal s) st = Ok (ROk s, st)) ->
    (forall n st st', In (Nonterminal n) e -> T st st' ->
       same_outcome T (ev (Nonterminal n) st) (ev' (Nonterminal (h n)) st')) ->
    forall acc st st', T st st' -> same_outcome T (eval_terms ev e acc st) (eval_terms ev' (map (rename h) e) acc st').
  Proof.
    intros Ht Ht'. induction e as [|t e IH]; intros Hn acc st st' HT; cbn [eval_terms map].
    - split; [reflexivity|exact HT].
    - destruct t as [s|n]; cbn [rename].
      + rewrite Ht, Ht'. cbn [rbind]. apply IH; [|exact HT]. intros n st1 st1' Hi. apply Hn. right; exact Hi.
      + pose proof (Hn n st st' (or_introl eq_refl) HT) as H1. unfold same_outcome in H1.
        destruct (ev (Nonterminal n) st) as [[r1 st1]| |], (ev' (Nonterminal (h n)) st') as [[r1' st1']| |]; cbn [rbind];
          try (exact I); try contradiction. destruct H1 as [<- H1]. destruct r1 as [s|x].
        * apply IH; [|exact H1]. intros m st2 st2' Hi. apply Hn. right; exact Hi.
        * split; [reflexivity|exact H1].
  Qed.

  Lemma traverse_same fuel : forall n st st' depth, expands_to g start n -> T st st' ->
    same_outcome T (traverse choose accept g fuel n st depth) (traverse choose' accept' g' fuel (h n) st' depth).
  Proof.
    induction fuel as [|fuel IH]; intros n st st' depth Hr HT; [exact I|]. cbn [traverse].
    destruct (find_production g n 0) as [[ix p]|] eqn:E.
    2: { apply find_production_None in E. destruct (proj2 Hshow n Hr E) as [En Hu]. rewrite En.
         rewrite (find_production_undefined g' n Hu). split; [reflexivity|exact HT]. }
    destruct (find_production_Some _ _ _ _ _ E) as (Hf & _).
    destruct (proj1 Hshow n p Hr Hf) as (p' & Hf' & Erhs).
    destruct (find_production_first _ _ _ Hf') as [ix' E']. rewrite E'. rewrite (no_choice_renamed h p p' Erhs).
    destruct (production_has_no_choice p); [split; [reflexivity|exact HT]|].
    pose proof (Hchoose n ix p ix' p' depth st st' Hr E E' Erhs HT) as Hc.
    destruct (choose st ix p depth) as [[[e|] st1]| |], (choose' st' ix' p' depth) as [[e' st1']| |]; cbn [rbind];
      try (exact I); try contradiction.
    2: { destruct Hc as [-> Hc]. split; [reflexivity|exact Hc]. }
    destruct Hc as (He & -> & HT1).
    assert (H1 := eval_terms_same
      (fun t st => match t with Nonterminal nt => traverse choose accept g fuel nt st (depth + 1) | Terminal s => Ok (ROk s, st) end)
      (fun t st => match t with Nonterminal nt => traverse choose' accept' g' fuel nt st (depth + 1) | Terminal s => Ok (ROk s, st) end)
      e (fun _ _ => eq_refl) (fun _ _ => eq_refl)).
    specialize (H1 ltac:(intros m st2 st2' Hm HT2; apply IH; [eapply mentions_reach; [exact Hr|]; exists p, e; auto|exact HT2])).
    specialize (H1 [] st1 st1' HT1). unfold same_outcome in H1.
    match type of H1 with match ?x with _ => _ end => destruct x as [[r2 st2]| |] end;
    match type of H1 with match ?x with _ => _ end => destruct x as [[r2' st2']| |] end; cbn [rbind];
      try (exact I); try contradiction. destruct H1 as [<- HT2]. destruct r2 as [s|x]; [|split; [reflexivity|exact HT2]].
    destruct (Haccept n s st2 st2' Hr HT2) as [Ea HT3].
    destruct (accept st2 n s) as [b st3], (accept' st2' (h n) s) as [b' st3']. cbn [fst snd] in Ea, HT3. subst b'.
    destruct b; [split; [reflexivity|exact HT3]|]. apply IH; assumption.
  Qed.

  Lemma generate_same fuel st st' : begins g start -> begins g' (h start) -> T st st' ->
    terminates fuel g = Ok true -> terminates fuel g' = Ok true ->
    same_outcome T (generate choose accept g fuel st) (generate choose' accept' g' fuel st').
  Proof.
    intros (p & rest & Eg & El) (p' & rest' & Eg' & El') HT Ht Ht'. unfold generate. rewrite Ht, Ht'. cbn [rbind negb].
    pose proof (traverse_same fuel start st st' 0 ltac:(apply rt_refl) HT) as H. rewrite Eg, Eg' in H |- *. cbn iota. rewrite El, El'.
    exact H.
  Qed.
End Same.

(** ** The guard *)

Lemma terminates_fuel g f f' b : terminates f g = Ok b -> f <= f' -> terminates f' g = Ok b.
Proof. intros H Hle. eapply terminates_mono; eassumption. Qed.

(** ** Both directions *)

Section Both.
  Context {S S' : Type}.
  Variable choose : S -> nat -> production -> nat -> res (option expression * S).
  Variable choose' : S' -> nat -> production -> nat -> res (option expression * S').
  Variable accept : S -> str -> str -> bool * S.
  Variable accept' : S' -> str -> str -> bool * S'.
  Variable T : S -> S' -> Prop.
  Variables (h : str -> str) (g g' : grammar) (start : str).
  Hypothesis Hshow : shows h g start g'.
  Hypothesis Hchoose : corresponding h g start g' T choose choose'.
  Hypothesis Haccept : forall n s st st', expands_to g start n -> T st st' ->
    fst (accept' st' (h n) s) = fst (accept st n s) /\ T (snd (accept st n s)) (snd (accept' st' (h n) s)).
  Hypothesis Hb : begins g start.
  Hypothesis Hb' : begins g' (h start).
  Variable f0 : nat.
  Hypothesis Hg : terminates f0 g = Ok true.
  Hypothesis Hg' : terminates f0 g' = Ok true.

  Lemma both_forward st st' fuel w st1 : T st st' -> generate choose accept g fuel st = Ok (w, st1) ->
    exists fuel' st1', generate choose' accept' g' fuel' st' = Ok (w, st1') /\ T st1 st1'.
  Proof.
    intros HT H. apply (generate_mono _ _ _ fuel (fuel + f0)) in H; [|lia].
    pose proof (generate_same choose choose' accept accept' T h g g' start Hshow Hchoose Haccept (fuel + f0) st st' Hb Hb' HT
      (terminates_fuel _ f0 (fuel + f0) _ Hg ltac:(lia)) (terminates_fuel _ f0 (fuel + f0) _ Hg' ltac:(lia))) as Hs.
    rewrite H in Hs. unfold same_outcome in Hs. exists (fuel + f0).
    destruct (generate choose' accept' g' (fuel + f0) st') as [[w' st1']| |]; try contradiction.
    destruct Hs as [<- Hs]. exists st1'. auto.
  Qed.
  Lemma both_backward st st' fuel w st1' : T st st' -> generate choose' accept' g' fuel st' = Ok (w, st1') ->
    exists fuel' st1, generate choose accept g fuel' st = Ok (w, st1) /\ T st1 st1'.
  Proof.
    intros HT H. apply (generate_mono _ _ _ fuel (fuel + f0)) in H; [|lia].
    pose proof (generate_same choose choose' accept accept' T h g g' start Hshow Hchoose Haccept (fuel + f0) st st' Hb Hb' HT
      (terminates_fuel _ f0 (fuel + f0) _ Hg ltac:(lia)) (terminates_fuel _ f0 (fuel + f0) _ Hg' ltac:(lia))) as Hs.
    rewrite H in Hs. unfold same_outcome in Hs. exists (fuel + f0).
    destruct (generate choose accept g (fuel + f0) st) as [[w' st1]| |]; try contradiction.
    destruct Hs as [-> Hs]. exists st1. auto.
  Qed.
End Both.

(** ** The built-in strategies *)

Lemma nth_rename h (l : list expression) : forall i, nth_error (map (map (rename h)) l) i = option_map (map (rename h)) (nth_error l i).
Proof. induction l as [|x l IH]; intros [|i]; cbn; auto. Qed.

(** The alternative at an index, in both grammars. *)
Lemma picked {S S'} (T : S -> S' -> Prop) h p p' i (st : S) (st' : S') : p_rhs p' = map (map (rename h)) (p_rhs p) -> T st st' ->
  match nth_error (p_rhs p) i with
  | Some e => In e (p_rhs p) /\ nth_error (p_rhs p') i = Some (map (rename h) e) /\ T st st'
  | None => nth_error (p_rhs p') i = None /\ T st st'
  end.
Proof.
  intros E HT. pose proof (nth_rename h (p_rhs p) i) as Hn. rewrite <- E in Hn.
  destruct (nth_error (p_rhs p) i) as [e|] eqn:En; cbn [option_map] in Hn; [|auto].
  split; [eapply nth_error_In; exact En|]. auto.
Qed.

Lemma rhs_length_same h p p' : p_rhs p' = map (map (rename h)) (p_rhs p) -> List.length (p_rhs p') = List.length (p_rhs p).
Proof. intros ->. apply map_length. Qed.

(** The body of a strategy that draws an index: the same index in both grammars. *)
Lemma by_index {R} h (p p' : production) (x : res (nat * R)) : p_rhs p' = map (map (rename h)) (p_rhs p) ->
  match (let* (i, r) := x in Ok (nth_error (p_rhs p) i, r)), (let* (i, r) := x in Ok (nth_error (p_rhs p') i, r)) with
  | Ok (Some e, st1), Ok (e', st1') => In e (p_rhs p) /\ e' = Some (map (rename h) e) /\ st1 = st1'
  | Ok (None, st1), Ok (e', st1') => e' = None /\ st1 = st1'
  | Panic, Panic => True
  | OutOfFuel, OutOfFuel => True
  | _, _ => False
  end.
Proof.
  intro E. destruct x as [[i r]| |]; cbn [rbind]; try exact I.
  pose proof (picked eq h p p' i r r E eq_refl) as H. destruct (nth_error (p_rhs p) i); exact H.
Qed.

Section Builtin.
  Variables (h : str -> str) (g g' : grammar) (start : str).
  Context {R : Type} (rng : rng_ops R).

  Lemma random_walk_corresponds : corresponding h g start g' eq (random_walk rng) (random_walk rng).
  Proof.
    intros n ix p ix' p' depth st st' _ _ _ E <-. unfold random_walk. rewrite (rhs_length_same h p p' E). apply by_index, E.
  Qed.

  Lemma all_terminals_rename e : expression_all_terminals (map (rename h) e) = expression_all_terminals e.
  Proof. induction e as [|[x|x] e IH]; cbn; [reflexivity|exact IH|reflexivity]. Qed.

  Lemma indices_rename l : forall i, indices_where (fun _ e => expression_all_terminals e) i (map (map (rename h)) l) =
    indices_where (fun _ e => expression_all_terminals e) i l.
  Proof. induction l as [|x l IH]; intro i; cbn [map indices_where]; [reflexivity|]. rewrite all_terminals_rename, IH. reflexivity. Qed.

  Lemma depth_bounded_corresponds max : corresponding h g start g' eq (depth_bounded rng max) (depth_bounded rng max).
  Proof.
    intros n ix p ix' p' depth st st' _ _ _ E <-. unfold depth_bounded.
    assert (Ee : depth_bounded_eligible max p' depth = depth_bounded_eligible max p depth).
    { unfold depth_bounded_eligible. rewrite (rhs_length_same h p p' E), E, indices_rename. reflexivity. }
    rewrite Ee, (rhs_length_same h p p' E). apply by_index, E.
  Qed.

  Lemma contains_rename e n : (forall m, In (Nonterminal m) e -> h m = h n -> m = n) ->
    expression_contains (map (rename h) e) (Nonterminal (h n)) = expression_contains e (Nonterminal n).
  Proof.
    unfold expression_contains. induction e as [|t e IH]; intro Hi; cbn [map existsb]; [reflexivity|].
    rewrite IH by (intros m Hm; apply Hi; right; exact Hm). f_equal. destruct t as [x|x]; cbn [rename]; [reflexivity|].
    destruct (term_eqb (Nonterminal (h x)) (Nonterminal (h n))) eqn:E1, (term_eqb (Nonterminal x) (Nonterminal n)) eqn:E2; try reflexivity.
    - apply term_eqb_eq in E1. injection E1 as E1. rewrite (Hi x (or_introl eq_refl) E1), term_eqb_refl in E2. discriminate.
    - apply term_eqb_eq in E2. injection E2 as ->. rewrite term_eqb_refl in E1. discriminate.
  Qed.

  Lemma weighted_corresponds checks rec nonrec : keeps_apart h g start ->
    corresponding h g start g' eq (weighted rng checks rec nonrec) (weighted rng checks rec nonrec).
  Proof.
    intros Hk n ix p ix' p' depth st st' Hr Hf Hf' E <-. unfold weighted.
    destruct (find_production_Some _ _ _ _ _ Hf) as (Hp & _). destruct (find_production_Some _ _ _ _ _ Hf') as (Hp' & _).
    destruct (first_for_In _ _ _ Hp) as [_ El]. destruct (first_for_In _ _ _ Hp') as [_ El'].
    assert (Ew : fill_weights rec nonrec p' = fill_weights rec nonrec p).
    { unfold fill_weights. rewrite E, map_map. apply map_ext_in. intros e He. rewrite El, El', contains_rename; [reflexivity|].
      intros m Hm Em. apply Hk; [|exact Hr|exact Em]. eapply mentions_reach; [exact Hr|]. exists p, e. auto. }
    rewrite Ew, (rhs_length_same h p p' E). apply by_index, E.
  Qed.

  (** The memories of [CoverageGuided]: the same alternatives of corresponding productions. *)
  Definition same_memory (c c' : @coverage R) : Prop :=
    c_rng c = c_rng c' /\
    forall n ix p ix' p' i, expands_to g start n -> find_production g n 0 = Some (ix, p) ->
      find_production g' (h n) 0 = Some (ix', p') -> (In (ix, i) (c_seen c) <-> In (ix', i) (c_seen c')).

  Lemma memb_seen x l : memb seen_eqb x l = true <-> In x l.
  Proof.
    apply memb_In. intros [a b] [a' b']. unfold seen_eqb. cbn [fst snd]. rewrite andb_true_iff, !Nat.eqb_eq.
    split; [intros [-> ->]; reflexivity|intro E; injection E as -> ->; auto].
  Qed.

  Lemma same_address n m ix p p2 : find_production g n 0 = Some (ix, p) -> find_production g m 0 = Some (ix, p2) -> n = m.
  Proof.
    intros H1 H2. destruct (find_production_Some _ _ _ _ _ H1) as (F1 & _ & N1). destruct (find_production_Some _ _ _ _ _ H2) as (F2 & _ & N2).
    destruct (first_for_In _ _ _ F1) as [_ E1]. destruct (first_for_In _ _ _ F2) as [_ E2]. congruence.
  Qed.
End Builtin.

Lemma coverage_corresponds h g g' start {R} (rng : rng_ops R) : keeps_apart h g start ->
  corresponding h g start g' (same_memory h g g' start) (coverage_guided rng) (coverage_guided rng).
Proof.
  intros Hk n ix p ix' p' depth c c' Hr Hf Hf' E [Er Hs]. unfold coverage_guided, coverage_index.
  rewrite (rhs_length_same h p p' E), <- Er.
  assert (Eb : filter (fun i => negb (memb seen_eqb (ix', i) (c_seen c'))) (seq 0 (List.length (p_rhs p))) =
               filter (fun i => negb (memb seen_eqb (ix, i) (c_seen c))) (seq 0 (List.length (p_rhs p)))).
  { apply filter_ext. intro i. f_equal. pose proof (Hs n ix p ix' p' i Hr Hf Hf') as Hi.
    rewrite <- !memb_seen in Hi. destruct (memb seen_eqb (ix, i) (c_seen c)), (memb seen_eqb (ix', i) (c_seen c')); intuition congruence. }
  rewrite Eb. destruct (pick_from rng (c_rng c) _ _) as [[i r]| |]; cbn [rbind]; try exact I.
  assert (HT : same_memory h g g' start (mkCov ((ix, i) :: c_seen c) r) (mkCov ((ix', i) :: c_seen c') r)).
  { split; [reflexivity|]. intros m jx q jx' q' j Hm Fm Fm'. cbn [c_seen In]. rewrite (Hs m jx q jx' q' j Hm Fm Fm').
    assert (Hj : ix = jx <-> ix' = jx').
    { split; intros <-.
      - pose proof (same_address _ _ _ _ _ _ Hf Fm) as <-. congruence.
      - pose proof (same_address _ _ _ _ _ _ Hf' Fm') as Eh. apply Hk in Eh; [|assumption|assumption]. subst m. congruence. }
    split; (intros [H|H]; [left|right; exact H]); injection H as H1 H2; apply Hj in H1; congruence. }
  pose proof (picked _ h p p' i _ _ E HT) as H. destruct (nth_error (p_rhs p) i); exact H.
Qed.

Lemma pure_accept {S S'} (T : S -> S' -> Prop) h g start f f' :
  (forall n s, expands_to g start n -> f' (h n) s = f n s) ->
  forall n s (st : S) (st' : S'), expands_to g start n -> T st st' ->
    fst (pure_callback f' st' (h n) s) = fst (pure_callback f st n s) /\
    T (snd (pure_callback f st n s)) (snd (pure_callback f' st' (h n) s)).
Proof. intros Hf n s st st' Hn HT. cbn. auto. Qed.

Lemma both_eq {S} (choose choose' : S -> nat -> production -> nat -> res (option expression * S)) f f' h g g' start :
  shows h g start g' -> corresponding h g start g' eq choose choose' ->
  (forall n s, expands_to g start n -> f' (h n) s = f n s) -> begins g start -> begins g' (h start) ->
  forall f0, terminates f0 g = Ok true -> terminates f0 g' = Ok true ->
  forall w st st1, (exists fuel, generate choose (pure_callback f) g fuel st = Ok (w, st1)) <->
                   (exists fuel, generate choose' (pure_callback f') g' fuel st = Ok (w, st1)).
Proof.
  intros Hs Hc Hf Hb Hb' f0 Hg Hg' w st st1. pose proof (pure_accept (@eq S) h g start f f' Hf) as Ha. split; intros [fuel H].
  - destruct (both_forward choose choose' _ _ eq h g g' start Hs Hc Ha Hb Hb' f0 Hg Hg' st st fuel w st1 eq_refl H)
      as (fuel' & st1' & H' & <-). eauto.
  - destruct (both_backward choose choose' _ _ eq h g g' start Hs Hc Ha Hb Hb' f0 Hg Hg' st st fuel w st1 eq_refl H)
      as (fuel' & st1' & H' & ->). eauto.
Qed.

Lemma guard_fuel g g' : (exists f, terminates f g = Ok true) -> (exists f, terminates f g' = Ok true) ->
  exists f0, terminates f0 g = Ok true /\ terminates f0 g' = Ok true.
Proof.
  intros [a Ha] [b Hb]. exists (a + b). split; [apply (terminates_fuel g a)|apply (terminates_fuel g' b)]; auto; lia.
Qed.

Lemma same_generation_shows h g g' start f f' :
  shows h g start g' -> keeps_apart h g start -> begins g start -> begins g' (h start) ->
  (exists fuel, terminates fuel g = Ok true) -> (exists fuel, terminates fuel g' = Ok true) ->
  (forall n s, expands_to g start n -> f' (h n) s = f n s) ->
  same_generation g f g' f'.
Proof.
  intros Hs Hk Hb Hb' Hg Hg' Hf. destruct (guard_fuel _ _ Hg Hg') as (f0 & Ht & Ht'). intros R rng r r' w. repeat split.
  1-2: apply (both_eq _ _ f f' h g g' start Hs (random_walk_corresponds h g g' start rng) Hf Hb Hb' f0 Ht Ht' w r r').
  1-2: apply (both_eq _ _ f f' h g g' start Hs (depth_bounded_corresponds h g g' start rng max) Hf Hb Hb' f0 Ht Ht' w r r').
  1-2: apply (both_eq _ _ f f' h g g' start Hs (weighted_corresponds h g g' start rng checks rec nonrec Hk) Hf Hb Hb' f0 Ht Ht' w r r').
  - assert (H0 : same_memory h g g' start (mkCov [] r) (mkCov [] r)) by (split; [reflexivity|intros; reflexivity]).
    intros (fuel & c & H & <-).
    destruct (both_forward _ _ _ _ _ h g g' start Hs (coverage_corresponds h g g' start rng Hk)
      (pure_accept _ h g start f f' Hf) Hb Hb' f0 Ht Ht' _ _ _ _ _ H0 H) as (fuel' & c' & H' & [E _]). eauto.
  - assert (H0 : same_memory h g g' start (mkCov [] r) (mkCov [] r)) by (split; [reflexivity|intros; reflexivity]).
    intros (fuel & c & H & <-).
    destruct (both_backward _ _ _ _ _ h g g' start Hs (coverage_corresponds h g g' start rng Hk)
      (pure_accept _ h g start f f' Hf) Hb Hb' f0 Ht Ht' _ _ _ _ _ H0 H) as (fuel' & c' & H' & [E _]). eauto.
Qed.
