(** When generation is sure to end: proofs. *)
From Coq Require Import Permutation.
From Verif Require Export EndsSpec GenProofs StrategyProofs.

(** ** Without recursion *)

Section Acyclic.
  Variable g : grammar.
  Variable start : str.
  Hypothesis Hstart : has_lhs g start.
  Hypothesis Hno : ~ recursive g start.

  Lemma chain_length l : NoDup l -> (forall n, In n l -> has_lhs g n) -> length l <= length g.
  Proof.
    intros Hnd Hl. rewrite <- (map_length Nonterminal), <- (map_length p_lhs g). apply NoDup_incl_length.
    - apply FinFun.Injective_map_NoDup; [|assumption]. intros a b E. injection E. auto.
    - intros t Ht. apply in_map_iff in Ht. destruct Ht as (n & <- & Hn). destruct (Hl n Hn) as (p & Hp & <-). apply in_map. assumption.
  Qed.

  Lemma acyclic_ind (P : nat -> str -> Prop) :
    (forall k n, clos_refl_trans _ (calls g) start n -> has_lhs g n -> (forall m, calls g n m -> P k m) -> P (S k) n) ->
    P (length g) start.
  Proof.
    intro Hstep.
    assert (H : forall k visited n, length g <= k + length visited -> NoDup (n :: visited) ->
              (forall x, In x (n :: visited) -> has_lhs g x) -> (forall v, In v visited -> clos_trans _ (calls g) v n) ->
              clos_refl_trans _ (calls g) start n -> P k n).
    { induction k as [|k IH]; intros visited n Hk Hnd Hl Hc Hr.
      - exfalso. pose proof (chain_length _ Hnd Hl) as H. cbn in H, Hk. lia.
      - apply Hstep; [assumption|apply Hl; left; reflexivity|]. intros m Hm.
        assert (Hc' : forall v, In v (n :: visited) -> clos_trans _ (calls g) v m).
        { intros v [<-|Hv]; [apply t_step; assumption|]. eapply t_trans; [apply Hc; assumption|apply t_step; assumption]. }
        assert (Hr' : clos_refl_trans _ (calls g) start m) by (eapply rt_trans; [eassumption|apply rt_step; assumption]).
        apply (IH (n :: visited)).
        + cbn. lia.
        + constructor; [|assumption]. intro Hin. apply Hno. exists m. split; [assumption|apply Hc'; assumption].
        + intros x [<-|Hx]; [|apply Hl; assumption]. destruct Hm as (p & e & _ & _ & _ & H). assumption.
        + assumption.
        + assumption. }
    apply (H (length g) [] start).
    - apply Nat.le_add_r.
    - constructor; [intros []|constructor].
    - intros x [<-|[]]. assumption.
    - intros v [].
    - apply rt_refl.
  Qed.
End Acyclic.

Lemma has_lhs_first g n : has_lhs g n -> exists p i, find_production g n 0 = Some (i, p) /\ first_for g n p.
Proof.
  intro H. destruct (find_production g n 0) as [[i p]|] eqn:E.
  - exists p, i. split; [reflexivity|]. apply find_production_Some in E. apply E.
  - destruct (find_production_None _ _ _ E H).
Qed.

Section Ends.
  Context {S : Type}.
  Variable choose : S -> nat -> production -> nat -> res (option expression * S).
  Variable g : grammar.
  Hypothesis Hchoose : always_chooses choose g.
  Hypothesis Hclosed : forall x, refers g x -> has_lhs g x.
  Hypothesis Halts : forall p, In p g -> p_rhs p <> [] /\ p_rhs p <> [[]].
  Variable start : str.
  Hypothesis Hstart : has_lhs g start.
  Hypothesis Hno : ~ recursive g start.

  Lemma acyclic_productive : productive g (Nonterminal start).
  Proof.
    apply (acyclic_ind g start Hstart Hno (fun _ n => productive g (Nonterminal n))).
    intros _ n _ Hn IH. destruct (has_lhs_first _ _ Hn) as (p & i & _ & Hf). destruct (first_for_In _ _ _ Hf) as [Hp Hl].
    destruct (p_rhs p) as [|e es] eqn:E; [destruct (Halts _ Hp); contradiction|].
    assert (He : In e (p_rhs p)) by (rewrite E; left; reflexivity).
    rewrite <- Hl. apply (productive_rule g p e Hp He). intros m Hm. apply IH.
    exists p, e. repeat split; try assumption. apply Hclosed. exists p, e. auto.
  Qed.

  Lemma acyclic_traverse : forall st depth, exists w st',
    traverse choose (pure_callback (fun _ _ => true)) g (length g) start st depth = Ok (ROk w, st').
  Proof.
    apply (acyclic_ind g start Hstart Hno (fun k n => forall st depth, exists w st',
      traverse choose (pure_callback (fun _ _ => true)) g k n st depth = Ok (ROk w, st'))).
    intros k n _ Hn IH st depth. destruct (has_lhs_first _ _ Hn) as (p & i & Ef & Hf). destruct (first_for_In _ _ _ Hf) as [Hp Hl].
    cbn [traverse]. rewrite Ef.
    assert (Enc : production_has_no_choice p = false).
    { apply not_true_iff_false. rewrite no_choice_spec. destruct (Halts _ Hp). intros [H1|H1]; contradiction. }
    rewrite Enc. destruct (Hchoose st i p depth Hp) as (e & st1 & -> & He). cbn [rbind].
    match goal with |- context [eval_terms ?ev e [] st1] => set (ev0 := ev) end.
    assert (Hev : forall e', (forall t, In t e' -> In t e) -> forall acc st, exists w st', eval_terms ev0 e' acc st = Ok (ROk w, st')).
    { induction e' as [|t e' IHe]; intros Hin acc st0; cbn [eval_terms]; [eauto|].
      assert (Ht : exists w st', ev0 t st0 = Ok (ROk w, st')).
      { unfold ev0. destruct t as [s|m]; [eauto|]. apply IH. exists p, e. repeat split; try assumption; [apply Hin; left; reflexivity|].
        apply Hclosed. exists p, e. split; [assumption|]. split; [assumption|apply Hin; left; reflexivity]. }
      destruct Ht as (w & st' & ->). cbn [rbind]. apply IHe. intros t' Ht'. apply Hin. right. assumption. }
    destruct (Hev e (fun _ H => H) [] st1) as (w & st' & ->). cbn. eauto.
  Qed.

  Lemma acyclic_generate p rest : g = p :: rest -> p_lhs p = Nonterminal start -> forall fuel st, length g < fuel ->
    exists w st', generate_with_strategy choose g fuel st = Ok (ROk w, st').
  Proof.
    intros Eg Hl fuel st Hf. unfold generate_with_strategy, generate. destruct (terminates_ends fuel g Hf) as [b Eb].
    assert (b = true) as ->.
    { apply (terminates_spec _ _ _ Eb). unfold starting_term. rewrite Eg. cbn. rewrite Hl, <- Eg. apply acyclic_productive. }
    rewrite Eb. cbn [rbind negb]. destruct (acyclic_traverse st 0) as (w & st' & H). exists w, st'.
    rewrite Eg at 1. rewrite Hl. apply (traverse_mono _ _ _ _ fuel) in H; [exact H|lia].
  Qed.
End Ends.

(** ** With recursion *)

(** The source reads a list of draws. *)
Definition follows (rng : rng_ops (list nat)) : Prop :=
  forall i r n, i < n -> draw_usize rng (i :: r) n = (i, r).

(** The source repeats the list [b] for ever. *)
Definition repeat_draw (b r : list nat) (n : nat) : nat * list nat :=
  match r with [] => script_draw b n | _ => script_draw r n end.
Lemma repeat_draw_lt b r n : 0 < n -> fst (repeat_draw b r n) < n.
Proof. intro H. destruct r; apply script_draw_lt; assumption. Qed.
Definition repeat_rng (b : list nat) : rng_ops (list nat) :=
  mkRng _ (repeat_draw b) (fun r n => (0%N, r)) (repeat_draw_lt b) (fun r n H => H).
Lemma repeat_follows b : follows (repeat_rng b).
Proof. intros i r n H. cbn [repeat_rng draw_usize repeat_draw script_draw]. apply Nat.ltb_lt in H. rewrite H. reflexivity. Qed.

Notation walk_of rng g := (traverse (random_walk rng) (pure_callback (fun _ _ => true)) g).
Definition eval_of (rng : rng_ops (list nat)) (g : grammar) (fuel depth : nat) (t : term) (st : list nat) : res (result str * list nat) :=
  match t with Nonterminal nt => walk_of rng g fuel nt st (depth + 1) | Terminal s => Ok (ROk s, st) end.

Lemma walk_step rng g fuel n p i e rest depth : follows rng -> no_lone_epsilon g -> first_for g n p -> nth_error (p_rhs p) i = Some e ->
  walk_of rng g (S fuel) n (i :: rest) depth =
    let* (r, st) := eval_terms (eval_of rng g fuel depth) e [] rest in Ok (r, st).
Proof.
  intros Hrng Hne Hf Hi. destruct (find_production_first g n p Hf) as [ix Efp].
  assert (Hnc : production_has_no_choice p = false) by (eapply no_choice_false; try eassumption; eapply nth_error_In; eassumption).
  assert (Ec : random_walk rng (i :: rest) ix p depth = Ok (Some e, rest)).
  { unfold random_walk, random_index. pose proof (nth_error_lt _ _ _ Hi) as Hlt.
    destruct (Nat.eqb_spec (length (p_rhs p)) 0) as [|_]; [lia|]. cbn [rbind]. rewrite Hrng by assumption. rewrite Hi. reflexivity. }
  cbn [traverse]. rewrite Efp, Hnc, Ec. cbn [rbind].
  change (fun t (st : list nat) => match t with Nonterminal nt => walk_of rng g fuel nt st (depth + 1) | Terminal s => Ok (ROk s, st) end)
    with (eval_of rng g fuel depth).
  destruct (eval_terms (eval_of rng g fuel depth) e [] rest) as [[[w|x] st]| |]; reflexivity.
Qed.

Lemma scripted_any g : no_lone_epsilon g ->
    (forall t w, expansion g (fun _ _ => True) t w ->
       exists script k, forall rng fuel depth rest, follows rng -> k <= fuel ->
         eval_of rng g fuel depth t (script ++ rest) = Ok (ROk w, rest)) /\
    (forall e w, expansions g (fun _ _ => True) e w ->
       exists script k, forall rng fuel depth acc rest, follows rng -> k <= fuel ->
         eval_terms (eval_of rng g fuel depth) e acc (script ++ rest) = Ok (ROk (acc ++ w), rest)).
Proof.
  intro Hne. apply expansion_mutind.
  - intro s. exists [], 0. intros. reflexivity.
  - intros n Hn. exists [], 1. intros rng [|fuel] depth rest Hr Hle; [lia|]. cbn.
    destruct (find_production g n 0) as [[i p]|] eqn:E; [|reflexivity].
    apply find_production_Some in E. destruct Hn. apply (first_for_has_lhs g n p). apply E.
  - intros n p e w Hf He Hes (script & k & IH) _. apply In_nth_error in He. destruct He as [i Hi].
    exists (i :: script), (S k). intros rng [|fuel] depth rest Hr Hle; [lia|]. cbn [eval_of app].
    rewrite (walk_step rng g fuel n p i e) by assumption. rewrite IH by (assumption || lia). reflexivity.
  - exists [], 0. intros. cbn. rewrite app_nil_r. reflexivity.
  - intros t e w1 w2 Ht (s1 & k1 & IH1) He (s2 & k2 & IH2).
    exists (s1 ++ s2), (max k1 k2). intros rng fuel depth acc rest Hr Hle. cbn [eval_terms].
    rewrite <- app_assoc. rewrite IH1 by (assumption || lia). cbn [rbind]. rewrite IH2 by (assumption || lia). rewrite app_assoc. reflexivity.
Qed.

Lemma eval_of_mono rng g f f' depth t st r : eval_of rng g f depth t st = Ok r -> f <= f' -> eval_of rng g f' depth t st = Ok r.
Proof. destruct t as [s|n]; cbn; [auto|]. intros H Hle. eapply traverse_mono; eassumption. Qed.
Lemma random_walk_no_panic {R} (rng : rng_ops R) r a p d : p_rhs p <> [] -> random_walk rng r a p d <> Panic.
Proof. intros H E. destruct (random_walk_picks rng r a p d H) as (e & r' & E' & _). congruence. Qed.
Lemma eval_of_no_panic rng g f depth t st : eval_of rng g f depth t st <> Panic.
Proof.
  destruct t as [s|n]; cbn; [discriminate|]. apply traverse_no_panic. intros. apply random_walk_no_panic. assumption.
Qed.
Lemma eval_terms_no_panic rng g f depth e : forall acc st, eval_terms (eval_of rng g f depth) e acc st <> Panic.
Proof.
  induction e as [|t e IH]; intros acc st; cbn [eval_terms]; [discriminate|].
  pose proof (eval_of_no_panic rng g f depth t st). destruct (eval_of rng g f depth t st) as [[[w|x] st1]| |]; cbn [rbind]; try discriminate; [apply IH|congruence].
Qed.

Lemma eval_terms_app {S} (ev : term -> S -> res (result str * S)) e1 e2 : forall acc st,
  eval_terms ev (e1 ++ e2) acc st =
    let* (r, st) := eval_terms ev e1 acc st in
    match r with ROk w => eval_terms ev e2 w st | RErr x => Ok (RErr x, st) end.
Proof.
  induction e1 as [|t e1 IH]; intros acc st; cbn [app eval_terms]; [reflexivity|].
  destruct (ev t st) as [[[w|x] st1]| |]; cbn [rbind]; try reflexivity. apply IH.
Qed.

Section Recursion.
  Variable g : grammar.
  Hypothesis Hne : no_lone_epsilon g.
  Hypothesis Hdist : distinct_lhs g.
  Hypothesis Hclosed : forall x, refers g x -> has_lhs g x.
  Hypothesis Hprod : forall x, has_lhs g x -> productive g (Nonterminal x).

  Lemma expansions_exist e : (forall n, In (Nonterminal n) e -> has_lhs g n) -> exists w, expansions g (fun _ _ => True) e w.
  Proof.
    induction e as [|t e IH]; intro H; [eexists; constructor|].
    destruct IH as [w Hw]; [intros; apply H; right; assumption|]. destruct t as [s|n].
    - exists (s ++ w). constructor; [constructor|assumption].
    - destruct (Hprod n) as (tr & Hd & Hr); [apply H; left; reflexivity|]. exists (yield tr ++ w).
      constructor; [|assumption]. apply derives_expansion; assumption.
  Qed.

  (** Draws that lead from [n] into [m], whatever the source does after them. *)
  Definition leads (n m : str) (s : list nat) : Prop :=
    forall rng, follows rng -> forall fuel rest,
      (forall fuel' d, fuel' < fuel -> walk_of rng g fuel' m rest d = OutOfFuel) ->
      forall d, walk_of rng g fuel n (s ++ rest) d = OutOfFuel.

  Lemma calls_lead n m : calls g n m -> exists s, s <> [] /\ leads n m s.
  Proof.
    intros (p & e & Hf & He & Hm & _). apply in_split in Hm. destruct Hm as (pre & post & ->).
    destruct (expansions_exist pre) as [w Hw].
    { intros x Hx. apply Hclosed. exists p, (pre ++ Nonterminal m :: post). split; [apply (first_for_In _ _ _ Hf)|].
      split; [assumption|]. apply in_or_app. left. assumption. }
    destruct (proj2 (scripted_any g Hne) _ _ Hw) as (sp & k & Hsp).
    apply In_nth_error in He. destruct He as [i Hi]. exists (i :: sp). split; [discriminate|].
    intros rng Hr fuel rest Hout d. destruct fuel as [|fuel]; [reflexivity|]. cbn [app].
    rewrite (walk_step rng g fuel n p i _ _ _ Hr Hne Hf Hi). rewrite eval_terms_app.
    destruct (eval_terms (eval_of rng g fuel d) pre [] (sp ++ rest)) as [r1| |] eqn:E.
    - assert (E2 : eval_terms (eval_of rng g (max k fuel) d) pre [] (sp ++ rest) = Ok r1).
      { eapply eval_terms_mono; [|exact E]. intros t st r H. eapply eval_of_mono; [exact H|lia]. }
      rewrite Hsp in E2 by (assumption || lia). injection E2 as <-. cbn [rbind eval_terms eval_of].
      rewrite Hout by lia. reflexivity.
    - destruct (eval_terms_no_panic _ _ _ _ _ _ _ E).
    - reflexivity.
  Qed.

  Lemma leads_trans n m x s1 s2 : leads n m s1 -> leads m x s2 -> leads n x (s1 ++ s2).
  Proof.
    intros H1 H2 rng Hr fuel rest Hout d. rewrite <- app_assoc. apply H1; [assumption|]. intros fuel' d' Hlt.
    apply H2; [assumption|]. intros fuel2 d2 Hlt2. apply Hout. lia.
  Qed.

  Lemma trans_leads n m : clos_trans _ (calls g) n m -> exists s, s <> [] /\ leads n m s.
  Proof.
    induction 1 as [n m H|n m x H1 (s1 & N1 & IH1) H2 (s2 & N2 & IH2)]; [apply calls_lead; assumption|].
    exists (s1 ++ s2). split; [destruct s1; [contradiction|discriminate]|]. eapply leads_trans; eassumption.
  Qed.

  Lemma refl_leads n m : clos_refl_trans _ (calls g) n m -> n = m \/ exists s, leads n m s.
  Proof.
    induction 1 as [n m H|n|n m x H1 IH1 H2 IH2]; [right|left; reflexivity|].
    - destruct (calls_lead _ _ H) as (s & _ & Hs). eauto.
    - destruct IH1 as [->|[s1 L1]]; [assumption|]. destruct IH2 as [->|[s2 L2]]; [eauto|].
      right. exists (s1 ++ s2). eapply leads_trans; eassumption.
  Qed.

  Lemma walk_empty b fuel n d : walk_of (repeat_rng b) g fuel n [] d = walk_of (repeat_rng b) g fuel n b d \/
    exists r, walk_of (repeat_rng b) g fuel n b d = Ok r.
  Proof.
    destruct fuel as [|fuel]; [left; reflexivity|]. cbn [traverse].
    destruct (find_production g n 0) as [[i p]|]; [|right; eauto].
    destruct (production_has_no_choice p); [right; eauto|]. left.
    replace (random_walk (repeat_rng b) [] i p d) with (random_walk (repeat_rng b) b i p d); [reflexivity|].
    unfold random_walk, random_index. destruct (Nat.eqb (length (p_rhs p)) 0); [reflexivity|]. cbn [rbind repeat_rng draw_usize].
    destruct b; reflexivity.
  Qed.

  Lemma cycle_endless n b : leads n n b -> forall fuel d, walk_of (repeat_rng b) g fuel n [] d = OutOfFuel.
  Proof.
    intros Hb fuel. induction fuel as [fuel IH] using lt_wf_ind. intro d.
    pose proof (Hb (repeat_rng b) (repeat_follows b) fuel [] (fun f d' H => IH f H d') d) as H. rewrite app_nil_r in H.
    destruct (walk_empty b fuel n d) as [->|[r E]]; [assumption|congruence].
  Qed.

  Lemma recursive_endless p rest start : g = p :: rest -> p_lhs p = Nonterminal start -> recursive g start ->
    exists b r, forall fuel, generate_random (repeat_rng b) (fun _ _ => true) g fuel r = OutOfFuel.
  Proof.
    intros Eg Hl (n & Hr & Hc). destruct (trans_leads _ _ Hc) as (b & _ & Hb). exists b.
    pose proof (cycle_endless n b Hb) as Hend.
    assert (Hst : exists r, forall fuel, walk_of (repeat_rng b) g fuel start r 0 = OutOfFuel).
    { destruct (refl_leads _ _ Hr) as [->|[s Hs]]; [exists []; intro; apply Hend|]. exists s. intro fuel.
      rewrite <- (app_nil_r s). apply Hs; [apply repeat_follows|]. intros. apply Hend. }
    destruct Hst as [r Hst]. exists r. intro fuel. unfold generate_random, generate.
    destruct (terminates fuel g) as [v| |] eqn:Et; cbn [rbind]; [|destruct (terminates_no_panic _ _ Et)|reflexivity].
    assert (v = true) as ->.
    { apply (terminates_spec _ _ _ Et). unfold starting_term. rewrite Eg. cbn. rewrite Hl, <- Eg. apply Hprod.
      exists p. split; [rewrite Eg; left; reflexivity|assumption]. }
    cbn [negb]. rewrite Eg at 1. rewrite Hl. apply Hst.
  Qed.
End Recursion.

(** ** The characters of a sentence *)

Lemma expansion_letters g ok : (forall x, refers g x -> has_lhs g x) ->
  (forall t w, expansion g ok t w -> match t with Terminal s => forall c, In c s -> letter g c | Nonterminal n => has_lhs g n end ->
     forall c, In c w -> letter g c) /\
  (forall e w, expansions g ok e w -> (exists p, In p g /\ exists e0, In e0 (p_rhs p) /\ incl e e0) -> forall c, In c w -> letter g c).
Proof.
  intro Hv. apply expansion_mutind.
  - intros s H. exact H.
  - intros n Hn Hh. contradiction.
  - intros n p e w Hf He Hes IH _ _. apply IH. exists p. split; [apply (first_for_In _ _ _ Hf)|]. exists e. split; [assumption|apply incl_refl].
  - intros _ c [].
  - intros t e w1 w2 Ht IHt He IHe (p & Hp & e0 & He0 & Hi) c Hc. apply in_app_or in Hc. destruct Hc as [Hc|Hc].
    + revert c Hc. apply IHt. assert (Hte : In t e0) by (apply Hi; left; reflexivity). destruct t as [s|n].
      * intros c Hc. exists p, e0, s. auto.
      * apply Hv. exists p, e0. auto.
    + revert c Hc. apply IHe. exists p. split; [assumption|]. exists e0. split; [assumption|]. intros x Hx. apply Hi. right. assumption.
Qed.

Lemma expansion_nonempty g ok : (forall p e, In p g -> In e (p_rhs p) -> e <> [] /\ ~ In (Terminal []) e) -> (forall x, refers g x -> has_lhs g x) ->
  (forall t w, expansion g ok t w -> match t with Terminal s => s <> [] | Nonterminal n => has_lhs g n end -> w <> []) /\
  (forall e w, expansions g ok e w -> (exists p, In p g /\ exists e0, In e0 (p_rhs p) /\ incl e e0) -> e <> [] -> w <> []).
Proof.
  intros Hg Hv. apply expansion_mutind.
  - intros s H. exact H.
  - intros n Hn Hh. contradiction.
  - intros n p e w Hf He Hes IH _ _. pose proof (proj1 (first_for_In _ _ _ Hf)) as Hp. apply IH; [|apply (Hg p e Hp He)].
    exists p. split; [assumption|]. exists e. split; [assumption|apply incl_refl].
  - congruence.
  - intros t e w1 w2 Ht IHt He IHe (p & Hp & e0 & He0 & Hi) _ E. apply app_eq_nil in E. destruct E as [-> _].
    apply IHt; [|reflexivity]. assert (Hte : In t e0) by (apply Hi; left; reflexivity). destruct t as [s|n].
    + intros ->. destruct (Hg p e0 Hp He0) as [_ H]. contradiction.
    + apply Hv. exists p, e0. auto.
Qed.

(** ** Coverage over several generations *)

Definition flat (n : str) (ts : list str) : production := mkProd (Nonterminal n) (map (fun t => [Terminal t]) ts).
Lemma flat_generate {R} (rng : rng_ops R) n ts fuel c : ts <> [] -> 2 <= fuel ->
  exists t c', generate_with_strategy (coverage_guided rng) [flat n ts] fuel c = Ok (ROk t, c') /\
    coverage_guided rng c 0 (flat n ts) 0 = Ok (Some [Terminal t], c') /\ In t ts.
Proof.
  intros Hts Hf. destruct (coverage_guided_picks rng c 0 (flat n ts) 0) as (e & c' & E & He).
  { intro H. apply map_eq_nil in H. contradiction. }
  cbn in He. apply in_map_iff in He. destruct He as (t & <- & Ht). exists t, c'. split; [|auto].
  unfold generate_with_strategy, generate.
  assert (Et : terminates fuel [flat n ts] = Ok true).
  { destruct (terminates_ends fuel [flat n ts] Hf) as [b Eb]. rewrite Eb. f_equal. apply (terminates_spec _ _ _ Eb). cbn.
    destruct ts as [|t0 ts]; [contradiction|]. change (productive [flat n (t0 :: ts)] (p_lhs (flat n (t0 :: ts)))).
    apply (productive_rule _ _ [Terminal t0]); [left; reflexivity|left; reflexivity|]. intros m [H|[]]. discriminate. }
  rewrite Et. cbn [rbind negb flat p_lhs]. destruct fuel as [|fuel]; [lia|]. cbn [traverse find_production flat p_lhs]. rewrite term_eqb_refl.
  assert (Enc : production_has_no_choice (flat n ts) = false).
  { apply not_true_iff_false. rewrite no_choice_spec. cbn. destruct ts as [|t0 [|]]; [contradiction|..]; intros [H|H]; discriminate. }
  fold (flat n ts). rewrite Enc, E. reflexivity.
Qed.

Lemma flat_generations {R} (rng : rng_ops R) n ts fuel : ts <> [] -> 2 <= fuel -> forall k c,
  exists outs c', generations (coverage_guided rng) [flat n ts] fuel k c = Ok (map ROk outs, c') /\ length outs = k /\
    coverage_run rng c (repeat (0, flat n ts, 0) k) = Ok (map (fun t => Some [Terminal t]) outs, c') /\ incl outs ts.
Proof.
  intros Hts Hf. induction k as [|k IH]; intro c; cbn [generations repeat coverage_run].
  - exists [], c. repeat split. intros x [].
  - destruct (flat_generate rng n ts fuel c Hts Hf) as (t & c1 & E1 & E2 & Ht).
    destruct (IH c1) as (outs & c2 & E3 & El & E4 & Hi). exists (t :: outs), c2.
    rewrite E1, E2. cbn [rbind]. rewrite E3, E4. cbn [rbind map length]. split; [reflexivity|]. split; [congruence|]. split; [reflexivity|].
    intros x [<-|Hx]; [assumption|apply Hi; assumption].
Qed.
