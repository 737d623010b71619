(** Proofs of the theorems of Properties_Ends.v that are not instances of a single lemma. *)
From Coq Require Import Permutation.
From Verif Require Import EndsProofs Facts_Strategies TextExamples ParseExamples GenTests.

Lemma C77_ends_proof : forall S (choose : S -> nat -> production -> nat -> res (option expression * S)) g p rest n,
  always_chooses choose g -> g = p :: rest -> p_lhs p = Nonterminal n ->
  (forall x, refers g x -> has_lhs g x) -> (forall q, In q g -> p_rhs q <> [] /\ p_rhs q <> [[]]) -> ~ recursive g n ->
  forall fuel st, length g < fuel -> exists w st', generate_with_strategy choose g fuel st = Ok (ROk w, st').
Proof.
  intros S choose g p rest n Hc Eg Hl Hcl Ha Hno fuel st Hf.
  apply (acyclic_generate choose g Hc Hcl Ha n) with (p := p) (rest := rest); try assumption.
  exists p. split; [rewrite Eg; left; reflexivity|assumption].
Qed.

Lemma C77_strategies_proof : forall R (rng : rng_ops R) g, (forall q, In q g -> p_rhs q <> []) ->
  always_chooses (random_walk rng) g /\ (forall max, always_chooses (depth_bounded rng max) g) /\
  always_chooses (coverage_guided rng) g /\ (forall rec nonrec, always_chooses (weighted rng false rec nonrec) g).
Proof.
  intros R rng g H. repeat split.
  - intros st addr p depth Hp. apply C22_random_walk_proof. auto.
  - intros max st addr p depth Hp. apply C22_depth_bounded_proof. auto.
  - intros st addr p depth Hp. apply C22_coverage_guided_proof. auto.
  - intros rec nonrec st addr p depth Hp. apply C22_weighted_proof; auto.
Qed.

Lemma C77_endless_proof : forall g p rest n,
  g = p :: rest -> p_lhs p = Nonterminal n -> distinct_lhs g -> no_lone_epsilon g ->
  (forall x, refers g x -> has_lhs g x) -> (forall x, has_lhs g x -> exists w, generates g x w) -> recursive g n ->
  exists R (rng : rng_ops R) r, forall fuel, generate_random rng (fun _ _ => true) g fuel r = OutOfFuel.
Proof.
  intros g p rest n Eg Hl Hd Hne Hcl Hp Hr.
  destruct (recursive_endless g Hne Hd Hcl) with (p := p) (rest := rest) (start := n) as (b & r & H); try assumption.
  - intros x Hx. destruct (Hp x Hx) as [w Hw]. eapply generates_productive; exact Hw.
  - exists _, (repeat_rng b), r. exact H.
Qed.

Lemma C77_letters_proof : forall S (choose : S -> nat -> production -> nat -> res (option expression * S)) accept g fuel st w st',
  lawful choose -> (forall x, refers g x -> has_lhs g x) -> generate choose accept g fuel st = Ok (ROk w, st') ->
  (forall c, In c w -> letter g c) /\
  ((forall p e, In p g -> In e (p_rhs p) -> e <> [] /\ ~ In (Terminal []) e) -> w <> []).
Proof.
  intros S choose accept g fuel st w st' Hlaw Hcl H.
  destruct (generate_sound choose accept g Hlaw (fun _ _ => True) (fun _ _ _ _ _ => I) _ _ _ _ H) as (n & p & rest & Eg & Hl & Hex).
  assert (Hn : has_lhs g n) by (exists p; split; [rewrite Eg; left; reflexivity|assumption]). split.
  - apply (proj1 (expansion_letters g _ Hcl) _ _ Hex Hn).
  - intro Hg. apply (proj1 (expansion_nonempty g _ Hg Hcl) _ _ Hex Hn).
Qed.

(** ** The tests *)

Lemma rhs_len_draw {R} (rng : rng_ops R) r n : 0 < n -> exists i r', draw_usize rng r n = (i, r') /\ i < n.
Proof. intro H. pose proof (draw_usize_lt _ rng r n H) as Hi. destruct (draw_usize rng r n) as [i r']. eauto. Qed.

Lemma C78_groups_proof : forall alphabetic, exists g, grammar_from_str alphabetic groups_text = Ok (ROk g) /\
  forall R (rng : rng_ops R) r fuel, 7 <= fuel ->
  exists w r', generate_random rng (fun _ _ => true) g fuel r = Ok (ROk w, r') /\ In w [lit "a"; lit "b"; lit "ac"; lit "bc"].
Proof.
  intro alphabetic. eexists. split; [vm_compute; reflexivity|]. intros R rng r fuel Hf.
  match goal with |- exists w r', generate_random rng _ ?g fuel r = _ /\ _ => set (gr := g) in * end.
  assert (H : exists w r', generate_random rng (fun _ _ => true) gr 7 r = Ok (ROk w, r') /\ In w [lit "a"; lit "b"; lit "ac"; lit "bc"]).
  { unfold generate_random, generate. replace (terminates 7 gr) with (Ok true) by (vm_compute; reflexivity). cbn [rbind negb].
    unfold gr. cbn -[draw_usize].
    repeat match goal with |- context [draw_usize rng ?r ?n] =>
      let i := fresh "i" in let r' := fresh "r" in let E := fresh "E" in let L := fresh "L" in
      destruct (rhs_len_draw rng r n ltac:(repeat constructor)) as (i & r' & E & L); rewrite E; destruct i as [|[|i]]; try (exfalso; lia); cbn -[draw_usize] end;
    do 2 eexists; (split; [reflexivity|]); cbn; tauto. }
  destruct H as (w & r' & E & Hin). exists w, r'. split; [|assumption]. eapply generate_mono; eassumption.
Qed.

Lemma C78_depth_bounded_proof : forall alphabetic, exists g, grammar_from_str alphabetic nest_text = Ok (ROk g) /\
  forall R (rng : rng_ops R) r fuel, 4 <= fuel ->
  exists w r', generate_with_strategy (depth_bounded rng 1) g fuel r = Ok (ROk w, r') /\ In w [lit "a"; lit "(a)"].
Proof.
  intro alphabetic. eexists. split; [vm_compute; reflexivity|]. intros R rng r fuel Hf.
  match goal with |- exists w r', generate_with_strategy _ ?g fuel r = _ /\ _ => set (gr := g) in * end.
  set (p := hd (mkProd (tm "") []) gr).
  assert (H0 : forall r, exists e r', depth_bounded rng 1 r 0 p 0 = Ok (Some e, r') /\ In e (p_rhs p)).
  { intro r0. apply C22_depth_bounded_proof. discriminate. }
  assert (H1 : forall r, exists r', depth_bounded rng 1 r 0 p 1 = Ok (Some [tm "a"], r')).
  { intro r0. destruct (C22_depth_bounded_proof R rng 1 r0 0 p 1 ltac:(discriminate)) as (e & r' & E & He). exists r'. rewrite E.
    apply C23_terminals_at_depth_proof in E; [|lia|].
    - destruct E as [_ Hn]. destruct He as [<-|[<-|[]]]; [reflexivity|]. destruct (Hn (lit "s")). right. left. reflexivity.
    - exists [tm "a"]. split; [left; reflexivity|]. intros n [E2|[]]. discriminate. }
  assert (H : exists w r', generate_with_strategy (depth_bounded rng 1) gr 4 r = Ok (ROk w, r') /\ In w [lit "a"; lit "(a)"]).
  { unfold generate_with_strategy, generate. replace (terminates 4 gr) with (Ok true) by (vm_compute; reflexivity). cbn [rbind negb].
    unfold gr. cbn -[draw_usize depth_bounded]. fold gr. destruct (H0 r) as (e & r1 & E & He). unfold p, gr in E, H1. cbn [hd] in E, H1. rewrite E.
    destruct He as [<-|[<-|[]]]; cbn -[draw_usize depth_bounded].
    - do 2 eexists. split; [reflexivity|]. left. reflexivity.
    - destruct (H1 r1) as [r2 ->]. cbn. do 2 eexists. split; [reflexivity|]. right. left. reflexivity. }
  destruct H as (w & r' & E & Hin). exists w, r'. split; [|assumption]. eapply generate_mono; eassumption.
Qed.

Lemma C78_coverage_proof : forall R (rng : rng_ops R) n ts fuel k r, ts <> [] -> 2 <= fuel ->
  exists outs c', generations (coverage_guided rng) [mkProd (Nonterminal n) (map (fun t => [Terminal t]) ts)] fuel k (mkCov [] r) = Ok (map ROk outs, c') /\
    length outs = k /\ incl outs ts /\ (length ts <= k -> Permutation (firstn (length ts) outs) ts).
Proof.
  intros R rng n ts fuel k r Hts Hf. destruct (flat_generations rng n ts fuel Hts Hf k (mkCov [] r)) as (outs & c' & E1 & El & E2 & Hi).
  exists outs, c'. split; [exact E1|]. split; [assumption|]. split; [assumption|]. intro Hk.
  destruct (C24_coverage_proof R rng 0 (flat n ts) (mkCov [] r) (repeat (0, flat n ts, 0) k) (map (fun t => Some [Terminal t]) outs) c') as (rest & Hp & Hr).
  - intro H. apply map_eq_nil in H. contradiction.
  - intros addr q depth Hin _. apply repeat_spec in Hin. congruence.
  - intros i [].
  - exact E2.
  - assert (Ea : forall k (es : list (option expression)), length es = k -> answers_for 0 (repeat (0, flat n ts, 0) k) es = es).
    { clear. induction k as [|k IH]; intros [|e es] H; try discriminate; [reflexivity|]. cbn. f_equal. apply IH. cbn in H. congruence. }
    rewrite Ea in Hp, Hr by (rewrite map_length; assumption). cbn [flat p_rhs] in Hp, Hr. rewrite map_length in Hp. rewrite !map_length in Hr.
    rewrite (Hr ltac:(rewrite El; exact Hk)), app_nil_r in Hp. rewrite firstn_map, map_map in Hp.
    apply (Permutation_map (fun o => match o with Some [Terminal t] => t | _ => [] end)) in Hp. rewrite !map_map, !map_id in Hp. assumption.
Qed.

Lemma C78_abc_proof : forall alphabetic, grammar_from_str alphabetic abc_text =
  Ok (ROk [mkProd (nt "s") (map (fun t => [Terminal t]) [lit "a"; lit "b"; lit "c"])]).
Proof. intro. vm_compute. reflexivity. Qed.

(** The terminals of a grammar, and the check that only certain letters occur in them. *)
Definition letters_in (g : grammar) (l : str) : bool :=
  forallb (fun p => forallb (forallb (fun t => match t with Terminal s => forallb (fun c => existsb (N.eqb c) l) s | Nonterminal _ => true end)) (p_rhs p)) g.
Lemma letters_in_spec g l c : letters_in g l = true -> letter g c -> In c l.
Proof.
  unfold letters_in. intros H (p & e & s & Hp & He & Hs & Hc). rewrite forallb_forall in H. apply H in Hp.
  rewrite forallb_forall in Hp. apply Hp in He. rewrite forallb_forall in He. apply He in Hs. cbn in Hs.
  rewrite forallb_forall in Hs. apply Hs in Hc. apply existsb_exists in Hc. destruct Hc as (x & Hx & E). apply N.eqb_eq in E. subst. assumption.
Qed.
Definition no_blank (g : grammar) : bool :=
  forallb (fun p => forallb (fun e => match e with [] => false | _ => forallb (fun t => negb (term_eqb t (Terminal []))) e end) (p_rhs p)) g.
Lemma no_blank_spec g : no_blank g = true -> forall p e, In p g -> In e (p_rhs p) -> e <> [] /\ ~ In (Terminal []) e.
Proof.
  unfold no_blank. intros H p e Hp He. rewrite forallb_forall in H. apply H in Hp. rewrite forallb_forall in Hp. apply Hp in He.
  destruct e as [|t e]; [discriminate|]. split; [discriminate|]. intro Hin. rewrite forallb_forall in He. apply He in Hin.
  rewrite term_eqb_refl in Hin. discriminate.
Qed.
Lemma validate_closed ho g : validate ho g = ROk tt -> forall x, refers g x -> has_lhs g x.
Proof. intro H. apply validate_spec in H. apply H. Qed.

Lemma C78_letters_proof : forall alphabetic text letters,
  In (text, letters) [(dna_text, lit "ACGT"); (x_text, lit "x"); (names_text, utf8 "😀😍αβ"%string)] ->
  exists g, grammar_from_str alphabetic text = Ok (ROk g) /\
  forall S (choose : S -> nat -> production -> nat -> res (option expression * S)) accept fuel st w st', lawful choose ->
    generate choose accept g fuel st = Ok (ROk w, st') -> w <> [] /\ forall c, In c w -> In c letters.
Proof.
  intros alphabetic text letters H.
  assert (Hg : exists g, grammar_from_str alphabetic text = Ok (ROk g) /\ letters_in g letters = true /\ no_blank g = true /\ validate id_order g = ROk tt).
  { cbn [In] in H. repeat destruct H as [H|H]; try contradiction; injection H as <- <-;
      (eexists; split; [vm_compute; reflexivity|]; vm_compute; repeat split). }
  destruct Hg as (g & Eg & Hl & Hb & Hv). exists g. split; [assumption|]. intros S choose accept fuel st w st' Hlaw Hgen.
  destruct (C77_letters_proof S choose accept g fuel st w st' Hlaw (validate_closed _ _ Hv) Hgen) as [H1 H2]. split.
  - apply H2. apply no_blank_spec. assumption.
  - intros c Hc. eapply letters_in_spec; eauto.
Qed.

Lemma C78_subtract_proof : forall R (rng : rng_ops R) checks r addr depth, fst (draw_u32 rng r 11) <> 0%N ->
  weighted rng checks 1 10 r addr subtract_production depth = Ok (Some [tm "a"], snd (draw_u32 rng r 11)).
Proof.
  intros R rng checks r addr depth H. unfold weighted, weighted_random_index.
  replace (fill_weights 1 10 subtract_production) with [1%N; 10%N] by reflexivity.
  replace (sum_u32 checks [1%N; 10%N]) with (Ok 11%N) by (destruct checks; reflexivity). cbn [rbind].
  change (N.eqb 11 0) with false. cbv iota. pose proof (draw_u32_lt _ rng r 11 ltac:(lia)) as Hlt.
  destruct (draw_u32 rng r 11%N) as [x r']. cbn [fst snd] in *. cbn [weighted_scan].
  destruct (N.ltb_spec x 1) as [|_]; [lia|]. destruct (N.ltb_spec (x - 1) 10) as [_|]; [reflexivity|lia].
Qed.
Lemma C78_subtract_refuted_proof : exists R (rng : rng_ops R) r, forall addr depth,
  weighted rng true 1 10 r addr subtract_production depth = Ok (Some [nt "s"], r).
Proof. exists unit, (const_rng 0), tt. intros. reflexivity. Qed.

Lemma C78_average_refuted_proof : exists g, grammar_from_str ascii_alpha x_text = Ok (ROk g) /\
  exists R (rng : rng_ops R) r1 r2 heavy light r1' r2',
    generations (weighted rng true 100 1) g 10 20 r1 = Ok (heavy, r1') /\
    generations (weighted rng true 1 100) g 10 20 r2 = Ok (light, r2') /\
    length heavy = 20 /\ length light = 20 /\ average heavy = 1 /\ average light = 2.
Proof.
  eexists. split; [vm_compute; reflexivity|]. exists _, list_rng, [], (flat_map (fun _ => [100%N; 0%N]) (seq 0 20)).
  do 4 eexists. split; [vm_compute; reflexivity|]. split; [vm_compute; reflexivity|]. vm_compute. repeat split.
Qed.

(** ** For the examples *)
Lemma ranked_not_recursive g (rank : str -> nat) : (forall n m, calls g n m -> rank m < rank n) -> forall n, ~ recursive g n.
Proof.
  intros H n (m & _ & Hc).
  assert (Hr : forall a b, clos_trans _ (calls g) a b -> rank b < rank a) by (induction 1; [auto|lia]).
  apply Hr in Hc. lia.
Qed.
Definition small : grammar := [mkProd (nt "s") [[nt "a"; nt "a"]; [tm "x"]]; mkProd (nt "a") [[tm "y"]; [tm "z"]]].
Lemma small_not_recursive n : ~ recursive small n.
Proof.
  apply (ranked_not_recursive small (fun n => if str_eqb n (lit "s") then 1 else 0)). clear n.
  intros n m (p & e & Hf & He & Hm & _). destruct (first_for_In _ _ _ Hf) as [Hp Hl].
  destruct Hp as [<-|[<-|[]]]; cbn in Hl; injection Hl as <-; destruct He as [<-|[<-|[]]]; cbn in Hm;
    repeat destruct Hm as [Hm|Hm]; try discriminate; try contradiction; injection Hm as <-; repeat constructor.
Qed.
Definition dna : grammar := [mkProd (nt "dna") [[nt "base"]; [nt "base"; nt "dna"]]; mkProd (nt "base") [[tm "A"]; [tm "C"]; [tm "G"]; [tm "T"]]].
Lemma dna_conditions : distinct_lhs dna /\ no_lone_epsilon dna /\ (forall x, refers dna x -> has_lhs dna x) /\
  (forall x, has_lhs dna x -> exists w, generates dna x w) /\ recursive dna (lit "dna").
Proof.
  assert (Hb : generates dna (lit "base") (lit "A")).
  { apply generates_parses. exists (Node (nt "base") [Leaf (lit "A")]). split; [|split; reflexivity].
    apply (derives_node dna (mkProd (nt "base") [[tm "A"]; [tm "C"]; [tm "G"]; [tm "T"]]) [tm "A"]); [right; left; reflexivity|left; reflexivity|repeat constructor]. }
  assert (Hd : generates dna (lit "dna") (lit "A")).
  { apply generates_parses. exists (Node (nt "dna") [Sub (Node (nt "base") [Leaf (lit "A")])]). split; [|split; reflexivity].
    apply (derives_node dna (mkProd (nt "dna") [[nt "base"]; [nt "base"; nt "dna"]]) [nt "base"]); [left; reflexivity|left; reflexivity|].
    constructor; [reflexivity| |constructor].
    apply (derives_node dna (mkProd (nt "base") [[tm "A"]; [tm "C"]; [tm "G"]; [tm "T"]]) [tm "A"]); [right; left; reflexivity|left; reflexivity|repeat constructor]. }
  split; [|split; [|split; [|split]]].
  - repeat constructor; cbn; intuition discriminate.
  - intros p [<-|[<-|[]]]; discriminate.
  - apply (validate_closed id_order). reflexivity.
  - intros x (p & [<-|[<-|[]]] & Hl); injection Hl as <-; eauto.
  - exists (lit "dna"). split; [apply rt_refl|]. apply t_step.
    exists (mkProd (nt "dna") [[nt "base"]; [nt "base"; nt "dna"]]), [nt "base"; nt "dna"]. repeat split.
    + exists [], [mkProd (nt "base") [[tm "A"]; [tm "C"]; [tm "G"]; [tm "T"]]]. repeat split. intros q [].
    + right. left. reflexivity.
    + right. left. reflexivity.
    + exists (mkProd (nt "dna") [[nt "base"]; [nt "base"; nt "dna"]]). split; [left; reflexivity|reflexivity].
Qed.
