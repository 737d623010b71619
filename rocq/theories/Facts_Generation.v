(** Proofs of the theorems of Properties_Generation.v that are not instances of a single lemma. *)
From Verif Require Import ParseExamples StrategyProofs.

Lemma C16_generated_sentences_proof : forall S (choose : S -> nat -> production -> nat -> res (option expression * S))
    accept g fuel st w st',
  lawful choose ->
  generate choose accept g fuel st = Ok (ROk w, st') ->
  exists n p rest, g = p :: rest /\ p_lhs p = Nonterminal n /\
    expansion g (fun _ _ => True) (Nonterminal n) w.
Proof.
  intros S choose accept g fuel st w st' Hl. apply generate_sound; [assumption|auto].
Qed.

Lemma C17_generate_then_parse_proof : forall S (choose : S -> nat -> production -> nat -> res (option expression * S))
    accept ho g p fuel st w st',
  lawful choose -> build_parser ho g = ROk p ->
  generate choose accept g fuel st = Ok (ROk w, st') ->
  exists it fuel' t it', parse_input p w = Ok it /\ iter_next fuel' it = Ok (Some t, it').
Proof. intros S choose accept ho g p fuel st w st'. apply generate_then_parse. Qed.

Lemma C18_callback_approves_proof : forall S (choose : S -> nat -> production -> nat -> res (option expression * S))
    accept g fuel st w st',
  lawful choose ->
  generate choose accept g fuel st = Ok (ROk w, st') ->
  exists n p rest log, g = p :: rest /\ p_lhs p = Nonterminal n /\
    generate (logged_choose choose) (logged_accept accept) g fuel (st, []) = Ok (ROk w, (st', log)) /\
    expansion g (fun n' w' => In (n', w') log) (Nonterminal n) w.
Proof. intros S choose accept g fuel st w st' Hl. apply generate_logged. assumption. Qed.

Lemma C18_pure_callback_proof : forall S (choose : S -> nat -> production -> nat -> res (option expression * S))
    f g fuel st w st',
  lawful choose ->
  generate choose (pure_callback f) g fuel st = Ok (ROk w, st') ->
  exists n p rest, g = p :: rest /\ p_lhs p = Nonterminal n /\ f n w = true /\
    expansion g (fun n' w' => f n' w' = true) (Nonterminal n) w.
Proof.
  intros S choose f g fuel st w st' Hl H.
  assert (Hf : forall st1 n' w' st2, pure_callback (S := S) f st1 n' w' = (true, st2) -> f n' w' = true).
  { intros st1 n w1 st2 E. injection E as E _. exact E. }
  destruct (generate_sound choose (pure_callback f) g Hl (fun n' w' => f n' w' = true) Hf _ _ _ _ H)
    as (n & p & rest & -> & Hn & Hex).
  exists n, p, rest. split; [reflexivity|]. split; [assumption|]. split; [|assumption].
  inversion Hex as [|? Hno|]; subst; [|assumption]. destruct Hno. exists p. split; [left; reflexivity|assumption].
Qed.

Lemma C19_guard_message_proof : forall S (choose : S -> nat -> production -> nat -> res (option expression * S)) accept g st,
  (exists fuel st', generate choose accept g fuel st =
     Ok (RErr (GenerateError (lit "Can't generate, first rule in grammar doesn't lead to a terminal state")), st')) <->
  exists start, starting_term g = Some start /\ ~ exists tr, derives g tr /\ root tr = start.
Proof. intros S choose accept g st. exact (guard_message choose accept g st). Qed.

Lemma C20_guard_safe_proof : forall g p rest n fuel0,
  g = p :: rest -> p_lhs p = Nonterminal n -> distinct_lhs g -> no_lone_epsilon g ->
  terminates fuel0 g = Ok true ->
  exists script w k, forall fuel, k <= fuel ->
    generate_random script_rng (fun _ _ => true) g fuel script = Ok (ROk w, []).
Proof. intros g p rest n fuel0. apply guard_safe. Qed.

Definition shadowed_grammar : grammar := [mkProd (N_ "s") [[N_ "s"]]; mkProd (N_ "s") [[T_ "a"]]].

Lemma shadowed_no_ok S (choose : S -> nat -> production -> nat -> res (option expression * S)) accept fuel :
  lawful choose -> forall st depth w st', traverse choose accept shadowed_grammar fuel (lit "s") st depth <> Ok (ROk w, st').
Proof.
  intro Hl. induction fuel as [|fuel IH]; intros st depth w st' H; [discriminate|].
  cbn [traverse] in H. change (find_production shadowed_grammar (lit "s") 0) with (Some (0, mkProd (N_ "s") [[N_ "s"]])) in H.
  cbn [production_has_no_choice p_rhs N_] in H.
  destruct (choose st 0 (mkProd (N_ "s") [[N_ "s"]]) depth) as [[[e|] st1]| |] eqn:E;
    cbn [rbind] in H; try discriminate.
  apply Hl in E. destruct E as [<-|[]]. unfold N_ in H. cbn [eval_terms] in H.
  destruct (traverse choose accept shadowed_grammar fuel (lit "s") st1 (depth + 1)) as [[[s|x] st2]| |] eqn:E2;
    cbn [rbind] in H; try discriminate; [exact (IH _ _ _ _ E2)|..]; cbn in H; discriminate.
Qed.

Lemma shadowed_oof R (rng : rng_ops R) f fuel : forall st depth,
  traverse (random_walk rng) (pure_callback f) shadowed_grammar fuel (lit "s") st depth = OutOfFuel.
Proof.
  induction fuel as [|fuel IH]; intros st depth; [reflexivity|]. cbn [traverse].
  change (find_production shadowed_grammar (lit "s") 0) with (Some (0, mkProd (N_ "s") [[N_ "s"]])).
  cbn [production_has_no_choice p_rhs N_].
  destruct (random_walk_picks rng st 0 (mkProd (N_ "s") [[N_ "s"]]) depth) as (e & r' & -> & He);
    [discriminate|]. destruct He as [<-|[]]. unfold N_. cbn [rbind eval_terms]. rewrite IH. reflexivity.
Qed.

Lemma C20_guard_safe_refuted_proof : exists g,
  terminates 5 g = Ok true /\
  (forall S (choose : S -> nat -> production -> nat -> res (option expression * S)) accept fuel st w st',
     lawful choose -> generate choose accept g fuel st <> Ok (ROk w, st')) /\
  (forall R (rng : rng_ops R) f fuel r, generate_random rng f g fuel r = OutOfFuel).
Proof.
  exists shadowed_grammar. split; [reflexivity|]. split.
  - intros S choose accept fuel st w st' Hl. unfold generate.
    destruct (terminates fuel shadowed_grammar) as [[|]| |]; cbn [rbind negb]; try discriminate.
    apply shadowed_no_ok; assumption.
  - intros R rng f fuel r. unfold generate_random, generate.
    destruct (terminates fuel shadowed_grammar) as [b| |] eqn:E; cbn [rbind].
    + assert (b = true) as ->.
      { apply (terminates_mono _ fuel (fuel + 5)) in E; [|lia].
        assert (E' : terminates 5 shadowed_grammar = Ok true) by reflexivity.
        apply (terminates_mono _ 5 (fuel + 5)) in E'; [|lia]. congruence. }
      apply shadowed_oof.
    + exfalso. unfold terminates in E. cbn in E. destruct fuel; discriminate E.
    + reflexivity.
Qed.

Lemma C20_lone_epsilon_refuted_proof : exists g,
  terminates 5 g = Ok true /\ generates g (lit "s") [] /\
  forall S (choose : S -> nat -> production -> nat -> res (option expression * S)) accept fuel st r st',
    generate choose accept g fuel st = Ok (r, st') -> r = RErr (GenerateError (lit "Production has no choosable alternative!")).
Proof.
  exists [mkProd (N_ "s") [[]]]. split; [reflexivity|]. split.
  - apply generates_parses. exists (Node (N_ "s") []). split; [|split; reflexivity].
    apply (derives_node _ (mkProd (N_ "s") [[]]) []); [left; reflexivity|left; reflexivity|constructor].
  - intros S choose accept fuel st r st'. unfold generate. destruct fuel as [|fuel]; [discriminate|]. cbn.
    intro H. injection H as <- <-. reflexivity.
Qed.

Lemma C21_more_time_proof : forall S (choose : S -> nat -> production -> nat -> res (option expression * S)) accept g f f' st r,
  generate choose accept g f st = Ok r -> f <= f' -> generate choose accept g f' st = Ok r.
Proof. intros S choose accept g f f' st r. apply generate_mono. Qed.

Lemma C21_reproducible_proof : forall S (choose : S -> nat -> production -> nat -> res (option expression * S)) accept g f f' st r r',
  generate choose accept g f st = Ok r -> generate choose accept g f' st = Ok r' -> r = r'.
Proof. intros S choose accept g f f' st r r'. apply generate_det. Qed.

Lemma C26_every_sentence_proof : forall g n p rest w,
  g = p :: rest -> p_lhs p = Nonterminal n -> distinct_lhs g -> no_lone_epsilon g ->
  generates g n w ->
  exists script k, forall fuel, k <= fuel ->
    generate_random script_rng (fun _ _ => true) g fuel script = Ok (ROk w, []).
Proof. intros g n p rest w. apply every_sentence. Qed.

Lemma C26_every_sentence_refuted_proof : exists g n w, generates g n w /\
  forall S (choose : S -> nat -> production -> nat -> res (option expression * S)) accept fuel st st',
    lawful choose -> generate choose accept g fuel st <> Ok (ROk w, st').
Proof.
  exists [mkProd (N_ "s") [[T_ "a"]]; mkProd (N_ "s") [[T_ "b"]]], (lit "s"), (lit "b"). split.
  - apply generates_parses. exists (Node (N_ "s") [Leaf (lit "b")]). split; [|split; reflexivity].
    apply (derives_node _ (mkProd (N_ "s") [[T_ "b"]]) [T_ "b"]); [right; left; reflexivity|left; reflexivity|repeat constructor].
  - intros S choose accept fuel st st' Hl H.
    apply (generate_sound choose accept _ Hl (fun _ _ => True)) in H; [|auto].
    destruct H as (n & p & rest & E & Hn & Hex). injection E as <- <-. injection Hn as <-.
    inversion Hex as [|? Hno|? q e ? Hff He Hes]; subst.
    destruct Hff as (before & after & E & Hq & Hb). destruct before as [|b before].
    + injection E as <- <-. destruct He as [<-|[]]. inversion Hes as [|? ? w1 w2 H1 H2 E1 E2]; subst.
      inversion H1; subst. inversion H2; subst. discriminate.
    + injection E as <- E. apply (Hb (mkProd (N_ "s") [[T_ "a"]])); [left; reflexivity|reflexivity].
Qed.

