(** Proofs of the theorems of Properties_Seeding.v that are not instances of a single lemma. *)
From Verif Require Import ParseExamples.
From Verif Require Export SeedingProofs.

Lemma C107_generator_proof : forall R T (std : std_rng R) (sys : sys_rng T),
  (forall g fuel r x r', generate_seeded std g fuel r = Ok (x, r') -> r' = after std r) /\
  (forall C (accept : C -> str -> str -> bool * C) g fuel r c x r' c',
     generate_seeded_callback std accept g fuel r c = Ok (x, r', c') -> r' = after std r) /\
  (forall C (accept : C -> str -> str -> bool * C) g fuel t c x t' c',
     generate_callback std sys accept g fuel t c = Ok (x, t', c') -> t' = snd (sys_fill sys t)).
Proof.
  intros R T std sys. split; [|split].
  - intros g fuel r x r'. rewrite seeded_is_walk. destruct (generate_random _ _ _ _ _) as [[y s]| |]; [|discriminate|discriminate].
    intro E. injection E as _ <-. reflexivity.
  - intros C accept g fuel r c x r' c'. unfold generate_seeded_callback, after. destruct (std_fill std r) as [s r1]. cbn [snd].
    destruct (generate _ _ _ _ _) as [[y st]| |]; [|discriminate|discriminate]. intro E. injection E as _ <- _. reflexivity.
  - intros C accept g fuel t c x t' c'. unfold generate_callback. destruct (sys_fill sys t) as [s t1]. cbn [snd].
    destruct (generate_seeded_callback _ _ _ _ _ _) as [[[y r] c1]| |]; [|discriminate|discriminate]. intro E. injection E as _ <- _. reflexivity.
Qed.

Lemma C107_position_proof : forall R (std : std_rng R) fuel fuel' gs gs' r xs r1 xs' r1' i,
  seeded_sentences std fuel gs r = Ok (xs, r1) -> seeded_sentences std fuel' gs' r = Ok (xs', r1') ->
  i < length gs -> nth_error gs i = nth_error gs' i -> nth_error xs i = nth_error xs' i.
Proof.
  intros R std fuel fuel' gs gs' r xs r1 xs' r1' i H H' Hi E. apply sentences_exact in H, H'.
  destruct H as (_ & _ & H), H' as (_ & _ & H').
  destruct (nth_error gs i) as [g|] eqn:Eg; [|apply nth_error_None in Eg; lia].
  destruct (H i g Eg) as (x & rest & -> & A), (H' i g (eq_sym E)) as (x' & rest' & -> & B).
  f_equal. unfold generate_random in *.
  destruct (Nat.le_ge_cases fuel fuel') as [L|L].
  - apply (generate_mono _ _ _ _ fuel') in A; [|exact L]. congruence.
  - apply (generate_mono _ _ _ _ fuel) in B; [|exact L]. congruence.
Qed.

Lemma C107_entry_points_proof : forall R T (std : std_rng R) (sys : sys_rng T) g fuel,
  (forall r, generate_seeded std g fuel r =
     let* (x, _) := generate_random (std_ops std) (fun _ _ => true) g fuel (strategy_of std r) in Ok (x, after std r)) /\
  (forall C f r (c : C), generate_seeded_callback std (fun c n w => (f n w, c)) g fuel r c =
     let* (x, _) := generate_random (std_ops std) f g fuel (strategy_of std r) in Ok (x, after std r, c)) /\
  (forall C f t (c : C), generate_callback std sys (fun c n w => (f n w, c)) g fuel t c =
     let* (x, _) := generate_random (std_ops std) f g fuel (strategy_of std (from_seed std (fst (sys_fill sys t)))) in
     Ok (x, snd (sys_fill sys t), c)) /\
  (forall t, generate_fresh std sys g fuel t =
     let* (x, _) := generate_random (std_ops std) (fun _ _ => true) g fuel (strategy_of std (from_seed std (fst (sys_fill sys t)))) in
     Ok (x, snd (sys_fill sys t))).
Proof.
  intros R T std sys g fuel. split; [|split; [|split]].
  - intro r. apply seeded_is_walk.
  - intros C f r c. apply callback_is_walk.
  - intros C f t c. unfold generate_callback. destruct (sys_fill sys t) as [s t']. cbn [fst snd].
    rewrite callback_is_walk. destruct (generate_random _ _ _ _ _) as [[x st]| |]; reflexivity.
  - intro t. apply fresh_is_walk.
Qed.

Lemma C107_calls_proof : forall R (std : std_rng R) C (accept : C -> str -> str -> bool * C) g fuel r c x r' c',
  generate_seeded_callback std accept g fuel r c = Ok (x, r', c') ->
  exists log, calls accept c log c' /\
    forall w, x = ROk w -> exists n p rest before, g = p :: rest /\ p_lhs p = Nonterminal n /\ log = before ++ [(n, w, true)].
Proof.
  intros R std C accept g fuel r c x r' c'. unfold generate_seeded_callback. destruct (std_fill std r) as [s r1].
  unfold generate. destruct (terminates fuel g) as [[|]| |]; [| |discriminate|discriminate]; cbn [rbind negb].
  2:{ intro E. injection E as <- <- <-. exists []. split; [constructor|]. discriminate. }
  destruct g as [|p rest] eqn:Eg.
  { intro E. injection E as <- <- <-. exists []. split; [constructor|]. discriminate. }
  destruct (p_lhs p) as [|n] eqn:El.
  { intro E. injection E as <- <- <-. exists []. split; [constructor|]. discriminate. }
  destruct (traverse _ _ _ fuel n _ 0) as [[y [r2 c2]]| |] eqn:E; [|discriminate|discriminate]. cbn [rbind snd].
  intro H. injection H as <- <- <-. destruct (traverse_calls _ _ _ _ _ _ _ _ _ _ _ E) as (log & L & Hlast).
  exists log. split; [exact L|]. intros w Hw. destruct (Hlast w Hw) as (before & ->).
  - exists p. split; [left; reflexivity|exact El].
  - exists n, p, rest, before. auto.
Qed.

Lemma C107_structs_proof : forall R (std : std_rng R) f g fuel r,
  (forall max, generate (choose_depth_bounded std) (pure_callback f) g fuel (mkDepth max r) =
     through (mkDepth max) (generate (depth_bounded (std_ops std) max) (pure_callback f) g fuel r)) /\
  (forall checks rec nonrec, generate (choose_weighted std checks) (pure_callback f) g fuel (mkWeighted rec nonrec r) =
     through (mkWeighted rec nonrec) (generate (weighted (std_ops std) checks rec nonrec) (pure_callback f) g fuel r)).
Proof. intros. split; intros; [apply depth_is_depth|apply weighted_is_weighted]. Qed.

Lemma C107_constructors_proof : forall R T (std : std_rng R) (sys : sys_rng T),
  seed_ok zero_seed /\ Forall (eq 0%N) zero_seed /\
  coverage_new std = coverage_from_seed std zero_seed /\ coverage_default std = coverage_from_seed std zero_seed /\
  weighted_default std = weighted_from_seed std 100 1 zero_seed /\
  (forall rec nonrec, weighted_new std rec nonrec = weighted_from_seed std rec nonrec zero_seed) /\
  (forall t s t', sys_fill sys t = (s, t') ->
     random_walk_default std sys t = (random_walk_from_seed std s, t') /\
     forall max, depth_bounded_new std sys max t = (depth_bounded_from_seed std max s, t')) /\
  forall s, random_walk_from_seed std s = from_seed std s /\ c_seen (coverage_from_seed std s) = [] /\ c_rng (coverage_from_seed std s) = from_seed std s /\
    (forall max, max_depth (depth_bounded_from_seed std max s) = max /\ d_rng (depth_bounded_from_seed std max s) = from_seed std s) /\
    forall rec nonrec, let w := weighted_from_seed std rec nonrec s in
      recursive_weight w = rec /\ non_recursive_weight w = nonrec /\ w_rng w = from_seed std s.
Proof.
  intros R T std sys. split; [split; [reflexivity|repeat constructor]|]. split; [repeat constructor|]. do 4 (split; [reflexivity|]). split.
  - intros t s t' E. unfold random_walk_default, depth_bounded_new. rewrite E. split; reflexivity.
  - intro s. repeat split.
Qed.

(** A generator for examples: the state is a list of numbers still to come, a seed is a list of
    numbers, and filling takes 32 of them. *)
Definition listed_fill (r : list nat) : seed * list nat :=
  (firstn 32 (map (fun n => N.of_nat n mod 256)%N r ++ zero_seed), skipn 32 r).
Lemma listed_fill_ok r : seed_ok (fst (listed_fill r)).
Proof.
  unfold listed_fill, seed_ok. cbn [fst]. split.
  - rewrite firstn_length, app_length. change (length zero_seed) with 32. unfold seed in *. lia.
  - apply Forall_forall. intros b Hb. assert (In b (map (fun n => N.of_nat n mod 256)%N r ++ zero_seed)) as H.
    { rewrite <- (firstn_skipn 32). apply in_or_app. left. exact Hb. }
    apply in_app_or in H. destruct H as [H|H].
    + apply in_map_iff in H. destruct H as (n & <- & _). apply N.mod_lt. discriminate.
    + apply repeat_spec in H. subst b. reflexivity.
Qed.
Definition listed : std_rng (list nat) := mkStd _ script_rng (map N.to_nat) listed_fill listed_fill_ok.
Definition listed_sys : sys_rng (list nat) := mkSys _ listed_fill listed_fill_ok.

(** Using one strategy for two sentences is not the same as two calls of [generate_seeded]. *)
Lemma C107_reuse_refuted_proof : exists R (std : std_rng R) g fuel r x1 x2 r' y2 s1 s2,
  seeded_sentences std fuel [g; g] r = Ok ([ROk x1; ROk x2], r') /\
  generate_with_strategy (random_walk (std_ops std)) g fuel (strategy_of std r) = Ok (ROk x1, s1) /\
  generate_with_strategy (random_walk (std_ops std)) g fuel s1 = Ok (ROk y2, s2) /\ x2 <> y2.
Proof.
  exists (list nat), listed, sum_grammar, 5, ([0; 1; 1; 0; 1; 1] ++ repeat 0 26 ++ [1]).
  do 6 eexists. split; [vm_compute; reflexivity|]. split; [vm_compute; reflexivity|]. split; [vm_compute; reflexivity|discriminate].
Qed.
