(** The last steps to C80. *)
From Verif Require Export IterateProofs Facts_Generation TextExamples ParseExamples.

Lemma C80_access_proof : forall p i g,
  production_len p = length (rhs_iter p) /\
  (production_is_empty p = true <-> rhs_iter p = []) /\
  get_expression p i = nth_error (rhs_iter p) i /\
  (get_expression p i = None <-> production_len p <= i) /\
  production_count g = length (productions_iter g) /\
  length (left_hand_terms g) = production_count g.
Proof.
  intros p i g. unfold production_len, production_is_empty, get_expression, production_count, rhs_iter, productions_iter, left_hand_terms.
  split; [reflexivity|]. split; [destruct (p_rhs p); split; congruence|]. split; [reflexivity|].
  split; [apply nth_error_None|]. split; [reflexivity|]. apply map_length.
Qed.

Lemma C80_order_proof : forall g t, In t (right_hand_terms g) <-> exists p e, In p g /\ In e (p_rhs p) /\ In t e.
Proof.
  intros g t. unfold right_hand_terms, productions_iter, rhs_iter, terms_iter. rewrite in_flat_map. split.
  - intros (e & He & Ht). apply in_flat_map in He. destruct He as (p & Hp & He). eauto.
  - intros (p & e & Hp & He & Ht). exists e. split; [|exact Ht]. apply in_flat_map. eauto.
Qed.

(** The consumer is called for the terms before the one at which it stops, and for that one. *)
Lemma C80_calls_proof : forall (A S : Type) (f : A -> S -> A * bool * S) l st l' more st',
  iter_mut f l st = (l', more, st') ->
  exists seen rest, l = seen ++ rest /\ skipn (length seen) l' = rest /\ length l' = length l /\
    (more = true -> rest = []) /\
    fold_left (fun acc x => let '(done, s) := acc in let '(x', _, s') := f x s in (done ++ [x'], s')) seen ([], st) =
      (firstn (length seen) l', st').
Proof.
  intros A S f. 
  assert (G : forall l st l' more st' pre, iter_mut f l st = (l', more, st') ->
    exists seen rest, l = seen ++ rest /\ skipn (length seen) l' = rest /\ length l' = length l /\
    (more = true -> rest = []) /\
    fold_left (fun acc x => let '(done, s) := acc in let '(x', _, s') := f x s in (done ++ [x'], s')) seen (pre, st) =
      (pre ++ firstn (length seen) l', st')).
  { induction l as [|x l IH]; intros st l' more st' pre H; cbn [iter_mut] in H.
    - injection H as <- <- <-. exists [], []. cbn. rewrite app_nil_r. auto.
    - destruct (f x st) as [[x' m] st1] eqn:E. destruct m.
      + destruct (iter_mut f l st1) as [[r' m2] st2] eqn:E2. injection H as <- <- <-.
        destruct (IH st1 r' m2 st2 (pre ++ [x']) E2) as (seen & rest & -> & Hs & Hl & Hm & Hf).
        exists (x :: seen), rest. cbn [length skipn firstn app fold_left]. rewrite E, Hf, <- app_assoc.
        split; [reflexivity|]. split; [exact Hs|]. split; [f_equal; exact Hl|]. split; [exact Hm|]. reflexivity.
      + injection H as <- <- <-. exists [x], l. cbn [length skipn firstn app fold_left]. rewrite E.
        split; [reflexivity|]. split; [reflexivity|]. split; [reflexivity|]. split; [discriminate|]. reflexivity. }
  intros l st l' more st' H. exact (G l st l' more st' [] H).
Qed.

Lemma C80_tree_proof : forall (S : Type) (f : pnode -> S -> pnode * bool * S) t st t' more st',
  tree_rhs_iter_mut f t st = (t', more, st') ->
  root t' = root t /\ iter_mut f (tree_rhs_iter t) st = (tree_rhs_iter t', more, st').
Proof.
  intros S f [l ks] st t' more st' H. cbn [tree_rhs_iter_mut] in H. destruct (iter_mut f ks st) as [[ks' m] s'] eqn:E.
  injection H as <- <- <-. split; [reflexivity|exact E].
Qed.

Lemma C80_loop_proof : forall (S : Type) (f : term -> S -> term * bool * S) g st g' more st',
  all_terms_mut f g st = (g', more, st') ->
  same_shape g g' /\ iter_mut f (right_hand_terms g) st = (right_hand_terms g', more, st').
Proof. intros S f g st g' more st'. apply all_terms_mut_flat. Qed.

Lemma C80_trees_proof : forall h g start input it,
  opens (map_terminals h g) start input it ->
  forall t', (exists ts itf, produces it ts itf /\ In t' ts) <->
             exists t, derives g t /\ root t = start /\ t' = map_leaves h t /\ yield t' = input.
Proof.
  intros h g start input it Ho t'. rewrite <- map_terminals_parses. split.
  - intros (ts & itf & Hp & Hi). exact (soundness _ _ _ _ _ _ _ Ho Hp Hi).
  - intro Hp. exact (completeness _ _ _ _ _ Ho Hp).
Qed.

Lemma C80_validation_proof : forall h ho g,
  validate ho (map_terminals h g) = validate ho g /\
  ((exists p p', build_parser ho g = ROk p /\ build_parser ho (map_terminals h g) = ROk p') \/
   (exists e, build_parser ho g = RErr e /\ build_parser ho (map_terminals h g) = RErr e)) /\
  (forall fuel, terminates fuel (map_terminals h g) = terminates fuel g).
Proof. intros h ho g. split; [apply validate_map|]. split; [apply build_parser_map|]. intro fuel. apply terminates_map. Qed.

Lemma C80_generation_proof : forall S (choose : S -> nat -> production -> nat -> res (option expression * S)) h ho g n p rest fuel st,
  lawful choose -> blind_to_terminals choose -> validate ho g = ROk tt ->
  g = p :: rest -> p_lhs p = Nonterminal n ->
  same_expansion h g n (generate_with_strategy choose g fuel st) (generate_with_strategy choose (map_terminals h g) fuel st).
Proof.
  intros S choose h ho g n p rest fuel st Hl Hb Hv Eg Hn. eapply generate_map; try eassumption.
  apply (proj1 (validate_spec ho g)) in Hv. exact (proj2 Hv).
Qed.

Lemma C80_strategies_proof : forall R (rng : rng_ops R) max checks rec nonrec,
  (blind_to_terminals (random_walk rng) /\ lawful (random_walk rng)) /\
  (blind_to_terminals (depth_bounded rng max) /\ lawful (depth_bounded rng max)) /\
  (blind_to_terminals (coverage_guided rng) /\ lawful (coverage_guided rng)) /\
  (blind_to_terminals (weighted rng checks rec nonrec) /\ lawful (weighted rng checks rec nonrec)).
Proof.
  intros. repeat split.
  - apply blind_random_walk.
  - apply lawful_random_walk.
  - apply blind_depth_bounded.
  - apply lawful_depth_bounded.
  - apply blind_coverage.
  - apply lawful_coverage_guided.
  - apply blind_weighted.
  - apply lawful_weighted.
Qed.

(** tests/iterate.rs:66-68, read. *)
Definition dna : grammar :=
  [mkProd (N_ "dna") [[N_ "dna"]; [N_ "base"; N_ "dna"]];
   mkProd (N_ "base") [[T_ "A"]; [T_ "C"]; [T_ "G"]; [T_ "T"]]].
(** tests/iterate.rs:81-84 *)
Definition to_z (t : term) (st : unit) : term * bool * unit :=
  (match t with Terminal _ => T_ "Z" | Nonterminal n => Nonterminal n end, true, st).
(** A consumer that leaves the loop at the first "C", counting. *)
Definition until_c (t : term) (n : nat) : term * bool * nat :=
  if term_eqb t (T_ "C") then (T_ "!", false, S n) else (t, true, S n).
