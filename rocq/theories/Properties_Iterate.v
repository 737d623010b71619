(** C80: accessors and iterators, and editing a grammar through them.  The iterators are in
    Iterate.v, with [same_shape] and [map_terminals]; [map_leaves], [blind_to_terminals] and
    [same_expansion] are in IterateSpec.v. *)
From Verif Require Import Facts_Iterate.

Theorem C80_access : forall p i g,
  production_len p = List.length (rhs_iter p) /\
  (production_is_empty p = true <-> rhs_iter p = []) /\
  get_expression p i = nth_error (rhs_iter p) i /\
  (get_expression p i = None <-> production_len p <= i) /\
  production_count g = List.length (productions_iter g) /\
  List.length (left_hand_terms g) = production_count g.
Proof. exact C80_access_proof. Qed.
Print Assumptions C80_access.

Theorem C80_right_hand_terms : forall g t, In t (right_hand_terms g) <-> exists p e, In p g /\ In e (p_rhs p) /\ In t e.
Proof. exact C80_order_proof. Qed.
Print Assumptions C80_right_hand_terms.

(** A loop over a mutable iterator: the consumer is called for the elements of a prefix, in order;
    they are replaced by what it leaves, the others stay. *)
Theorem C80_calls : forall (A S : Type) (f : A -> S -> A * bool * S) l st l' more st',
  iter_mut f l st = (l', more, st') ->
  exists seen rest, l = seen ++ rest /\ skipn (List.length seen) l' = rest /\ List.length l' = List.length l /\
    (more = true -> rest = []) /\
    fold_left (fun acc x => let '(done, s) := acc in let '(x', _, s') := f x s in (done ++ [x'], s')) seen ([], st) =
      (firstn (List.length seen) l', st').
Proof. exact C80_calls_proof. Qed.
Print Assumptions C80_calls.

(** The flattened loop over all terms of a grammar is a loop over the list of its terms, and
    changes nothing but those terms. *)
Theorem C80_loop : forall (S : Type) (f : term -> S -> term * bool * S) g st g' more st',
  all_terms_mut f g st = (g', more, st') ->
  same_shape g g' /\ iter_mut f (right_hand_terms g) st = (right_hand_terms g', more, st').
Proof. exact C80_loop_proof. Qed.
Print Assumptions C80_loop.

(** The mutable iterator of a parse tree goes over the children of the root. *)
Theorem C80_tree : forall (S : Type) (f : pnode -> S -> pnode * bool * S) t st t' more st',
  tree_rhs_iter_mut f t st = (t', more, st') ->
  root t' = root t /\ iter_mut f (tree_rhs_iter t) st = (tree_rhs_iter t', more, st').
Proof. exact C80_tree_proof. Qed.
Print Assumptions C80_tree.

(** Rewriting all terminals. *)
Theorem C80_rewrite : forall (S : Type) (h : str -> str) g (st : S),
  all_terms_mut (filtered (fun t => negb (is_nonterminal t))
                   (fun t st => (match t with Terminal s => Terminal (h s) | Nonterminal n => Nonterminal n end, true, st))) g st =
  (map_terminals h g, true, st).
Proof. exact @rewrite_terminals. Qed.
Print Assumptions C80_rewrite.

(** The rewritten grammar has the rewritten trees. *)
Theorem C80_trees : forall h g start input it,
  opens (map_terminals h g) start input it ->
  forall t', (exists ts itf, produces it ts itf /\ In t' ts) <->
             exists t, derives g t /\ root t = start /\ t' = map_leaves h t /\ yield t' = input.
Proof. exact C80_trees_proof. Qed.
Print Assumptions C80_trees.

Theorem C80_validation : forall h ho g,
  validate ho (map_terminals h g) = validate ho g /\
  ((exists p p', build_parser ho g = ROk p /\ build_parser ho (map_terminals h g) = ROk p') \/
   (exists e, build_parser ho g = RErr e /\ build_parser ho (map_terminals h g) = RErr e)) /\
  (forall fuel, terminates fuel (map_terminals h g) = terminates fuel g).
Proof. exact C80_validation_proof. Qed.
Print Assumptions C80_validation.

(** Generation makes the same choices. *)
Theorem C80_generation : forall S (choose : S -> nat -> production -> nat -> res (option expression * S)) h ho g n p rest fuel st,
  lawful choose -> blind_to_terminals choose -> validate ho g = ROk tt ->
  g = p :: rest -> p_lhs p = Nonterminal n ->
  same_expansion h g n (generate_with_strategy choose g fuel st) (generate_with_strategy choose (map_terminals h g) fuel st).
Proof. exact C80_generation_proof. Qed.
Print Assumptions C80_generation.

Theorem C80_strategies : forall R (rng : rng_ops R) max checks rec nonrec,
  (blind_to_terminals (random_walk rng) /\ lawful (random_walk rng)) /\
  (blind_to_terminals (depth_bounded rng max) /\ lawful (depth_bounded rng max)) /\
  (blind_to_terminals (coverage_guided rng) /\ lawful (coverage_guided rng)) /\
  (blind_to_terminals (weighted rng checks rec nonrec) /\ lawful (weighted rng checks rec nonrec)).
Proof. exact C80_strategies_proof. Qed.
Print Assumptions C80_strategies.

(** tests/iterate.rs: all terminals become "Z"; and a loop that is left at the sixth term.  The
    sentence "a+a+a" becomes "bb+bb+bb". *)
Example C80_example :
  all_terms_mut (filtered (fun t => negb (is_nonterminal t)) to_z) dna tt =
    ([mkProd (N_ "dna") [[N_ "dna"]; [N_ "base"; N_ "dna"]];
      mkProd (N_ "base") [[T_ "Z"]; [T_ "Z"]; [T_ "Z"]; [T_ "Z"]]], true, tt) /\
  all_terms_mut until_c dna 0 =
    ([mkProd (N_ "dna") [[N_ "dna"]; [N_ "base"; N_ "dna"]];
      mkProd (N_ "base") [[T_ "A"]; [T_ "!"]; [T_ "G"]; [T_ "T"]]], false, 5) /\
  tree_rhs_iter_mut (fun _ st => (Leaf (lit "Z"), false, st)) (Node (N_ "s") [Sub (Node (N_ "t") []); Leaf (lit "a")]) tt =
    (Node (N_ "s") [Leaf (lit "Z"); Leaf (lit "a")], false, tt) /\
  generate_random script_rng (fun _ _ => true) sum_grammar 20 [0; 1; 0; 1; 1] = Ok (ROk (lit "a+a+a"), []) /\
  generate_random script_rng (fun _ _ => true) (map_terminals (fun s => if str_eqb s (lit "a") then lit "bb" else s) sum_grammar) 20
    [0; 1; 0; 1; 1] = Ok (ROk (lit "bb+bb+bb"), []) /\
  validate id_order sum_grammar = ROk tt.
Proof. repeat split; vm_compute; reflexivity. Qed.
