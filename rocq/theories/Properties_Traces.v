(** C62, C63: the questions a generator asks its strategy and its callback.  [event], [dialogue],
    [choosable] are in TraceSpec.v; [traced_choose], [traced_accept] (which only record),
    [replay_choose], [replay_accept] (which give recorded answers to recorded questions) and
    [debug_asserted] are in TraceProofs.v. *)
From Verif Require Import ParseExamples StrategyProofs TraceProofs.

(** C62 *)
Theorem C62_dialogue : forall S (choose : S -> nat -> production -> nat -> res (option expression * S)) accept g fuel st r st',
  generate choose accept g fuel st = Ok (r, st') -> exists evs,
    generate (traced_choose choose) (traced_accept accept) g fuel (st, []) = Ok (r, (st', rev evs)) /\
    ((evs = [] /\ st' = st /\ exists m, r = RErr (GenerateError m)) \/
     exists n p rest, g = p :: rest /\ p_lhs p = Nonterminal n /\
       dialogue g (GenerateError msg_no_alternative) (GenerateError msg_no_selection) 0 n evs r).
Proof. exact @generate_traced. Qed.
Print Assumptions C62_dialogue.

(** Conversely every dialogue happens, with the strategy and callback that give its answers; none
    of its answers is left over. *)
Theorem C62_every_dialogue : forall g p rest n evs r fuel0,
  g = p :: rest -> p_lhs p = Nonterminal n -> terminates fuel0 g = Ok true ->
  dialogue g (GenerateError msg_no_alternative) (GenerateError msg_no_selection) 0 n evs r ->
  exists k, forall fuel, k <= fuel -> generate replay_choose replay_accept g fuel evs = Ok (r, []).
Proof. exact generate_replay. Qed.
Print Assumptions C62_every_dialogue.

(** <s> ::= <t> <t>, <t> ::= 'a' | 'b': the callback refuses "a" for <t> and "bb" for <s> the
    first time; the latest event is first. *)
Example C62_example :
  let s := mkProd (N_ "s") [[N_ "t"; N_ "t"]; [N_ "t"]] in let t := mkProd (N_ "t") [[T_ "a"]; [T_ "b"]] in
  let f := fun n w => negb (list_eqb N.eqb w (lit "a") || list_eqb N.eqb w (lit "bb")) in
  generate (traced_choose (random_walk script_rng)) (traced_accept (pure_callback f)) pair_grammar 20 ([0; 0; 1; 1; 1; 1], [])
  = Ok (ROk (lit "b"), ([], rev
      [ Chose s 0 (Some [N_ "t"; N_ "t"]);
          Chose t 1 (Some [T_ "a"]); Asked (lit "t") (lit "a") false;
          Chose t 1 (Some [T_ "b"]); Asked (lit "t") (lit "b") true;
          Chose t 1 (Some [T_ "b"]); Asked (lit "t") (lit "b") true;
        Asked (lit "s") (lit "bb") false;
        Chose s 0 (Some [N_ "t"]);
          Chose t 1 (Some [T_ "b"]); Asked (lit "t") (lit "b") true;
        Asked (lit "s") (lit "b") true ])).
Proof. vm_compute. reflexivity. Qed.

(** C63 *)
Theorem C63_debug_assert : forall S (choose : S -> nat -> production -> nat -> res (option expression * S)) accept g fuel st r st',
  generate choose accept g fuel st = Ok (r, st') -> exists evs,
    generate (traced_choose choose) (traced_accept accept) g fuel (st, []) = Ok (r, (st', rev evs)) /\
    (((forall p d e, In (Chose p d (Some e)) evs -> In e (p_rhs p)) /\
      generate (debug_asserted choose) accept g fuel st = Ok (r, st')) \/
     ((exists p d e, In (Chose p d (Some e)) evs /\ ~ In e (p_rhs p)) /\
      generate (debug_asserted choose) accept g fuel st = Panic)).
Proof. exact @debug_spec. Qed.
Print Assumptions C63_debug_assert.

(** With the assertion every strategy satisfies the hypothesis [lawful] of C16-C18. *)
Theorem C63_debug_lawful : forall S (choose : S -> nat -> production -> nat -> res (option expression * S)),
  lawful (debug_asserted choose).
Proof. exact @debug_lawful. Qed.
Print Assumptions C63_debug_lawful.

(** It never fires for a strategy that keeps to the alternatives. *)
Theorem C63_debug_same : forall S (choose : S -> nat -> production -> nat -> res (option expression * S)) accept g,
  lawful choose -> forall fuel st,
  generate (debug_asserted choose) accept g fuel st = generate choose accept g fuel st.
Proof. exact @debug_same. Qed.
Print Assumptions C63_debug_same.

(** The strategies of the library keep to the alternatives. *)
Theorem C63_shipped : forall R (rng : rng_ops R),
  lawful (random_walk rng) /\ (forall m, lawful (depth_bounded rng m)) /\ lawful (coverage_guided rng) /\
  (forall checks rec nonrec, lawful (weighted rng checks rec nonrec)).
Proof.
  exact (fun R rng => conj (lawful_random_walk rng) (conj (lawful_depth_bounded rng)
    (conj (lawful_coverage_guided rng) (lawful_weighted rng)))).
Qed.
Print Assumptions C63_shipped.

(** A strategy that always answers 'z': the release build writes z, the debug build panics. *)
Example C63_example : let foreign := fun (st : unit) (addr : nat) (p : production) (depth : nat) => Ok (Some [T_ "z"], st) in
  generate foreign (pure_callback (fun _ _ => true)) pair_grammar 5 tt = Ok (ROk (lit "z"), tt) /\
  generate (debug_asserted foreign) (pure_callback (fun _ _ => true)) pair_grammar 5 tt = Panic.
Proof. split; vm_compute; reflexivity. Qed.
