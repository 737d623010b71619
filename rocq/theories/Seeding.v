(** Where the random numbers come from: the constructors of the strategies in src/generation.rs and the
    entry points of src/grammar.rs which make a strategy themselves.

    Simplifications: [StdRng] is any type [R] with the draws of [rng_ops], a state for every seed
    ([SeedableRng::from_seed]) and the filling of a 32 byte array ([Rng::fill]); the generator of the
    operating system ([rand::rng()]) is any state type [T] that can fill such arrays.  The buffers
    of the structs are not part of the state (each is cleared before use). *)
From Verif Require Export Strategies.

(** [[u8; 32]]. *)
Definition seed : Type := list N.
Definition seed_ok (s : seed) : Prop := length s = 32 /\ Forall (fun b => b < 256)%N s.
(** [[0u8; 32]]. *)
Definition zero_seed : seed := repeat 0%N 32.

Record std_rng (R : Type) : Type := mkStd {
  std_ops : rng_ops R;
  from_seed : seed -> R;
  std_fill : R -> seed * R;
  std_fill_ok : forall r, seed_ok (fst (std_fill r))
}.
Arguments std_ops {R} _.
Arguments from_seed {R} _ _.
Arguments std_fill {R} _ _.

Record sys_rng (T : Type) : Type := mkSys {
  sys_fill : T -> seed * T;
  sys_fill_ok : forall t, seed_ok (fst (sys_fill t))
}.
Arguments sys_fill {T} _ _.

(** A strategy next to the state [C] of a callback: neither sees the other. *)
Definition beside {R C} (choose : R -> nat -> production -> nat -> res (option expression * R))
    (st : R * C) (addr : nat) (p : production) (depth : nat) : res (option expression * (R * C)) :=
  let* (e, r) := choose (fst st) addr p depth in Ok (e, (r, snd st)).
Definition callback_beside {R C} (accept : C -> str -> str -> bool * C) (st : R * C) (ident text : str) : bool * (R * C) :=
  let '(b, c) := accept (snd st) ident text in (b, (fst st, c)).

Section Seeding.
  Context {R T : Type} (std : std_rng R) (sys : sys_rng T).

  (** src/generation.rs:32-50 RandomWalk [default], [from_seed]. *)
  Definition random_walk_default (t : T) : R * T := let '(s, t) := sys_fill sys t in (from_seed std s, t).
  Definition random_walk_from_seed (s : seed) : R := from_seed std s.

  (** src/generation.rs:64-72 DepthBounded: the public limit and the generator. *)
  Record depth_state : Type := mkDepth { max_depth : nat; d_rng : R }.
  (** src/generation.rs:76-84, 88-94 *)
  Definition depth_bounded_new (max : nat) (t : T) : depth_state * T :=
    let '(s, t) := sys_fill sys t in (mkDepth max (from_seed std s), t).
  Definition depth_bounded_from_seed (max : nat) (s : seed) : depth_state := mkDepth max (from_seed std s).
  Definition choose_depth_bounded (d : depth_state) (addr : nat) (p : production) (depth : nat) : res (option expression * depth_state) :=
    let* (e, r) := depth_bounded (std_ops std) (max_depth d) (d_rng d) addr p depth in Ok (e, mkDepth (max_depth d) r).

  (** src/generation.rs:152-178 CoverageGuided *)
  Definition coverage_default : coverage := mkCov [] (from_seed std zero_seed).
  Definition coverage_new : coverage := coverage_default.
  Definition coverage_from_seed (s : seed) : coverage := mkCov [] (from_seed std s).

  (** src/generation.rs:214-222 Weighted: the public weights and the generator. *)
  Record weighted_state : Type := mkWeighted { recursive_weight : N; non_recursive_weight : N; w_rng : R }.
  (** src/generation.rs:224-256 *)
  Definition weighted_default : weighted_state := mkWeighted 100 1 (from_seed std zero_seed).
  Definition weighted_new (rec nonrec : N) : weighted_state := mkWeighted rec nonrec (w_rng weighted_default).
  Definition weighted_from_seed (rec nonrec : N) (s : seed) : weighted_state := mkWeighted rec nonrec (from_seed std s).
  Definition choose_weighted (checks : bool) (w : weighted_state) (addr : nat) (p : production) (depth : nat)
      : res (option expression * weighted_state) :=
    let* (e, r) := weighted (std_ops std) checks (recursive_weight w) (non_recursive_weight w) (w_rng w) addr p depth in
    Ok (e, mkWeighted (recursive_weight w) (non_recursive_weight w) r).

  (** src/grammar.rs:618-627 [generate_seeded_callback]: the result, the caller's generator and the
      state of the callback.  The strategy is dropped. *)
  Definition generate_seeded_callback {C} (accept : C -> str -> str -> bool * C) (g : grammar) (fuel : nat) (r : R) (c : C)
      : res (result str * R * C) :=
    let '(s, r) := std_fill std r in
    let* (x, st) := generate (beside (random_walk (std_ops std))) (callback_beside accept) g fuel (random_walk_from_seed s, c) in
    Ok (x, r, snd st).

  (** src/grammar.rs:595-600 [generate_seeded]. *)
  Definition generate_seeded (g : grammar) (fuel : nat) (r : R) : res (result str * R) :=
    let '(s, r) := std_fill std r in
    let* (x, _) := generate_with_strategy (random_walk (std_ops std)) g fuel (random_walk_from_seed s) in
    Ok (x, r).

  (** src/grammar.rs:714-720 [generate_callback]: a generator seeded by the system makes the seed of
      the strategy. *)
  Definition generate_callback {C} (accept : C -> str -> str -> bool * C) (g : grammar) (fuel : nat) (t : T) (c : C)
      : res (result str * T * C) :=
    let '(s, t) := sys_fill sys t in
    let* (x, _, c) := generate_seeded_callback accept g fuel (from_seed std s) c in
    Ok (x, t, c).

  (** src/grammar.rs:694-696 [generate]. *)
  Definition generate_fresh (g : grammar) (fuel : nat) (t : T) : res (result str * T) :=
    let* (x, t, _) := generate_callback (fun c _ _ => (true, c)) g fuel t tt in Ok (x, t).

  (** A program that generates one sentence after the other with the same generator, as the
      benchmarks do (benches/divan.rs:40-44, 88-92). *)
  Fixpoint seeded_sentences (fuel : nat) (gs : list grammar) (r : R) : res (list (result str) * R) :=
    match gs with
    | [] => Ok ([], r)
    | g :: gs => let* (x, r) := generate_seeded g fuel r in
                 let* (xs, r) := seeded_sentences fuel gs r in
                 Ok (x :: xs, r)
    end.
End Seeding.
Arguments depth_state : clear implicits.
Arguments weighted_state : clear implicits.

(** ** Specification *)

(** The caller's generator after a sentence, and the state the strategy for the sentence begins with. *)
Definition after {R} (std : std_rng R) (r : R) : R := snd (std_fill std r).
Definition strategy_of {R} (std : std_rng R) (r : R) : R := from_seed std (fst (std_fill std r)).

(** Replacing the state [st] by [phi st] everywhere. *)
Definition through {S S' A} (phi : S -> S') (x : res (A * S)) : res (A * S') := let* (a, st) := x in Ok (a, phi st).

(** [calls accept c log c']: the calls of [log], one after the other, take the callback from the state [c] to [c'] with the
    answers of [log]. *)
Inductive calls {C} (accept : C -> str -> str -> bool * C) : C -> list (str * str * bool) -> C -> Prop :=
| calls_none c : calls accept c [] c
| calls_next c n w b c1 log c2 : accept c n w = (b, c1) -> calls accept c1 log c2 -> calls accept c ((n, w, b) :: log) c2.
