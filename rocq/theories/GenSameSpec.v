(** What a grammar shows to the generator: the first production of every nonterminal that the expansion of
    the starting rule can come to. *)
From Verif Require Export GenSpec RenameSpec Strategies.
From Coq Require Export Relations.

(** The first production for [n] has an alternative with [m] in it. *)
Definition mentions (g : grammar) (n m : str) : Prop :=
  exists p e, first_for g n p /\ In e (p_rhs p) /\ In (Nonterminal m) e.
Definition expands_to (g : grammar) (start n : str) : Prop := clos_refl_trans str (mentions g) start n.

(** [g'] has the same first productions under the renaming [h]; names without a production stay, as they
    are printed. *)
Definition shows (h : str -> str) (g : grammar) (start : str) (g' : grammar) : Prop :=
  (forall n p, expands_to g start n -> first_for g n p ->
     exists p', first_for g' (h n) p' /\ p_rhs p' = map (map (rename h)) (p_rhs p)) /\
  (forall n, expands_to g start n -> ~ has_lhs g n -> h n = n /\ ~ has_lhs g' n).
(** Different names stay different. *)
Definition keeps_apart (h : str -> str) (g : grammar) (start : str) : Prop :=
  forall n m, expands_to g start n -> expands_to g start m -> h n = h m -> n = m.

(** The left-hand side of the first production. *)
Definition begins (g : grammar) (n : str) : Prop := exists p rest, g = p :: rest /\ p_lhs p = Nonterminal n.

(** The same outcome, in states related by [T]. *)
Definition same_outcome {A S S' : Type} (T : S -> S' -> Prop) (x : res (A * S)) (x' : res (A * S')) : Prop :=
  match x, x' with
  | Ok (a, st), Ok (a', st') => a = a' /\ T st st'
  | Panic, Panic => True
  | OutOfFuel, OutOfFuel => True
  | _, _ => False
  end.

(** Two strategies that pick corresponding alternatives of corresponding productions. *)
Definition corresponding {S S'} (h : str -> str) (g : grammar) (start : str) (g' : grammar) (T : S -> S' -> Prop)
    (choose : S -> nat -> production -> nat -> res (option expression * S))
    (choose' : S' -> nat -> production -> nat -> res (option expression * S')) : Prop :=
  forall n ix p ix' p' depth st st', expands_to g start n ->
    find_production g n 0 = Some (ix, p) -> find_production g' (h n) 0 = Some (ix', p') ->
    p_rhs p' = map (map (rename h)) (p_rhs p) -> T st st' ->
    match choose st ix p depth, choose' st' ix' p' depth with
    | Ok (Some e, st1), Ok (e', st1') => In e (p_rhs p) /\ e' = Some (map (rename h) e) /\ T st1 st1'
    | Ok (None, st1), Ok (e', st1') => e' = None /\ T st1 st1'
    | Panic, Panic => True
    | OutOfFuel, OutOfFuel => True
    | _, _ => False
    end.

(** The built-in strategies give the same results and leave the random generator in the same state, with the
    callback [f] on [g] and [f'] on [g']; [CoverageGuided] starts without memory. *)
Definition same_generation (g : grammar) (f : str -> str -> bool) (g' : grammar) (f' : str -> str -> bool) : Prop :=
  forall R (rng : rng_ops R) (r r' : R) (w : result str),
    ((exists fuel, generate (random_walk rng) (pure_callback f) g fuel r = Ok (w, r')) <->
     (exists fuel, generate (random_walk rng) (pure_callback f') g' fuel r = Ok (w, r'))) /\
    (forall max,
     (exists fuel, generate (depth_bounded rng max) (pure_callback f) g fuel r = Ok (w, r')) <->
     (exists fuel, generate (depth_bounded rng max) (pure_callback f') g' fuel r = Ok (w, r'))) /\
    (forall checks rec nonrec,
     (exists fuel, generate (weighted rng checks rec nonrec) (pure_callback f) g fuel r = Ok (w, r')) <->
     (exists fuel, generate (weighted rng checks rec nonrec) (pure_callback f') g' fuel r = Ok (w, r'))) /\
    ((exists fuel c, generate (coverage_guided rng) (pure_callback f) g fuel (mkCov [] r) = Ok (w, c) /\ c_rng c = r') <->
     (exists fuel c, generate (coverage_guided rng) (pure_callback f') g' fuel (mkCov [] r) = Ok (w, c) /\ c_rng c = r')).
