(** The built-in strategies: src/generation.rs.

    [StdRng] is an arbitrary random stream: a state type [R] with drawing functions for
    [random_range(0..n)] on [usize] and [u32].  The only law used is that a draw lies in the
    range; [random_range] on an empty range panics.  The reusable buffers of the Rust structs
    are local values here (each is cleared before use).  The constructors ([new], [from_seed],
    [Default]) only fix the initial state; every theorem quantifies over it.  They are modelled in
    Seeding.v. *)
From Verif Require Export Generation.

(** The random number generator. *)
Record rng_ops (R : Type) : Type := mkRng {
  draw_usize : R -> nat -> nat * R;
  draw_u32 : R -> N -> N * R;
  draw_usize_lt : forall r n, 0 < n -> fst (draw_usize r n) < n;
  draw_u32_lt : forall r n, (0 < n)%N -> (fst (draw_u32 r n) < n)%N
}.
Arguments draw_usize {R} _ _ _.
Arguments draw_u32 {R} _ _ _.

Section Strategies.
  Context {R : Type} (rng : rng_ops R).

  (** src/generation.rs:128-130 *)
  Definition random_index (r : R) (len : nat) : res (nat * R) :=
    if Nat.eqb len 0 then Panic else Ok (draw_usize rng r len).

  (** src/generation.rs:52-58 RandomWalk.  The [debug_assert!] repeats the panic of an empty range. *)
  Definition random_walk (r : R) (addr : nat) (p : production) (depth : nat) : res (option expression * R) :=
    let* (idx, r) := random_index r (length (p_rhs p)) in
    Ok (nth_error (p_rhs p) idx, r).

  (** src/generation.rs:97-101 *)
  Definition expression_all_terminals (e : expression) : bool :=
    forallb (fun t => match t with Terminal _ => true | Nonterminal _ => false end) e.

  (** Indices of the elements satisfying a test, ascending. *)
  Fixpoint indices_where {A} (f : nat -> A -> bool) (i : nat) (l : list A) : list nat :=
    match l with
    | nil => []
    | x :: l => if f i x then i :: indices_where f (S i) l else indices_where f (S i) l
    end.

  (** src/generation.rs:116-123, 190-197: pick from the buffer, or any index. *)
  Definition pick_from (r : R) (buf : list nat) (len : nat) : res (nat * R) :=
    match buf with
    | nil => random_index r len
    | _ => let* (i, r) := random_index r (length buf) in
           let* idx := expect (nth_error buf i) in
           Ok (idx, r)
    end.

  (** src/generation.rs:105-124 *)
  Definition depth_bounded_eligible (max_depth : nat) (p : production) (depth : nat) : list nat :=
    if Nat.leb max_depth depth then indices_where (fun _ e => expression_all_terminals e) 0 (p_rhs p)
    else seq 0 (length (p_rhs p)).

  (** src/generation.rs:132-138 DepthBounded. *)
  Definition depth_bounded (max_depth : nat) (r : R) (addr : nat) (p : production) (depth : nat)
      : res (option expression * R) :=
    let* (idx, r) := pick_from r (depth_bounded_eligible max_depth p depth) (length (p_rhs p)) in
    Ok (nth_error (p_rhs p) idx, r).

  (** src/generation.rs:143-150 CoverageGuided: the set [seen] and the generator. *)
  Record coverage : Type := mkCov { c_seen : list (nat * nat); c_rng : R }.

  Definition seen_eqb (a b : nat * nat) : bool := Nat.eqb (fst a) (fst b) && Nat.eqb (snd a) (snd b).

  (** src/generation.rs:182-198 and 201-208; returns the index as well as the expression. *)
  Definition coverage_index (c : coverage) (addr : nat) (p : production) : res (nat * coverage) :=
    let buf := filter (fun i => negb (memb seen_eqb (addr, i) (c_seen c))) (seq 0 (length (p_rhs p))) in
    let* (idx, r) := pick_from (c_rng c) buf (length (p_rhs p)) in
    Ok (idx, mkCov ((addr, idx) :: c_seen c) r).
  Definition coverage_guided (c : coverage) (addr : nat) (p : production) (depth : nat)
      : res (option expression * coverage) :=
    let* (idx, c) := coverage_index c addr p in
    Ok (nth_error (p_rhs p) idx, c).

  (** src/generation.rs:258-260 *)
  Definition expression_contains (e : expression) (t : term) : bool := existsb (fun x => term_eqb x t) e.

  (** src/generation.rs:263-274 *)
  Definition fill_weights (rec nonrec : N) (p : production) : list N :=
    map (fun e => if expression_contains e (p_lhs p) then rec else nonrec) (p_rhs p).

  Definition u32_max_plus_1 : N := 4294967296%N.

  (** [weights.iter().sum::<u32>()]: with overflow checks (debug profile) it panics on overflow,
      without (release profile) it wraps. *)
  Definition sum_u32 (checks : bool) (ws : list N) : res N :=
    let total := fold_right N.add 0%N ws in
    if checks && N.leb u32_max_plus_1 total then Panic else Ok (N.modulo total u32_max_plus_1).

  (** src/generation.rs:283-289 *)
  Fixpoint weighted_scan (ws : list N) (i : nat) (r : N) : option nat :=
    match ws with
    | nil => None
    | w :: ws => if N.ltb r w then Some i else weighted_scan ws (S i) (r - w)
    end.

  (** src/generation.rs:277-290 *)
  Definition weighted_random_index (checks : bool) (r : R) (ws : list N) (fallback_len : nat) : res (nat * R) :=
    let* total := sum_u32 checks ws in
    if N.eqb total 0 then random_index r fallback_len
    else let '(x, r) := draw_u32 rng r total in
         Ok (match weighted_scan ws 0 x with Some i => i | None => length ws - 1 end, r).

  (** src/generation.rs:293-300 Weighted. *)
  Definition weighted (checks : bool) (rec nonrec : N) (r : R) (addr : nat) (p : production) (depth : nat)
      : res (option expression * R) :=
    let* (idx, r) := weighted_random_index checks r (fill_weights rec nonrec p) (length (p_rhs p)) in
    Ok (nth_error (p_rhs p) idx, r).
End Strategies.

(** src/grammar.rs:595-600, 618-627 [generate_seeded], [generate_seeded_callback]: RandomWalk on a
    generator seeded from the caller's generator; 695-720 [generate], [generate_callback]: the
    same with a fresh generator.  All are this function on some initial generator state (C107). *)
Definition generate_random {R} (rng : rng_ops R) (f : str -> str -> bool) (g : grammar) (fuel : nat) (r : R)
    : res (result str * R) :=
  generate (random_walk rng) (pure_callback f) g fuel r.
