(** How many random draws a sentence takes on average. *)
From Verif Require Export WalkSpec.

(** The sum of [W] over the nonterminals of an alternative. *)
Definition load (W : str -> nat) (e : expression) : nat :=
  list_sum (map (fun t => match t with Nonterminal n => W n | Terminal _ => 0 end) e).

(** [W d n / K] is an estimate of the draws below a nonterminal [n] expanded at depth [d] that is
    consistent with the rules: one draw, and the average over the alternatives of what their
    nonterminals need, do not exceed it. *)
Definition estimate (g : grammar) (alts : nat -> production -> list expression) (K : nat) (W : nat -> str -> nat) : Prop :=
  forall d n p, first_for g n p -> choosable p ->
    K * length (alts d p) + list_sum (map (load (W (d + 1))) (alts d p)) <= W d n * length (alts d p).

(** Over the lists of [len] numbers below [base], of which those of [R] make [run] return after the
    number of draws given with them, and those of [late] do not make it return within [len] draws:
    at most the share [W / K] of draws is taken on average. *)
Definition average_draws (run : (nat -> nat) -> nat -> res (result str * nat)) (base len K W : nat) : Prop :=
  forall (R : list (list nat * nat)) (late : list (list nat)),
    NoDup (map fst R) -> NoDup late ->
    (forall s l, In (s, l) R -> In s (scripts base len) /\ l <= len /\ exists fuel r, run (source s) fuel = Ok (r, l)) ->
    (forall s, In s late -> In s (scripts base len) /\ ~ exists fuel r l, l <= len /\ run (source s) fuel = Ok (r, l)) ->
    K * (list_sum (map snd R) + len * length late) <= W * base ^ len.

(** Whichever lists [R] makes [run] return, if every list is in [R] or in [late], and the lists of
    [late] are counted with [len] draws: at least [B] draws are taken on average. *)
Definition average_at_least (run : (nat -> nat) -> nat -> res (result str * nat)) (base len B : nat) : Prop :=
  forall (R : list (list nat * nat)) (late : list (list nat)),
    (forall s, In s (scripts base len) -> In s (map fst R) \/ In s late) ->
    (forall s l, In (s, l) R -> In s (scripts base len) /\ l <= len /\ exists fuel r, run (source s) fuel = Ok (r, l)) ->
    B * base ^ len <= list_sum (map snd R) + len * length late.
