(** When generation is sure to end: specification. *)
From Coq Require Export Relations.
From Verif Require Export GenSpec Strategies.

(** Expanding [n] may expand [m] (by the first production of [n]; [m] is defined). *)
Definition calls (g : grammar) (n m : str) : Prop :=
  exists p e, first_for g n p /\ In e (p_rhs p) /\ In (Nonterminal m) e /\ has_lhs g m.

(** Expanding [start] may come to a nonterminal that may be expanded within itself. *)
Definition recursive (g : grammar) (start : str) : Prop :=
  exists n, clos_refl_trans _ (calls g) start n /\ clos_trans _ (calls g) n n.

(** The strategy answers every question about the grammar, with one of the alternatives. *)
Definition always_chooses {S} (choose : S -> nat -> production -> nat -> res (option expression * S)) (g : grammar) : Prop :=
  forall st addr p depth, In p g -> exists e st', choose st addr p depth = Ok (Some e, st') /\ In e (p_rhs p).

(** The character occurs in a terminal of the grammar. *)
Definition letter (g : grammar) (c : char) : Prop :=
  exists p e s, In p g /\ In e (p_rhs p) /\ In (Terminal s) e /\ In c s.

(** Several generations in a row with one strategy. *)
Fixpoint generations {S} (choose : S -> nat -> production -> nat -> res (option expression * S)) (g : grammar) (fuel k : nat) (st : S)
    : res (list (result str) * S) :=
  match k with
  | 0 => Ok ([], st)
  | Datatypes.S k => let* (w, st) := generate_with_strategy choose g fuel st in
                     let* (ws, st) := generations choose g fuel k st in
                     Ok (w :: ws, st)
  end.
