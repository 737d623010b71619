(** Several sentences generated one after the other with the same strategy object, and which
    alternatives are chosen on the way. *)
From Verif Require Export TraceSpec Generation.

(** [generate_seeded_callback_with_strategy] called [k] times; the strategy keeps its state. *)
Fixpoint generate_times {S} (choose : S -> nat -> production -> nat -> res (option expression * S))
    (accept : S -> str -> str -> bool * S) (g : grammar) (fuel k : nat) (st : S) : res (list (result str) * S) :=
  match k with
  | 0 => Ok ([], st)
  | Datatypes.S k =>
      let* (r, st) := generate choose accept g fuel st in
      let* (rs, st) := generate_times choose accept g fuel k st in
      Ok (r :: rs, st)
  end.

(** The alternatives chosen from the production [p], in order. *)
Definition chosen_from (p : production) (evs : list event) : list expression :=
  flat_map (fun ev => match ev with
                      | Chose q _ (Some e) => if production_eq_dec q p then [e] else []
                      | _ => []
                      end) evs.

(** Whatever is chosen, expanding [n] expands [m] too. *)
Inductive unavoidable (g : grammar) (m : str) : str -> Prop :=
| un_self : unavoidable g m m
| un_rule n p (next : expression -> str) : first_for g n p ->
    (forall e, In e (p_rhs p) -> In (Nonterminal (next e)) e) ->
    (forall e, In e (p_rhs p) -> unavoidable g m (next e)) -> unavoidable g m n.

(** The text of an alternative without nonterminals. *)
Definition flat_text (e : expression) : str :=
  flat_map (fun t => match t with Terminal s => s | Nonterminal _ => [] end) e.
