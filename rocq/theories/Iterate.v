(** The accessors and iterators of the data types: src/expression.rs:66-74, src/production.rs:57-84,
    src/grammar.rs:174-182 and 354-367.

    The immutable iterators are those of the underlying slices, that is, the list itself.  A mutable
    iterator hands out a reference to every element, once each and in order.  What its consumer does
    is an arbitrary function of the element and of a state of its own: it returns the element as
    it leaves it, and whether it asks for another one. *)
From Verif Require Export Syntax Earley.

(** src/expression.rs:66-69 *)
Definition terms_iter (e : expression) : list term := e.
(** src/production.rs:57-60 *)
Definition rhs_iter (p : production) : list expression := p_rhs p.
(** src/production.rs:68-72 *)
Definition production_len (p : production) : nat := length (p_rhs p).
(** src/production.rs:74-78 *)
Definition production_is_empty (p : production) : bool := match p_rhs p with [] => true | _ => false end.
(** src/production.rs:80-84 [self.rhs.get(index)] *)
Definition get_expression (p : production) (i : nat) : option expression := nth_error (p_rhs p) i.
(** src/grammar.rs:354-357 *)
Definition productions_iter (g : grammar) : list production := g.
(** src/grammar.rs:359-362 *)
Definition production_count (g : grammar) : nat := length g.

(** src/grammar.rs:174-177 *)
Definition tree_rhs_iter (t : ptree) : list pnode := match t with Node _ ks => ks end.

Section Mutable.
  Context {S : Type}.

  (** A loop over [iter_mut()] of a slice.  [false] in the result: the loop was left by [break]. *)
  Fixpoint iter_mut {A} (f : A -> S -> A * bool * S) (l : list A) (st : S) : list A * bool * S :=
    match l with
    | [] => ([], true, st)
    | x :: r =>
        let '(x', more, st) := f x st in
        if more then let '(r', more, st) := iter_mut f r st in (x' :: r', more, st)
        else (x' :: r, false, st)
    end.

  (** src/expression.rs:71-74 *)
  Definition terms_iter_mut (f : term -> S -> term * bool * S) (e : expression) (st : S) : expression * bool * S :=
    iter_mut f e st.
  (** src/production.rs:62-65 *)
  Definition rhs_iter_mut (f : expression -> S -> expression * bool * S) (p : production) (st : S)
      : production * bool * S :=
    let '(rhs, more, st) := iter_mut f (p_rhs p) st in (mkProd (p_lhs p) rhs, more, st).
  (** src/grammar.rs:364-367 *)
  Definition productions_iter_mut (f : production -> S -> production * bool * S) (g : grammar) (st : S)
      : grammar * bool * S :=
    iter_mut f g st.

  (** src/grammar.rs:179-182 *)
  Definition tree_rhs_iter_mut (f : pnode -> S -> pnode * bool * S) (t : ptree) (st : S) : ptree * bool * S :=
    match t with Node l ks => let '(ks, more, st) := iter_mut f ks st in (Node l ks, more, st) end.

  (** The iterators flattened as in tests/iterate.rs:71-79:
      [g.productions_iter_mut().flat_map(rhs_iter_mut).flat_map(terms_iter_mut)]. *)
  Definition all_terms_mut (f : term -> S -> term * bool * S) (g : grammar) (st : S) : grammar * bool * S :=
    productions_iter_mut (rhs_iter_mut (terms_iter_mut f)) g st.
End Mutable.

(** [.filter(keep)] before the consumer: it is not called for the others. *)
Definition filtered {A S} (keep : A -> bool) (f : A -> S -> A * bool * S) (x : A) (st : S) : A * bool * S :=
  if keep x then f x st else (x, true, st).

(** tests/iterate.rs:14-17 and 25-29 *)
Definition left_hand_terms (g : grammar) : list term := map p_lhs (productions_iter g).
Definition right_hand_terms (g : grammar) : list term :=
  flat_map terms_iter (flat_map rhs_iter (productions_iter g)).

(** ** Specification *)

(** The same productions, alternatives and terms at the same places, apart from what the terms on
    the right are. *)
Definition same_shape (g g' : grammar) : Prop :=
  Forall2 (fun p p' => p_lhs p = p_lhs p' /\
    Forall2 (fun e e' : expression => length e = length e') (p_rhs p) (p_rhs p')) g g'.

(** Every terminal of a production or grammar rewritten by [h]. *)
Definition on_terminal (h : str -> str) (t : term) : term :=
  match t with Terminal s => Terminal (h s) | Nonterminal n => Nonterminal n end.
Definition map_production (h : str -> str) (p : production) : production :=
  mkProd (p_lhs p) (map (map (on_terminal h)) (p_rhs p)).
Definition map_terminals (h : str -> str) (g : grammar) : grammar := map (map_production h) g.
