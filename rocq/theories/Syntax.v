(** Data types and editing API of the crate: src/term.rs, src/expression.rs,
    src/production.rs, src/grammar.rs. *)
From Verif Require Export Base.

(** src/term.rs:21-28 [Term]. *)
Inductive term : Type :=
| Terminal (s : str)
| Nonterminal (s : str).

(** src/expression.rs:14-18 [Expression { terms }]; the one-field struct is represented by its field. *)
Definition expression := list term.

(** src/production.rs:17-23 [Production { lhs, rhs }]. *)
Record production : Type := mkProd { p_lhs : term; p_rhs : list expression }.

(** src/grammar.rs:312-316 [Grammar { productions }]; represented by its field. *)
Definition grammar := list production.

(** Derived [PartialEq] of the four types. *)
Definition term_eqb (a b : term) : bool :=
  match a, b with
  | Terminal x, Terminal y => str_eqb x y
  | Nonterminal x, Nonterminal y => str_eqb x y
  | _, _ => false
  end.

Fixpoint list_eqb {A} (eqb : A -> A -> bool) (a b : list A) : bool :=
  match a, b with
  | nil, nil => true
  | x :: a', y :: b' => eqb x y && list_eqb eqb a' b'
  | _, _ => false
  end.

Definition expression_eqb : expression -> expression -> bool := list_eqb term_eqb.
Definition production_eqb (a b : production) : bool :=
  term_eqb (p_lhs a) (p_lhs b) && list_eqb expression_eqb (p_rhs a) (p_rhs b).

Lemma term_eqb_eq a b : term_eqb a b = true <-> a = b.
Proof.
  destruct a as [x|x], b as [y|y]; simpl; rewrite ?str_eqb_eq; split; intro H;
    try discriminate; try (injection H as ->); congruence.
Qed.
Lemma term_eqb_refl a : term_eqb a a = true.
Proof. apply term_eqb_eq; reflexivity. Qed.

Lemma list_eqb_eq {A} (eqb : A -> A -> bool) (He : forall a b, eqb a b = true <-> a = b) a b :
  list_eqb eqb a b = true <-> a = b.
Proof.
  revert b; induction a as [|x a IH]; intros [|y b]; simpl; split; intro H; try discriminate; auto.
  - apply andb_true_iff in H. destruct H as [H1 H2]. apply He in H1. apply IH in H2. congruence.
  - injection H as -> ->. apply andb_true_iff. split; [apply He|apply IH]; reflexivity.
Qed.

Lemma expression_eqb_eq a b : expression_eqb a b = true <-> a = b.
Proof. apply list_eqb_eq, term_eqb_eq. Qed.

Lemma production_eqb_eq a b : production_eqb a b = true <-> a = b.
Proof.
  destruct a as [l r], b as [l' r']. unfold production_eqb; simpl.
  rewrite andb_true_iff, term_eqb_eq, (list_eqb_eq expression_eqb expression_eqb_eq).
  split; [intros [-> ->]; reflexivity | intro H; injection H as -> ->; auto].
Qed.

Lemma term_eq_dec (a b : term) : {a = b} + {a <> b}.
Proof. decide equality; apply str_eq_dec. Defined.
Lemma expression_eq_dec (a b : expression) : {a = b} + {a <> b}.
Proof. apply list_eq_dec, term_eq_dec. Defined.
Lemma production_eq_dec (a b : production) : {a = b} + {a <> b}.
Proof.
  decide equality; [apply list_eq_dec, expression_eq_dec | apply term_eq_dec].
Defined.

(** [matches!(t, Term::Nonterminal(_))]. *)
Definition is_nonterminal (t : term) : bool :=
  match t with Nonterminal _ => true | Terminal _ => false end.

(** ** Editing API *)

(** [Iterator::position]. *)
Fixpoint position {A} (f : A -> bool) (l : list A) : option nat :=
  match l with
  | nil => None
  | x :: r => if f x then Some 0 else option_map S (position f r)
  end.

(** [Vec::remove(pos)]: removes and shifts the rest (panics out of range). *)
Fixpoint vec_remove {A} (l : list A) (pos : nat) : res (A * list A) :=
  match l, pos with
  | nil, _ => Panic
  | x :: r, 0 => Ok (x, r)
  | x :: r, S n => let* (y, r') := vec_remove r n in Ok (y, x :: r')
  end.

(** Overwrite position [pos]. *)
Fixpoint vec_set {A} (l : list A) (pos : nat) (v : A) : list A :=
  match l, pos with
  | nil, _ => nil
  | _ :: r, 0 => v :: r
  | x :: r, S n => x :: vec_set r n v
  end.

(** [Vec::swap_remove(pos)]: removes the element and puts the last element in its place
    (panics out of range). *)
Definition vec_swap_remove {A} (l : list A) (pos : nat) : res (A * list A) :=
  match nth_error l pos, rev l with
  | Some x, z :: _ => Ok (x, removelast (vec_set l pos z))
  | _, _ => Panic
  end.

(** src/expression.rs:34-36 *)
Definition add_term (e : expression) (t : term) : expression := e ++ [t].

(** src/expression.rs:58-64: returns the removed term and the new expression. *)
Definition remove_term (e : expression) (t : term) : res (option term * expression) :=
  match position (fun x => term_eqb x t) e with
  | Some pos => let* (x, e') := vec_remove e pos in Ok (Some x, e')
  | None => Ok (None, e)
  end.

(** src/production.rs:42-44 *)
Definition add_to_rhs (p : production) (e : expression) : production :=
  mkProd (p_lhs p) (p_rhs p ++ [e]).

(** src/production.rs:49-55 *)
Definition remove_from_rhs (p : production) (e : expression) : res (option expression * production) :=
  match position (fun x => expression_eqb x e) (p_rhs p) with
  | Some pos => let* (x, r) := vec_remove (p_rhs p) pos in Ok (Some x, mkProd (p_lhs p) r)
  | None => Ok (None, p)
  end.

(** src/grammar.rs:342-344 *)
Definition add_production (g : grammar) (p : production) : grammar := g ++ [p].

(** src/grammar.rs:347-352 ([swap_remove]) *)
Definition remove_production (g : grammar) (p : production) : res (option production * grammar) :=
  match position (fun x => production_eqb x p) g with
  | Some pos => let* (x, g') := vec_swap_remove g pos in Ok (Some x, g')
  | None => Ok (None, g)
  end.

(** src/grammar.rs:488-490 [starting_term]. *)
Definition starting_term (g : grammar) : option term := option_map p_lhs (hd_error g).

(** ** Operators *)

(** src/term.rs:59-65 [Term + Term]. *)
Definition term_add_term (a b : term) : expression := [a; b].
(** src/term.rs:67-73 [Term + Expression]. *)
Definition term_add_expression (a : term) (e : expression) : expression := add_term e a.
(** src/term.rs:75-85 [Term + &Expression]: copies the expression, then appends the term. *)
Definition term_add_expression_ref (a : term) (e : expression) : expression :=
  add_term (fold_left add_term e []) a.
(** src/expression.rs:153-165 [&Expression + Expression]. *)
Definition expression_ref_add_expression (e f : expression) : expression :=
  fold_left add_term f (fold_left add_term e []).
(** src/expression.rs:167-177 [&Expression + Term]. *)
Definition expression_ref_add_term (e : expression) (t : term) : expression :=
  add_term (fold_left add_term e []) t.
(** src/expression.rs:179-187 [Expression + Expression]. *)
Definition expression_add_expression (e f : expression) : expression := fold_left add_term f e.
(** src/expression.rs:189-195 [Expression + Term]. *)
Definition expression_add_term (e : expression) (t : term) : expression := add_term e t.
