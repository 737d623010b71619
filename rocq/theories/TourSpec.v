(** Which draws lead CoverageGuided to which result; specified independently of the generator and the
    strategy.  Unlike the walks of WalkSpec.v a tour carries along what has been seen. *)
From Verif Require Export WalkSpec.

(** The alternatives seen: the position of a production in the grammar and the index of the alternative. *)
Definition seen_list : Type := list (nat * nat).

(** The first production for [n] is [p], at the position [ix] of the grammar. *)
Definition first_at (g : grammar) (n : str) (ix : nat) (p : production) : Prop :=
  nth_error g ix = Some p /\ p_lhs p = Nonterminal n /\
  forall j q, j < ix -> nth_error g j = Some q -> p_lhs q <> Nonterminal n.

(** The alternatives of which one is drawn: those not seen before, or else all of them. *)
Definition pair_eq_dec (a b : nat * nat) : {a = b} + {a <> b}.
Proof. decide equality; apply Nat.eq_dec. Defined.
Definition new_alternatives (seen : seen_list) (ix : nat) (p : production) : list nat :=
  filter (fun i => if in_dec pair_eq_dec (ix, i) seen then false else true) (seq 0 (length (p_rhs p))).
Definition offered (seen : seen_list) (ix : nat) (p : production) : list nat :=
  match new_alternatives seen ix p with
  | nil => seq 0 (length (p_rhs p))
  | l => l
  end.

(** [tour g ok bad seen n ds r seen']: expanding the nonterminal [n] when [seen] has been seen takes the draws
    [ds], in this order, and ends with [r]; then [seen'] has been seen. *)
Section Tour.
  Variable g : grammar.
  Variable ok : str -> str -> bool.
  Variable bad : error.

  Inductive tour : seen_list -> str -> list draw -> result str -> seen_list -> Prop :=
  | tr_undefined s n : ~ has_lhs g n -> tour s n [] (ROk n) s
  | tr_bad s n ix p : first_at g n ix p -> ~ choosable p -> tour s n [] (RErr bad) s
  | tr_error s n ix p k i e ds x s' : first_at g n ix p -> choosable p ->
      nth_error (offered s ix p) k = Some i -> nth_error (p_rhs p) i = Some e ->
      tours ((ix, i) :: s) e ds (RErr x) s' -> tour s n ((k, length (offered s ix p)) :: ds) (RErr x) s'
  | tr_accept s n ix p k i e ds w s' : first_at g n ix p -> choosable p ->
      nth_error (offered s ix p) k = Some i -> nth_error (p_rhs p) i = Some e ->
      tours ((ix, i) :: s) e ds (ROk w) s' -> ok n w = true -> tour s n ((k, length (offered s ix p)) :: ds) (ROk w) s'
  | tr_reject s n ix p k i e ds w s' ds' r s2 : first_at g n ix p -> choosable p ->
      nth_error (offered s ix p) k = Some i -> nth_error (p_rhs p) i = Some e ->
      tours ((ix, i) :: s) e ds (ROk w) s' -> ok n w = false -> tour s' n ds' r s2 ->
      tour s n ((k, length (offered s ix p)) :: ds ++ ds') r s2
  with tours : seen_list -> expression -> list draw -> result str -> seen_list -> Prop :=
  | trs_nil s : tours s [] [] (ROk []) s
  | trs_terminal s x e ds w s' : tours s e ds (ROk w) s' -> tours s (Terminal x :: e) ds (ROk (x ++ w)) s'
  | trs_terminal_error s x e ds y s' : tours s e ds (RErr y) s' -> tours s (Terminal x :: e) ds (RErr y) s'
  | trs_nonterminal s n e ds ds' v w s' s2 : tour s n ds (ROk v) s' -> tours s' e ds' (ROk w) s2 ->
      tours s (Nonterminal n :: e) (ds ++ ds') (ROk (v ++ w)) s2
  | trs_nonterminal_error s n e ds ds' v x s' s2 : tour s n ds (ROk v) s' -> tours s' e ds' (RErr x) s2 ->
      tours s (Nonterminal n :: e) (ds ++ ds') (RErr x) s2
  | trs_stop s n e ds x s' : tour s n ds (RErr x) s' -> tours s (Nonterminal n :: e) ds (RErr x) s'.
End Tour.

Scheme tour_mind := Induction for tour Sort Prop
  with tours_mind := Induction for tours Sort Prop.
Combined Scheme tour_mutind from tour_mind, tours_mind.
