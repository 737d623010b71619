(** Random walks: which draws lead a random generator to which result, and how many draws there
    are; specified independently of the generator model. *)
From Verif Require Export TraceSpec.
From Coq Require Import Lia.

(** A draw: a number and the number of equally likely values it was drawn from. *)
Definition draw : Type := (nat * nat)%type.

(** [walk g ok alts bad d n ds r]: expanding the nonterminal [n] at nesting depth [d] takes the
    draws [ds], in this order, and ends with [r].  For the production [p] the strategy draws one
    of the equally likely alternatives [alts d p] (with repetitions, if some are more likely).
    [ok] is the callback: if it refuses a text, the nonterminal is expanded again. *)
Section Walk.
  Variable g : grammar.
  Variable ok : str -> str -> bool.
  Variable alts : nat -> production -> list expression.
  Variable bad : error.

  Inductive walk : nat -> str -> list draw -> result str -> Prop :=
  | wk_undefined d n : ~ has_lhs g n -> walk d n [] (ROk n)
  | wk_bad d n p : first_for g n p -> ~ choosable p -> walk d n [] (RErr bad)
  | wk_error d n p k e ds x : first_for g n p -> choosable p -> nth_error (alts d p) k = Some e -> walks (d + 1) e ds (RErr x) ->
      walk d n ((k, length (alts d p)) :: ds) (RErr x)
  | wk_accept d n p k e ds w : first_for g n p -> choosable p -> nth_error (alts d p) k = Some e -> walks (d + 1) e ds (ROk w) ->
      ok n w = true -> walk d n ((k, length (alts d p)) :: ds) (ROk w)
  | wk_reject d n p k e ds w ds' r : first_for g n p -> choosable p -> nth_error (alts d p) k = Some e -> walks (d + 1) e ds (ROk w) ->
      ok n w = false -> walk d n ds' r -> walk d n ((k, length (alts d p)) :: ds ++ ds') r
  with walks : nat -> expression -> list draw -> result str -> Prop :=
  | wks_nil d : walks d [] [] (ROk [])
  | wks_terminal d s e ds w : walks d e ds (ROk w) -> walks d (Terminal s :: e) ds (ROk (s ++ w))
  | wks_terminal_error d s e ds x : walks d e ds (RErr x) -> walks d (Terminal s :: e) ds (RErr x)
  | wks_nonterminal d n e ds ds' v w : walk d n ds (ROk v) -> walks d e ds' (ROk w) ->
      walks d (Nonterminal n :: e) (ds ++ ds') (ROk (v ++ w))
  | wks_nonterminal_error d n e ds ds' v x : walk d n ds (ROk v) -> walks d e ds' (RErr x) ->
      walks d (Nonterminal n :: e) (ds ++ ds') (RErr x)
  | wks_stop d n e ds x : walk d n ds (RErr x) -> walks d (Nonterminal n :: e) ds (RErr x).
End Walk.

Scheme walk_mind := Induction for walk Sort Prop
  with walks_mind := Induction for walks Sort Prop.
Combined Scheme walk_mutind from walk_mind, walks_mind.

(** What the strategies draw from.  RandomWalk: the alternatives. *)
Definition random_alternatives (d : nat) (p : production) : list expression := p_rhs p.

(** DepthBounded: from the limit on those without nonterminals, if there are any. *)
Definition depth_alternatives (max : nat) (d : nat) (p : production) : list expression :=
  if d <? max then p_rhs p
  else match filter (fun e => negb (existsb is_nonterminal e)) (p_rhs p) with
       | nil => p_rhs p
       | l => l
       end.

(** Weighted: each as often as its weight says; all alike if every weight is 0. *)
Definition weighted_alternatives (rec nonrec : N) (d : nat) (p : production) : list expression :=
  match flat_map (fun e => repeat e (N.to_nat (if existsb (fun t => term_eqb t (p_lhs p)) e then rec else nonrec))) (p_rhs p) with
  | nil => p_rhs p
  | l => l
  end.

(** The source [f] of numbers gives the draws [ds], beginning at its number [i]: a draw from [m]
    values is the remainder modulo [m]. *)
Fixpoint follows (f : nat -> nat) (i : nat) (ds : list draw) : Prop :=
  match ds with
  | nil => True
  | (k, m) :: ds => f i mod m = k /\ follows f (S i) ds
  end.

(** All lists of [len] numbers below [base]. *)
Fixpoint scripts (base len : nat) : list (list nat) :=
  match len with
  | 0 => [[]]
  | S len => flat_map (fun x => map (cons x) (scripts base len)) (seq 0 base)
  end.

(** A list as a source of numbers. *)
Definition source (s : list nat) (i : nat) : nat := nth i s 0.

(** The test that a list gives the draws [ds]. *)
Fixpoint gives (ds : list draw) (s : list nat) : bool :=
  match ds, s with
  | nil, _ => true
  | _ :: _, nil => false
  | (k, m) :: ds, x :: s => Nat.eqb (x mod m) k && gives ds s
  end.

Definition product (l : list nat) : nat := fold_right Nat.mul 1 l.

(** How many elements pass a test. *)
Definition count {A} (t : A -> bool) (l : list A) : nat := length (filter t l).
