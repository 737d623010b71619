(** Specification of parsing, independent of the parser model: derivation trees, textbook
    rewriting, and what it means for the iterator to have produced a list of trees. *)
From Verif Require Export Earley.
From Coq Require Import Relation_Operators.

(** ** Trees *)

Fixpoint yield {L} (t : tree L) : str :=
  match t with Node _ ks => flat_map yield_node ks end
with yield_node {L} (n : node L) : str :=
  match n with Leaf s => s | Sub t => yield t end.

Definition root {L} (t : tree L) : L := match t with Node l _ => l end.

(** [derives g t]: every node of [t] uses an alternative of a production of [g] whose
    left-hand side is the node's label, and its children match the alternative term by term. *)
Inductive derives (g : grammar) : ptree -> Prop :=
| derives_node p rhs kids :
    In p g -> In rhs (p_rhs p) -> kids_match g rhs kids -> derives g (Node (p_lhs p) kids)
with kids_match (g : grammar) : expression -> list pnode -> Prop :=
| km_nil : kids_match g [] []
| km_term s r ks : kids_match g r ks -> kids_match g (Terminal s :: r) (Leaf s :: ks)
| km_nt n t r ks : root t = Nonterminal n -> derives g t -> kids_match g r ks ->
    kids_match g (Nonterminal n :: r) (Sub t :: ks).

(** [t] is a parse of [w] from [start]. *)
Definition parses (g : grammar) (start : term) (w : str) (t : ptree) : Prop :=
  derives g t /\ root t = start /\ yield t = w.

(** ** Textbook rewriting *)

(** One rewriting step on sentential forms. *)
Inductive rewrite (g : grammar) : list term -> list term -> Prop :=
| rewrite_at a n b p rhs : In p g -> p_lhs p = Nonterminal n -> In rhs (p_rhs p) ->
    rewrite g (a ++ Nonterminal n :: b) (a ++ rhs ++ b).
Inductive rewrites (g : grammar) : list term -> list term -> Prop :=
| rewrites_refl f : rewrites g f f
| rewrites_step f1 f2 f3 : rewrite g f1 f2 -> rewrites g f2 f3 -> rewrites g f1 f3.

(** A string is generated from a nonterminal if it is the concatenation of the terminals of
    a sentential form reachable by rewriting. *)
Definition generates (g : grammar) (n : str) (w : str) : Prop :=
  exists ss, rewrites g [Nonterminal n] (map Terminal ss) /\ w = concat ss.

(** ** The iterator *)

(** [produces it ts it']: calling [next] repeatedly, starting in [it], returns exactly the
    trees [ts] (each call with [Some]) and leaves the iterator in [it']. *)
Inductive produces : piter -> list ptree -> piter -> Prop :=
| produces_nil it : produces it [] it
| produces_next it t it1 ts it2 fuel :
    iter_next fuel it = Ok (Some t, it1) -> produces it1 ts it2 -> produces it (t :: ts) it2.

(** The next call of [next] returns [None]. *)
Definition exhausted (it : piter) : Prop :=
  exists fuel it', iter_next fuel it = Ok (None, it').

(** The next call of [next] does not return. *)
Definition diverges (it : piter) : Prop := forall fuel, iter_next fuel it = OutOfFuel.

(** The four public ways of opening an iterator over the parses of [input] from [start]:
    through a validated parser (explicit or default start), and through the deprecated
    [Grammar] methods. *)
Inductive opens (g : grammar) (start : term) (input : str) : piter -> Prop :=
| opens_with ho p it : build_parser ho g = ROk p ->
    parse_input_starting_with p input start = Ok it -> opens g start input it
| opens_default ho p it : build_parser ho g = ROk p -> starting_term g = Some start ->
    parse_input p input = Ok it -> opens g start input it
| opens_deprecated_with it :
    grammar_parse_input_starting_with g input start = Ok it -> opens g start input it
| opens_deprecated_default it : starting_term g = Some start ->
    grammar_parse_input g input = Ok it -> opens g start input it.

(** Several iterators sharing one parser, driven in an arbitrary interleaving.  A session is a
    list of commands; its log records every call of [next] with the index of the iterator. *)
Inductive command : Type :=
| Open (input : str) (start : option term)
| Next (k : nat) (fuel : nat).

Fixpoint replace_nth {A} (k : nat) (x : A) (l : list A) : list A :=
  match l, k with
  | [], _ => []
  | _ :: r, 0 => x :: r
  | y :: r, S k => y :: replace_nth k x r
  end.

Fixpoint session (p : grammar_parser) (its : list piter) (cs : list command)
    : list (nat * res (option ptree)) :=
  match cs with
  | [] => []
  | Open input st :: cs =>
      match iter_new p input st with
      | Ok it => session p (its ++ [it]) cs
      | _ => session p its cs
      end
  | Next k fuel :: cs =>
      match nth_error its k with
      | None => session p its cs
      | Some it =>
          match iter_next fuel it with
          | Ok (o, it') => (k, Ok o) :: session p (replace_nth k it' its) cs
          | Panic => (k, Panic) :: session p its cs
          | OutOfFuel => (k, OutOfFuel) :: session p its cs
          end
      end
  end.

(** The same calls made on one iterator alone. *)
Fixpoint solo (it : piter) (fuels : list nat) : list (res (option ptree)) :=
  match fuels with
  | [] => []
  | f :: fs => match iter_next f it with
               | Ok (o, it') => Ok o :: solo it' fs
               | Panic => Panic :: solo it fs
               | OutOfFuel => OutOfFuel :: solo it fs
               end
  end.

(** ** Cyclic grammars *)

(** A sequence of terms that derives the empty string. *)
Definition nullable (g : grammar) (e : expression) : Prop :=
  exists ss, rewrites g e (map Terminal ss) /\ concat ss = [].

(** [a] can be expanded to [b] surrounded by nothing. *)
Definition unit_step (g : grammar) (a b : str) : Prop :=
  exists p x y, In p g /\ p_lhs p = Nonterminal a /\ In (x ++ Nonterminal b :: y) (p_rhs p) /\
                nullable g x /\ nullable g y.

(** Some nonterminal derives itself. *)
Definition cyclic (g : grammar) : Prop := exists a, clos_trans str (unit_step g) a a.

(** ** Exactly when the enumeration ends *)

(** The strings generated from a sequence of terms. *)
Definition seq_generates (g : grammar) (e : expression) (v : str) : Prop :=
  exists ss, rewrites g e (map Terminal ss) /\ v = concat ss.

(** [predicted g start a u]: expanding from [start] top down and from left to right, the
    derivation can have consumed exactly [u] at the moment when [a] is to be expanded. *)
Inductive predicted (g : grammar) (start : term) : term -> str -> Prop :=
| predicted_start : predicted g start start []
| predicted_in l u p x m y v : predicted g start l u ->
    In p g -> p_lhs p = l -> In (x ++ Nonterminal m :: y) (p_rhs p) -> seq_generates g x v ->
    predicted g start (Nonterminal m) (u ++ v).

Definition self_deriving (g : grammar) (a : str) : Prop := clos_trans str (unit_step g) a a.

(** A nonterminal that derives itself is expanded somewhere in the input, and matches there. *)
Definition live_cycle (g : grammar) (start : term) (input : str) : Prop :=
  exists a u v w, input = u ++ v ++ w /\ predicted g start (Nonterminal a) u /\ generates g a v /\
                  self_deriving g a.

(** [subtree s t]: [s] is [t] or occurs below its root. *)
Inductive subtree {L} : tree L -> tree L -> Prop :=
| subtree_here t : subtree t t
| subtree_below s l ks t : In (Sub t) ks -> subtree s t -> subtree s (Node l ks).

(** A nonterminal that derives itself labels a node of a parse of the whole input. *)
Definition cycle_in_parse (g : grammar) (start : term) (input : str) : Prop :=
  exists t s a, parses g start input t /\ subtree s t /\ root s = Nonterminal a /\ self_deriving g a.
