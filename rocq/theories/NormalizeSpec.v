(** Specification of extended grammars (groups and optionals) and of their normalization,
    independent of the model of normalization.  From the model it uses only the data types. *)
From Verif Require Export Text EarleySpec.
From Coq Require String.
Import String.StringSyntax.

(** ** Meaning of extended grammars *)

(** [means pg t w]: the term [t] of the grammar [pg] describes the string [w]. *)
Inductive means (pg : parsed_grammar) : parsed_term -> str -> Prop :=
| means_terminal s : means pg (Simple (Terminal s)) s
| means_rule n p e w : In p pg -> pp_lhs p = n -> In e (pp_rhs p) -> means_terms pg e w ->
    means pg (Simple (Nonterminal n)) w
| means_group es e w : In e es -> means_terms pg e w -> means pg (Group es) w
| means_nothing es : means pg (Optional es) []
| means_optional es e w : In e es -> means_terms pg e w -> means pg (Optional es) w
with means_terms (pg : parsed_grammar) : list parsed_term -> str -> Prop :=
| means_nil : means_terms pg [] []
| means_cons t e w w' : means pg t w -> means_terms pg e w' -> means_terms pg (t :: e) (w ++ w').

Scheme means_mind := Induction for means Sort Prop
  with means_terms_mind := Induction for means_terms Sort Prop.
Combined Scheme means_mutind from means_mind, means_terms_mind.

(** ** Syntax *)

(** [occurs t' t]: [t'] is [t] or a term inside it. *)
Inductive occurs (t' : parsed_term) : parsed_term -> Prop :=
| occurs_here : occurs t' t'
| occurs_group es e t : In e es -> In t e -> occurs t' t -> occurs t' (Group es)
| occurs_optional es e t : In e es -> In t e -> occurs t' t -> occurs t' (Optional es).
Definition occurs_in (t' : parsed_term) (pg : parsed_grammar) : Prop :=
  exists p e t, In p pg /\ In e (pp_rhs p) /\ In t e /\ occurs t' t.

(** The reserved names. *)
Definition anon_name (k : nat) : str := lit "__anon" ++ dec k.

(** Every name used is either defined or not reserved. *)
Definition no_capture (pg : parsed_grammar) : Prop :=
  forall n, occurs_in (Simple (Nonterminal n)) pg ->
    In n (map pp_lhs pg) \/ forall k, n <> anon_name k.

(** There is no group without alternatives (grammar text cannot contain one). *)
Definition no_empty_group (pg : parsed_grammar) : Prop := ~ occurs_in (Group []) pg.

(** The number of groups and optionals. *)
Fixpoint count_groups (t : parsed_term) : nat :=
  match t with
  | Simple _ => 0
  | Group es | Optional es => S (list_sum (map (fun e => list_sum (map count_groups e)) es))
  end.
Definition count_all (pg : parsed_grammar) : nat :=
  list_sum (map (fun p => list_sum (map (fun e => list_sum (map count_groups e)) (pp_rhs p))) pg).

(** ** Lowering *)

(** [lowered anon t t']: the simple term [t'] stands for [t], given the productions [anon]:
    simple terms stand for themselves, a group is a nonterminal with the group's alternatives,
    an optional has the empty string as an additional, last alternative. *)
Inductive lowered (anon : list production) : parsed_term -> term -> Prop :=
| lowered_simple t : lowered anon (Simple t) t
| lowered_group es n rhs : es <> [] -> lowered_alts anon es rhs ->
    In (mkProd (Nonterminal n) rhs) anon -> lowered anon (Group es) (Nonterminal n)
| lowered_empty_group n : In (mkProd (Nonterminal n) [[Terminal []]]) anon ->
    lowered anon (Group []) (Nonterminal n)
| lowered_optional es n rhs : lowered_alts anon es rhs ->
    In (mkProd (Nonterminal n) (rhs ++ [[Terminal []]])) anon -> lowered anon (Optional es) (Nonterminal n)
with lowered_terms (anon : list production) : list parsed_term -> expression -> Prop :=
| lowered_nil : lowered_terms anon [] []
| lowered_cons t e t' e' : lowered anon t t' -> lowered_terms anon e e' -> lowered_terms anon (t :: e) (t' :: e')
with lowered_alts (anon : list production) : list (list parsed_term) -> list expression -> Prop :=
| lowered_none : lowered_alts anon [] []
| lowered_more e es e' es' : lowered_terms anon e e' -> lowered_alts anon es es' ->
    lowered_alts anon (e :: es) (e' :: es').

Scheme lowered_mind := Induction for lowered Sort Prop
  with lowered_terms_mind := Induction for lowered_terms Sort Prop
  with lowered_alts_mind := Induction for lowered_alts Sort Prop.
Combined Scheme lowered_mutind from lowered_mind, lowered_terms_mind, lowered_alts_mind.

(** [group_rule anon t rhs]: the alternatives [rhs] are those of the group or optional [t]. *)
Definition group_rule (anon : list production) (t : parsed_term) (rhs : list expression) : Prop :=
  match t with
  | Simple _ => False
  | Group es => es <> [] /\ lowered_alts anon es rhs \/ es = [] /\ rhs = [[Terminal []]]
  | Optional es => exists rhs', lowered_alts anon es rhs' /\ rhs = rhs' ++ [[Terminal []]]
  end.

(** A production keeps its name and its alternatives. *)
Definition lowered_production (anon : list production) (p : parsed_production) (q : production) : Prop :=
  p_lhs q = Nonterminal (pp_lhs p) /\ lowered_alts anon (pp_rhs p) (p_rhs q).

(** A production without groups, as an extended production. *)
Definition plain (p : production) : option parsed_production :=
  match p_lhs p with
  | Nonterminal n => Some (mkParsed n (map (map Simple) (p_rhs p)))
  | Terminal _ => None
  end.

(** ** The result of normalization in closed form *)

(** [num] lists, in ascending order, the numbers of the reserved names that are not left hand
    sides of the source. *)
Definition enumerates_free (lhss : list str) (num : nat -> nat) : Prop :=
  (forall k, num k < num (S k)) /\ (forall i, ~ In (anon_name i) lhss <-> exists k, num k = i).

(** Like [map], where [f] also gets the number of groups and optionals to the left. *)
Definition map_from {A B} (count : A -> nat) (f : nat -> A -> B) : nat -> list A -> list B :=
  fix go k l :=
    match l with
    | [] => []
    | x :: l => f k x :: go (k + count x) l
    end.

Definition count_terms (e : parsed_expression) : nat := list_sum (map count_groups e).
Definition count_alts (es : list parsed_expression) : nat := list_sum (map count_terms es).

Section ClosedForm.
Variable num : nat -> nat.

(** The group or optional opened by the [k]-th bracket is called [__anonI] with [I = num k]. *)
Definition closed_term (k : nat) (t : parsed_term) : term :=
  match t with
  | Simple t => t
  | Group _ | Optional _ => Nonterminal (anon_name (num k))
  end.
Definition closed_terms : nat -> parsed_expression -> expression := map_from count_groups closed_term.
Definition closed_alts : nat -> list parsed_expression -> list expression := map_from count_terms closed_terms.

(** The rules for the groups and optionals inside a term, in the order of the closing brackets. *)
Fixpoint closed_rules (t : parsed_term) (k : nat) : list production :=
  let inner es := concat (map_from count_terms (fun k e =>
                    concat (map_from count_groups (fun k t => closed_rules t k) k e)) (S k) es) in
  match t with
  | Simple _ => []
  | Group es => inner es ++ [mkProd (Nonterminal (anon_name (num k)))
                               (match es with [] => [[Terminal []]] | _ => closed_alts (S k) es end)]
  | Optional es => inner es ++ [mkProd (Nonterminal (anon_name (num k)))
                                  (closed_alts (S k) es ++ [[Terminal []]])]
  end.
Definition closed_rules_alts (k : nat) (es : list parsed_expression) : list production :=
  concat (map_from count_terms (fun k e => concat (map_from count_groups (fun k t => closed_rules t k) k e)) k es).

(** The source rules, then the rules for the groups and optionals. *)
Definition closed_form (pg : parsed_grammar) : grammar :=
  map_from (fun p => count_alts (pp_rhs p)) (fun k p => mkProd (Nonterminal (pp_lhs p)) (closed_alts k (pp_rhs p))) 0 pg ++
  concat (map_from (fun p => count_alts (pp_rhs p)) (fun k p => closed_rules_alts k (pp_rhs p)) 0 pg).
End ClosedForm.
