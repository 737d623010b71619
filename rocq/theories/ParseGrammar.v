(** src/validation.rs, src/parser/grammar.rs, src/parser/mod.rs (construction) and the
    validation entry points of src/grammar.rs. *)
From Verif Require Export Syntax.
From Coq Require Import Permutation.
From Coq Require String.
Import String.StringSyntax.

(** src/error.rs:9-13 [Error]. *)
Inductive error : Type :=
| ParseError (m : str)
| GenerateError (m : str)
| ValidationError (m : str).

(** [Result<A, Error>]. *)
Inductive result (A : Type) : Type :=
| ROk (a : A)
| RErr (e : error).
Arguments ROk {A} a.
Arguments RErr {A} e.

(** Iteration order of a [hashbrown::HashSet] is unspecified: an arbitrary reordering of the
    elements.  Everything below is quantified over it. *)
Record hash_order : Type := mkHashOrder {
  ho_iter : list str -> list str;
  ho_perm : forall l, Permutation (ho_iter l) l
}.

(** [HashSet::insert]. *)
Definition hs_insert (x : str) (l : list str) : list str :=
  if str_memb x l then l else l ++ [x].

(** src/validation.rs:7-10 [NonterminalSets]. *)
Record nt_sets : Type := mkSets { defined : list str; referenced : list str }.

(** src/validation.rs:13-18 *)
Definition sets_new : nt_sets := mkSets [] [].
(** src/validation.rs:20-22 *)
Definition record_lhs (s : nt_sets) (nt : str) : nt_sets :=
  mkSets (hs_insert nt (defined s)) (referenced s).
(** src/validation.rs:24-26 *)
Definition record_rhs (s : nt_sets) (nt : str) : nt_sets :=
  mkSets (defined s) (hs_insert nt (referenced s)).
(** src/validation.rs:35-37: [referenced.difference(&defined)]: the elements of [referenced],
    in its iteration order, that are not in [defined]. *)
Definition undefined (ho : hash_order) (s : nt_sets) : list str :=
  filter (fun x => negb (str_memb x (defined s))) (ho_iter ho (referenced s)).

(** [if let Term::Nonterminal(nt) = lhs { sets.record_lhs(nt) }] *)
Definition record_lhs_term (s : nt_sets) (t : term) : nt_sets :=
  match t with Nonterminal nt => record_lhs s nt | Terminal _ => s end.
(** [if let Term::Nonterminal(nt) = term { sets.record_rhs(nt) }] *)
Definition record_rhs_term (s : nt_sets) (t : term) : nt_sets :=
  match t with Nonterminal nt => record_rhs s nt | Terminal _ => s end.

Definition msg_empty : str := lit "Grammar must have at least one production".
Definition msg_undefined (nt : str) : str := lit "Undefined nonterminals: <" ++ nt ++ lit ">".

(** src/grammar.rs:376-401 [Grammar::validate]. *)
Definition validate_sets (g : grammar) : nt_sets :=
  fold_left (fun s p =>
    fold_left (fun s e => fold_left record_rhs_term e s) (p_rhs p) (record_lhs_term s (p_lhs p)))
    g sets_new.

Definition validate (ho : hash_order) (g : grammar) : result unit :=
  match g with
  | nil => RErr (ValidationError msg_empty)
  | _ => match undefined ho (validate_sets g) with
         | nt :: _ => RErr (ValidationError (msg_undefined nt))
         | nil => ROk tt
         end
  end.

(** src/parser/grammar.rs:43-45: the flattened (lhs, alternative) pairs. *)
Definition flat_prods (g : grammar) : list (term * expression) :=
  flat_map (fun p => map (fun e => (p_lhs p, e)) (p_rhs p)) g.

(** src/parser/grammar.rs:10-14,21-24 [ParseGrammar].  [pg_prods] is the [AppendOnlyVec]
    (src/append_vec.rs:27-66): a production's id is its index. *)
Record parse_grammar : Type := mkPG {
  pg_prods : list (term * expression);
  pg_by_lhs : hmap term (list nat)
}.

(** src/parser/grammar.rs:56-58 / 87-89: push the production, file its id under its lhs. *)
Definition pg_push (pg : parse_grammar) (x : term * expression) : parse_grammar :=
  let id := length (pg_prods pg) in
  let old := match hm_get term_eqb (pg_by_lhs pg) (fst x) with Some v => v | None => [] end in
  mkPG (pg_prods pg ++ [x]) (hm_insert (pg_by_lhs pg) (fst x) (old ++ [id])).

(** src/parser/grammar.rs:76-96 [ParseGrammar::new_unchecked]. *)
Definition pg_new_unchecked (g : grammar) : parse_grammar :=
  fold_left pg_push (flat_prods g) (mkPG [] []).

(** src/parser/grammar.rs:34-70 [ParseGrammar::new]. *)
Definition pg_step (acc : nt_sets * parse_grammar) (x : term * expression) : nt_sets * parse_grammar :=
  let '(s, pg) := acc in
  (fold_left record_rhs_term (snd x) (record_lhs_term s (fst x)), pg_push pg x).

Definition pg_new (ho : hash_order) (g : grammar) : result parse_grammar :=
  let '(s, pg) := fold_left pg_step (flat_prods g) (sets_new, mkPG [] []) in
  match undefined ho s with
  | nt :: _ => RErr (ValidationError (msg_undefined nt))
  | nil => ROk pg
  end.

(** src/parser/grammar.rs:98-100 *)
Definition get_production_by_id (pg : parse_grammar) (id : nat) : res (term * expression) :=
  expect (nth_error (pg_prods pg) id).

(** src/parser/grammar.rs:101-110.  The model returns the ids; the caller looks the production
    up with [get_production_by_id], as the [.map] of line 109 does. *)
Definition get_productions_by_lhs (pg : parse_grammar) (lhs : term) : list nat :=
  match hm_get term_eqb (pg_by_lhs pg) lhs with Some v => v | None => [] end.

(** src/parser/mod.rs:29-32 [GrammarParser]. *)
Record grammar_parser : Type := mkGP { gp_start : term; gp_pg : parse_grammar }.

(** src/parser/mod.rs:42-52 [GrammarParser::new] = src/grammar.rs:427-429 [build_parser]. *)
Definition build_parser (ho : hash_order) (g : grammar) : result grammar_parser :=
  match starting_term g with
  | None => RErr (ValidationError msg_empty)
  | Some st => match pg_new ho g with
               | RErr e => RErr e
               | ROk pg => ROk (mkGP st pg)
               end
  end.

(** src/parser/mod.rs:56-66 [GrammarParser::new_unchecked]. *)
Definition parser_new_unchecked (g : grammar) : res grammar_parser :=
  let* st := expect (starting_term g) in
  Ok (mkGP st (pg_new_unchecked g)).
