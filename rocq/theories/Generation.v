(** Sentence generation: src/grammar.rs:492-773 with src/expression.rs:78-98 and
    src/production.rs:88-93.

    The strategy ([GenerationStrategy::choose]) and the callback ([Fn(&str, &str) -> bool]) are
    arbitrary functions over a common state [S]; the strategy's state is threaded through as
    [&mut S] is, and so is the state that a callback may keep in cells of its own.  A strategy
    that panics is a [choose] that returns [Panic].  The second argument of [choose] stands for
    the address of the production (its index in the grammar), which CoverageGuided uses as a key.
    [depth] is [nat] instead of [usize].  The [debug_assert!] of src/grammar.rs:544 is not part of
    this model: that the strategy returns one of the offered alternatives is a hypothesis where
    it is needed ([debug_asserted] in TraceProofs.v adds the assertion). *)
From Verif Require Export ParseGrammar Display.
From Coq Require String.
Import String.StringSyntax.

(** ** The guard *)

(** src/expression.rs:78-98 [Expression::terminates]. *)
Definition expr_terminates (e : expression) (rules : option (list term)) : bool :=
  if negb (existsb is_nonterminal e) then true
  else match rules with
       | None => false
       | Some rules => forallb (fun nt => memb term_eqb nt rules) (filter is_nonterminal e)
       end.

(** src/production.rs:88-93 *)
Definition has_terminating_expression (p : production) (rules : option (list term)) : bool :=
  existsb (fun e => expr_terminates e rules) (p_rhs p).

(** src/grammar.rs:731-738 *)
Definition term_init (g : grammar) : list term :=
  flat_map (fun p => if has_terminating_expression p None then [p_lhs p] else []) g.

(** src/grammar.rs:749-768: one pass of the [for] loop; [None] is the early [return true]. *)
Fixpoint term_pass (start : term) (ps : list production) (rules : list term) (progress : bool)
    : option (list term * bool) :=
  match ps with
  | nil => Some (rules, progress)
  | p :: ps =>
      if memb term_eqb (p_lhs p) rules then term_pass start ps rules progress
      else if has_terminating_expression p (Some rules) then
        if term_eqb (p_lhs p) start then None
        else term_pass start ps (rules ++ [p_lhs p]) true
      else term_pass start ps rules progress
  end.

(** src/grammar.rs:744-771: the [while] loop; one unit of fuel per iteration. *)
Fixpoint term_loop (fuel : nat) (start : term) (g : grammar) (rules : list term) : res bool :=
  match fuel with
  | 0 => OutOfFuel
  | S fuel => match term_pass start g rules false with
              | None => Ok true
              | Some (rules, true) => term_loop fuel start g rules
              | Some (rules, false) => Ok (memb term_eqb start rules)
              end
  end.

(** src/grammar.rs:725-772 [Grammar::terminates]. *)
Definition terminates (fuel : nat) (g : grammar) : res bool :=
  match starting_term g with
  | None => Ok true
  | Some start => match term_init g with
                  | nil => Ok false
                  | rules => term_loop fuel start g rules
                  end
  end.

(** ** Expansion *)

(** src/grammar.rs:513-519: the first production whose left-hand side is the nonterminal,
    with its index. *)
Fixpoint find_production (g : grammar) (ident : str) (ix : nat) : option (nat * production) :=
  match g with
  | nil => None
  | p :: g => if term_eqb (p_lhs p) (Nonterminal ident) then Some (ix, p)
              else find_production g ident (S ix)
  end.

(** src/grammar.rs:522-531 *)
Definition production_has_no_choice (p : production) : bool :=
  match p_rhs p with
  | nil => true
  | [only] => match only with nil => true | _ => false end
  | _ => false
  end.

Definition msg_no_alternative : str := lit "Production has no choosable alternative!".
Definition msg_no_selection : str := lit "Couldn't select random Expression!".
Definition msg_not_terminating : str := lit "Can't generate, first rule in grammar doesn't lead to a terminal state".
Definition msg_terminal_lhs (p : production) : str :=
  lit "Terminal type cannot define a production in '" ++ display_production p ++ lit "'!".
Definition msg_no_production : str := lit "Failed to get first production!".

Section Generate.
  Context {S : Type}.
  Variable choose : S -> nat -> production -> nat -> res (option expression * S).
  Variable accept : S -> str -> str -> bool * S.
  Variable g : grammar.

  (** src/grammar.rs:548-554: evaluate the terms from left to right, appending to [result]. *)
  Fixpoint eval_terms (eval : term -> S -> res (result str * S)) (e : expression) (acc : str) (st : S)
      : res (result str * S) :=
    match e with
    | nil => Ok (ROk acc, st)
    | t :: e => let* (r, st) := eval t st in
                match r with
                | ROk s => eval_terms eval e (acc ++ s) st
                | RErr x => Ok (RErr x, st)
                end
    end.

  (** src/grammar.rs:492-503 [eval_terminal_with_strategy] and 505-560
      [traverse_with_strategy]; one unit of fuel per call and per iteration of the [loop]. *)
  Fixpoint traverse (fuel : nat) (ident : str) (st : S) (depth : nat) : res (result str * S) :=
    match fuel with
    | 0 => OutOfFuel
    | Datatypes.S fuel =>
        match find_production g ident 0 with
        | None => Ok (ROk ident, st)
        | Some (ix, p) =>
            if production_has_no_choice p then Ok (RErr (GenerateError msg_no_alternative), st)
            else
              let* (chosen, st) := choose st ix p depth in
              match chosen with
              | None => Ok (RErr (GenerateError msg_no_selection), st)
              | Some e =>
                  let* (r, st) := eval_terms (fun t st => match t with
                                                          | Nonterminal nt => traverse fuel nt st (depth + 1)
                                                          | Terminal s => Ok (ROk s, st)
                                                          end) e [] st in
                  match r with
                  | RErr x => Ok (RErr x, st)
                  | ROk s => let '(ok, st) := accept st ident s in
                             if ok then Ok (ROk s, st) else traverse fuel ident st depth
                  end
              end
        end
    end.

  (** src/grammar.rs:644-672 [generate_seeded_callback_with_strategy]. *)
  Definition generate (fuel : nat) (st : S) : res (result str * S) :=
    let* t := terminates fuel g in
    if negb t then Ok (RErr (GenerateError msg_not_terminating), st)
    else match g with
         | nil => Ok (RErr (GenerateError msg_no_production), st)
         | p :: _ => match p_lhs p with
                     | Nonterminal nt => traverse fuel nt st 0
                     | Terminal _ => Ok (RErr (GenerateError (msg_terminal_lhs p)), st)
                     end
         end.
End Generate.

(** A callback without state of its own. *)
Definition pure_callback {S} (f : str -> str -> bool) (st : S) (ident text : str) : bool * S := (f ident text, st).

(** src/grammar.rs:633-638 [generate_seeded_with_strategy]. *)
Definition generate_with_strategy {S} (choose : S -> nat -> production -> nat -> res (option expression * S))
    (g : grammar) (fuel : nat) (st : S) : res (result str * S) :=
  generate choose (pure_callback (fun _ _ => true)) g fuel st.
