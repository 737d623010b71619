(** How deep the parsers of extended grammar text call themselves: src/parsers/mod.rs:304-338 and
    373-391 once more, with a limit for the recursion apart from the fuel for the loops.
    [OutOfFuel] now says that the limit was exceeded.  The recursion of the real program runs
    [parsed_term] - [parsed_anonymous_group] or [parsed_optional_group] - [parsed_prod_rhs] -
    [parsed_expression] - [parsed_term] (and nom's combinators between them); one unit of
    [depth] stands for one such round. *)
From Verif Require Export Text.
From Coq Require String.
Import String.StringSyntax.

Section Deep.
Variable alphabetic : char -> bool.
Variable F : format.
Variable loops : nat.

(** [read_term] of Text.v. *)
Fixpoint read_deep (depth : nat) (s : str) : pres parsed_term :=
  match depth with
  | 0 => OutOfFuel
  | S depth =>
      match terminal s with
      | Some (t, s') => Ok (Some (Simple t, s'))
      | None =>
          match nonterminal alphabetic F s with
          | Some (t, s') => Ok (Some (Simple t, s'))
          | None =>
              let inner := rhs_of F loops (read_deep depth) in
              match bracketed c_open c_close inner s with
              | Ok (Some (es, s')) => Ok (Some (Group es, s'))
              | Ok None => let+ (es, s') := bracketed c_lbrack c_rbrack inner s in
                           Ok (Some (Optional es, s'))
              | Panic => Panic
              | OutOfFuel => OutOfFuel
              end
          end
      end
  end.
Definition production_deep (depth : nat) (s : str) : pres parsed_production :=
  let+ (lhs, s) := Ok (read_prod_lhs alphabetic F s) in
  let+ (rhs, s) := rhs_of F loops (read_deep depth) s in
  match s with
  | [] => Ok (Some (mkParsed lhs rhs, s))
  | _ => match read_prod_lhs alphabetic F s with
         | Some _ => Ok (Some (mkParsed lhs rhs, s))
         | None => Ok None
         end
  end.
Definition grammar_deep (depth : nat) (s : str) : pres parsed_grammar :=
  many1 loops (fun s => production_deep depth (whitespace_plus_comments s)) (whitespace_plus_comments s).
End Deep.

(** [parsed_grammar_complete] with the given number of nested calls of [parsed_term]. *)
Definition complete_deep (alphabetic : char -> bool) (F : format) (depth : nat) (s : str) : res (option parsed_grammar) :=
  all_consuming (grammar_deep alphabetic F (fuel_for s) depth s).

(** ** Building the tree: src/earley/mod.rs:84-104 and 222-237 *)
From Verif Require Export Earley.

(** [ParseTreeIter::next] if [parse_tree] may be at most [depth] calls deep: the fuel of
    [parse_tree] (Earley.v) is the number of nested calls. *)
Definition iter_next_deep (depth fuel : nat) (it : piter) : res (option ptree * piter) :=
  let pg := gp_pg (it_parser it) in
  let* (found, st) := earley fuel pg (it_state it) in
  match found with
  | None => Ok (None, mkI (it_parser it) st)
  | Some id =>
      let* t := parse_tree depth (s_tree st) pg id in
      Ok (Some t, mkI (it_parser it) st)
  end.

(** ** Generation: src/grammar.rs:492-560 and 644-672 *)
From Verif Require Export Strategies.

Section GenerateDeep.
  Context {S : Type}.
  Variable choose : S -> nat -> production -> nat -> res (option expression * S).
  Variable accept : S -> str -> str -> bool * S.
  Variable g : grammar.

  (** The body of the [loop] of [traverse_with_strategy]; [evaluate] evaluates a nonterminal of the
      chosen alternative; at most [tries] iterations. *)
  Fixpoint traverse_loop (evaluate : str -> S -> res (result str * S)) (tries : nat) (ident : str) (st : S) (depth : nat)
      : res (result str * S) :=
    match tries with
    | 0 => OutOfFuel
    | Datatypes.S tries =>
        match find_production g ident 0 with
        | None => Ok (ROk ident, st)
        | Some (ix, p) =>
            if production_has_no_choice p then Ok (RErr (GenerateError msg_no_alternative), st)
            else
              let* (chosen, st) := choose st ix p depth in
              match chosen with
              | None => Ok (RErr (GenerateError msg_no_selection), st)
              | Some e =>
                  let* (r, st) := eval_terms (fun t st => match t with
                                                          | Nonterminal nt => evaluate nt st
                                                          | Terminal s => Ok (ROk s, st)
                                                          end) e [] st in
                  match r with
                  | RErr x => Ok (RErr x, st)
                  | ROk s => let '(ok, st) := accept st ident s in
                             if ok then Ok (ROk s, st) else traverse_loop evaluate tries ident st depth
                  end
              end
        end
    end.
  (** [traverse] with at most [levels] nested calls, each of which tries at most [tries] times. *)
  Fixpoint traverse_deep (tries levels : nat) (ident : str) (st : S) (depth : nat) : res (result str * S) :=
    match levels with
    | 0 => OutOfFuel
    | Datatypes.S levels => traverse_loop (fun nt st => traverse_deep tries levels nt st (depth + 1)) tries ident st depth
    end.
  Definition generate_deep (tries levels fuel : nat) (st : S) : res (result str * S) :=
    let* t := terminates fuel g in
    if negb t then Ok (RErr (GenerateError msg_not_terminating), st)
    else match g with
         | nil => Ok (RErr (GenerateError msg_no_production), st)
         | p :: _ => match p_lhs p with
                     | Nonterminal nt => traverse_deep tries levels nt st 0
                     | Terminal _ => Ok (RErr (GenerateError (msg_terminal_lhs p)), st)
                     end
         end.
End GenerateDeep.
