(** The errors of the text parsers: the same parsers as in Text.v, with the content of the nom
    errors (src/parsers/mod.rs, src/parsers/nom_xt.rs, src/error.rs).

    [nom::error::Error<&str>] is the text that remained where a parser failed, and the kind of
    that parser.  What the combinators do with it (nom 8, [nom::error::Error]):
    - [ParseError::or] and [ParseError::append] return their last argument resp. the inner error,
      so [alt] reports the error of its last alternative and [many1] that of its first element;
    - [not] and [all_consuming] make a new error with the text they looked at;
    - [delimited], [preceded], [terminated], [peek], [recognize] pass errors on;
    - [opt] and the loops of [many1] and [xt_list_with_separator] drop them.
    TextErrorsProofs.v proves that forgetting the content gives exactly the parsers of Text.v. *)
From Verif Require Export TextMain.
From Coq Require String.
Import String.StringSyntax.

(** The kinds that can occur: [nom::error::ErrorKind]. *)
Inductive kind : Type := KChar | KTag | KTakeUntil | KSatisfy | KMany1 | KNot | KEof.
(** The derived [Debug] of [ErrorKind]. *)
Definition kind_name (k : kind) : str :=
  match k with
  | KChar => lit "Char"
  | KTag => lit "Tag"
  | KTakeUntil => lit "TakeUntil"
  | KSatisfy => lit "Satisfy"
  | KMany1 => lit "Many1"
  | KNot => lit "Not"
  | KEof => lit "Eof"
  end.

(** [nom::error::Error<&str>]: [input] and [code]. *)
Record nom_error : Type := mkErr { e_input : str; e_code : kind }.

Inductive parsed (A : Type) : Type :=
| Fails (e : nom_error)
| Yields (a : A).
Arguments Fails {A} e.
Arguments Yields {A} a.
Definition ebind {A B} (x : parsed A) (f : A -> parsed B) : parsed B :=
  match x with Yields a => f a | Fails e => Fails e end.
Notation "'let!' x ':=' e 'in' f" := (ebind e (fun x => f))
  (at level 200, x pattern, right associativity).

(** The result of a parser with loops. *)
Definition eres (A : Type) := res (parsed (A * str)).
Definition eresbind {A B} (x : eres A) (f : A * str -> eres B) : eres B :=
  match x with
  | Ok (Yields y) => f y
  | Ok (Fails e) => Ok (Fails e)
  | Panic => Panic
  | OutOfFuel => OutOfFuel
  end.
Notation "'let~' x ':=' e 'in' f" := (eresbind e (fun x => f))
  (at level 200, x pattern, right associativity).

(** An [option] parser that cannot produce more than one kind of error at its own position. *)
Definition or_fail {A} (o : option A) (s : str) (k : kind) : parsed A :=
  match o with Some a => Yields a | None => Fails (mkErr s k) end.

Definition e_char (c : char) (s : str) : parsed str := or_fail (p_char c s) s KChar.
Definition e_tag (t s : str) : parsed str := or_fail (p_tag t s) s KTag.
Definition e_take_until (q : char) (s : str) : parsed (str * str) := or_fail (take_until q s) s KTakeUntil.

Fixpoint e_many1_loop {A} (fuel : nat) (p : str -> eres A) (acc : list A) (s : str) : eres (list A) :=
  match fuel with
  | 0 => OutOfFuel
  | S fuel =>
      match p s with
      | Ok (Fails _) => Ok (Yields (acc, s))
      | Ok (Yields (a, s')) =>
          if Nat.eqb (byte_len s') (byte_len s) then Ok (Fails (mkErr s KMany1)) else e_many1_loop fuel p (acc ++ [a]) s'
      | Panic => Panic
      | OutOfFuel => OutOfFuel
      end
  end.
Definition e_many1 {A} (fuel : nat) (p : str -> eres A) (s : str) : eres (list A) :=
  let~ (a, s) := p s in e_many1_loop fuel p [a] s.

Definition e_all_consuming {A} (x : eres A) : res (parsed A) :=
  match x with
  | Ok (Yields (a, [])) => Ok (Yields a)
  | Ok (Yields (_, r)) => Ok (Fails (mkErr r KEof))
  | Ok (Fails e) => Ok (Fails e)
  | Panic => Panic
  | OutOfFuel => OutOfFuel
  end.

(** src/parsers/nom_xt.rs:4-35: the error of the element parser is returned, that of the delimiter
    is dropped. *)
Fixpoint e_xt_list {A} (fuel : nat) (p : str -> eres A) (delim : str -> parsed str) (acc : list A) (s : str)
    : eres (list A) :=
  match fuel with
  | 0 => OutOfFuel
  | S fuel =>
      let~ (a, s) := p s in
      match delim s with
      | Yields s => e_xt_list fuel p delim (acc ++ [a]) s
      | Fails _ => Ok (Yields (acc ++ [a], s))
      end
  end.

(** src/parsers/mod.rs:118-129 [terminal]. *)
Definition e_quoted (q : char) (s : str) : parsed (str * str) :=
  let! s := e_char q s in
  let! (a, s) := e_take_until q s in
  let! s := e_char q s in Yields (a, s).
Definition e_terminal (s : str) : parsed (term * str) :=
  let! (a, s) := match e_quoted dquote s with Yields x => Yields x | Fails _ => e_quoted squote s end in
  Yields (Terminal a, whitespace_plus_comments s).

Section Format.
Variable alphabetic : char -> bool.
Variable F : format.

(** src/parsers/mod.rs:83-94 *)
Definition e_name (s : str) : parsed (str * str) :=
  match f_delimiter F with
  | Some (start, end_) =>
      let! s := e_char start s in
      let (n, s) := take_till (fun c => N.eqb c end_) s in
      let! s := e_char end_ s in Yields (n, s)
  | None => or_fail (name alphabetic F s) s KSatisfy (* only [satisfy] can fail *)
  end.
(** src/parsers/mod.rs:81-99 *)
Definition e_nonterminal (s : str) : parsed (term * str) :=
  let! (n, s) := e_name s in Yields (Nonterminal n, whitespace_plus_comments s).
Definition e_after_lhs (s : str) : parsed str :=
  let! s := e_tag (f_separator F) s in
  let s := match p_char (f_alternative F) s with Some s => s | None => s end in
  Yields (whitespace_plus_comments s).
(** src/parsers/mod.rs:101-111 *)
Definition e_prod_lhs (s : str) : parsed (term * str) :=
  let! (nt, s) := e_nonterminal s in
  let! s := e_after_lhs s in Yields (nt, s).
(** src/parsers/mod.rs:160-163 *)
Definition e_term (s : str) : parsed (term * str) :=
  match e_terminal s with Yields x => Yields x | Fails _ => e_nonterminal s end.
(** src/parsers/mod.rs:165-171 *)
Definition e_expression_next (s : str) : parsed str :=
  let! s := e_char (f_alternative F) s in Yields (whitespace_plus_comments s).
Definition e_not_before_separator {A} (x : eres A) : eres A :=
  let~ (a, s) := x in
  match p_tag (f_separator F) s with
  | Some _ => Ok (Fails (mkErr s KNot))
  | None => Ok (Yields (a, s))
  end.
(** src/parsers/mod.rs:173-179 *)
Definition e_expression (fuel : nat) (s : str) : eres expression :=
  e_many1 fuel (fun s => e_not_before_separator (Ok (e_term s))) s.
(** src/parsers/mod.rs:113-116 *)
Definition e_prod_rhs (fuel : nat) (s : str) : eres (list expression) :=
  e_xt_list fuel (e_expression fuel) e_expression_next [] s.
(** src/parsers/mod.rs:185-195: the [alt] at the end of a production. *)
Definition e_production_end (s : str) : parsed unit :=
  match s with
  | [] => Yields tt
  | _ => match f_start F with
         | Some start => let! _ := e_char start (whitespace_plus_comments s) in Yields tt
         | None => let! _ := e_prod_lhs s in Yields tt
         end
  end.
(** src/parsers/mod.rs:181-198 *)
Definition e_production (fuel : nat) (s : str) : eres production :=
  let~ (lhs, s) := Ok (e_prod_lhs s) in
  let~ (rhs, s) := e_prod_rhs fuel s in
  let~ _ := Ok (let! _ := e_production_end s in Yields (tt, s)) in
  Ok (Yields (mkProd lhs rhs, s)).

(** src/parsers/mod.rs:304-328 *)
Definition e_bracketed (a b : char) (inner : str -> eres (list parsed_expression)) (s : str)
    : eres (list parsed_expression) :=
  let~ (_, s) := Ok (let! s := e_char a s in Yields (tt, s)) in
  let~ (es, s) := inner s in
  let~ (_, s) := Ok (let! s := e_char b s in Yields (tt, s)) in
  Ok (Yields (es, whitespace_plus_comments s)).
(** src/parsers/mod.rs:340-348, 373-375 *)
Definition e_rhs_of (fuel : nat) (p : str -> eres parsed_term) (s : str) : eres (list parsed_expression) :=
  e_xt_list fuel (e_many1 fuel (fun s => e_not_before_separator (p s))) e_expression_next [] s.
(** src/parsers/mod.rs:330-338: if no alternative succeeds, the error is that of the optional. *)
Fixpoint e_read_term (fuel : nat) (s : str) : eres parsed_term :=
  match fuel with
  | 0 => OutOfFuel
  | S fuel =>
      match e_terminal s with
      | Yields (t, s') => Ok (Yields (Simple t, s'))
      | Fails _ =>
          match e_nonterminal s with
          | Yields (t, s') => Ok (Yields (Simple t, s'))
          | Fails _ =>
              let inner := e_rhs_of fuel (e_read_term fuel) in
              match e_bracketed c_open c_close inner s with
              | Ok (Yields (es, s')) => Ok (Yields (Group es, s'))
              | Ok (Fails _) => let~ (es, s') := e_bracketed c_lbrack c_rbrack inner s in
                                Ok (Yields (Optional es, s'))
              | Panic => Panic
              | OutOfFuel => OutOfFuel
              end
          end
      end
  end.
(** src/parsers/mod.rs:350-371 *)
Definition e_read_prod_lhs (s : str) : parsed (str * str) :=
  let! (n, s) := e_name s in
  let! s := e_after_lhs (whitespace_plus_comments s) in Yields (n, s).
(** src/parsers/mod.rs:377-384 *)
Definition e_read_production (fuel : nat) (s : str) : eres parsed_production :=
  let~ (lhs, s) := Ok (e_read_prod_lhs s) in
  let~ (rhs, s) := e_rhs_of fuel (e_read_term fuel) s in
  let~ _ := Ok (match s with [] => Yields (tt, s) | _ => let! _ := e_read_prod_lhs s in Yields (tt, s) end) in
  Ok (Yields (mkParsed lhs rhs, s)).
(** src/parsers/mod.rs:386-391 *)
Definition e_read_grammar (fuel : nat) (s : str) : eres parsed_grammar :=
  e_many1 fuel (fun s => e_read_production fuel (whitespace_plus_comments s)) (whitespace_plus_comments s).
(** src/parsers/mod.rs:393-395 *)
Definition e_parsed_grammar_complete (s : str) : res (parsed parsed_grammar) :=
  e_all_consuming (e_read_grammar (fuel_for s) s).
(** src/parsers/mod.rs:253-262; the error of the fast path is dropped. *)
Definition e_grammar_complete (s : str) : res (parsed grammar) :=
  let extended :=
    let* o := e_parsed_grammar_complete s in
    match o with
    | Yields pg => let* g := normalize_parsed_grammar pg in Ok (Yields g)
    | Fails e => Ok (Fails e)
    end in
  if grammar_has_extended_syntax s then extended
  else match all_consuming (plain_grammar alphabetic F (fuel_for s) s) with
       | Ok (Some g) => Ok (Yields g)
       | Ok None => extended
       | Panic => Panic
       | OutOfFuel => OutOfFuel
       end.
End Format.

(** ** Messages *)

Section Messages.
Variable alphabetic : char -> bool.
(** [<str as Debug>::fmt]: quotes and escapes; arbitrary here. *)
Variable debug_str : str -> str.

(** The derived [Debug] of [nom::Err::Error(e)]. *)
Definition debug_error (e : nom_error) : str :=
  lit "Error(Error { input: " ++ debug_str (e_input e) ++ lit ", code: " ++ kind_name (e_code e) ++ lit " })".
(** src/error.rs:33-37 *)
Definition from_nom (e : nom_error) : error := ParseError (lit "Parsing error: " ++ debug_error e).
Definition to_result_with {A} (x : res (parsed A)) : res (result A) :=
  let* o := x in Ok (match o with Yields a => ROk a | Fails e => RErr (from_nom e) end).

(** src/grammar.rs:334-339, 789-812; src/term.rs:49-57; src/expression.rs:142-151;
    src/production.rs:117-125 *)
Definition grammar_parse_from_msg (F : format) (s : str) : res (result grammar) :=
  to_result_with (e_grammar_complete alphabetic F s).
Definition grammar_from_str_msg (s : str) : res (result grammar) :=
  if is_format_standard_bnf s then grammar_parse_from_msg BNF s else grammar_parse_from_msg ABNF s.
Definition term_from_str_msg (s : str) : res (result term) :=
  to_result_with (e_all_consuming (Ok (e_term alphabetic BNF s))).
Definition expression_from_str_msg (s : str) : res (result expression) :=
  to_result_with (e_all_consuming (e_expression alphabetic BNF (fuel_for s) s)).
Definition production_from_str_msg (s : str) : res (result production) :=
  to_result_with (e_all_consuming (e_production alphabetic BNF (fuel_for s) s)).
(** src/error.rs:27-31, 39-44: the conversions from a bare [nom] error and from a text with a kind;
    the crate itself does not use them. *)
Definition from_bare_nom (e : nom_error) : error :=
  ParseError (lit "Parsing error: Error { input: " ++ debug_str (e_input e) ++ lit ", code: " ++ kind_name (e_code e) ++ lit " }").
Definition from_pair (r : str) (k : kind) : error :=
  ParseError (lit "Parsing error: " ++ kind_name k ++ [10%N] ++ lit " " ++ debug_str r).
(** src/error.rs:15-23 [Display]. *)
Definition display_error (e : error) : str :=
  match e with ParseError m | GenerateError m | ValidationError m => m end.
End Messages.
