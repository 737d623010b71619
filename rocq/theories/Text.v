(** Reading grammar text: src/parsers/mod.rs, src/parsers/nom_xt.rs, src/parsers/bnf.rs,
    src/parsers/augmented.rs and the [FromStr] implementations.

    A nom parser is a function from the remaining text to [None] (it returned [Err::Error]) or a
    value and the rest of the text.  Only the [complete] parsers of nom are used and nothing
    produces [Err::Failure], so [Err::Error] is the only kind of failure.  The content of the nom
    error (position and kind), which ends up in the message of [Error::ParseError], is left
    out here and added in TextErrors.v.  Parsers with loops or recursion have a fuel argument and return [res]; the
    entry points supply the length of the text, and that this is enough is proved (C33).
    Tracing spans are in TextTracing.v.  The recursion depth of groups is not bounded by the model
    (see Nesting.v): a stack overflow of the real program on deep nesting is outside of it. *)
From Verif Require Export ParseGrammar Display Decimals.
From Coq Require String.
Import String.StringSyntax.

(** ** Characters *)

(** [char::is_whitespace]: the Unicode property White_Space (25 code points). *)
Definition is_whitespace (c : char) : bool :=
  (N.leb 9 c && N.leb c 13) || N.eqb c 32 || N.eqb c 133 || N.eqb c 160 || N.eqb c 5760 ||
  (N.leb 8192 c && N.leb c 8202) || N.eqb c 8232 || N.eqb c 8233 || N.eqb c 8239 ||
  N.eqb c 8287 || N.eqb c 12288.

Definition c_lf : char := 10%N.
Definition c_cr : char := 13%N.
Definition c_lt : char := 60%N.
Definition c_gt : char := 62%N.
Definition c_bar : char := 124%N.
Definition c_slash : char := 47%N.
Definition c_semi : char := 59%N.
Definition c_open : char := 40%N.
Definition c_close : char := 41%N.
Definition c_lbrack : char := 91%N.
Definition c_rbrack : char := 93%N.

(** ** Formats *)

(** src/parsers/mod.rs:69-79: the trait [Format], as a record of what its functions return. *)
Record format : Type := mkFormat {
  f_delimiter : option (char * char);
  f_separator : str;
  f_alternative : char;
  f_start : option char
}.

(** src/parsers/bnf.rs:6-19 *)
Definition BNF : format := mkFormat (Some (c_lt, c_gt)) (lit "::=") c_bar (Some c_lt).
(** src/parsers/augmented.rs:6-16, with the default of mod.rs:76-78 for the last function *)
Definition ABNF : format := mkFormat None (lit "=") c_slash None.

(** ** nom *)

(** The result of a parser that contains loops. *)
Definition pres (A : Type) := res (option (A * str)).
Definition pbind {A B} (x : pres A) (f : A * str -> pres B) : pres B :=
  match x with
  | Ok (Some y) => f y
  | Ok None => Ok None
  | Panic => Panic
  | OutOfFuel => OutOfFuel
  end.
Notation "'let+' x ':=' e 'in' f" := (pbind e (fun x => f))
  (at level 200, x pattern, right associativity).
(** The same for loop-free parsers. *)
Definition obind {A B} (x : option A) (f : A -> option B) : option B :=
  match x with Some y => f y | None => None end.
Notation "'let?' x ':=' e 'in' f" := (obind e (fun x => f))
  (at level 200, x pattern, right associativity).

(** [complete::char(c)]. *)
Definition p_char (c : char) (s : str) : option str :=
  match s with
  | x :: r => if N.eqb x c then Some r else None
  | [] => None
  end.

(** [tag(t)]. *)
Fixpoint p_tag (t s : str) : option str :=
  match t with
  | [] => Some s
  | x :: t' => match s with
               | y :: s' => if N.eqb x y then p_tag t' s' else None
               | [] => None
               end
  end.

(** [take_till(f)]: the longest prefix of characters not satisfying [f]; never fails. *)
Fixpoint take_till (f : char -> bool) (s : str) : str * str :=
  match s with
  | c :: r => if f c then ([], s) else let (a, b) := take_till f r in (c :: a, b)
  | [] => ([], [])
  end.

(** [take_until("q")] for a one-character string: fails if there is none. *)
Fixpoint take_until (q : char) (s : str) : option (str * str) :=
  match s with
  | c :: r => if N.eqb c q then Some ([], s) else let? (a, b) := take_until q r in Some (c :: a, b)
  | [] => None
  end.

(** [many1(p)] after its first success: stops at the first failure of [p] and fails if [p]
    succeeds without consuming (nom compares the byte lengths of the remaining inputs). *)
Fixpoint many1_loop {A} (fuel : nat) (p : str -> pres A) (acc : list A) (s : str) : pres (list A) :=
  match fuel with
  | 0 => OutOfFuel
  | S fuel =>
      match p s with
      | Ok None => Ok (Some (acc, s))
      | Ok (Some (a, s')) =>
          if Nat.eqb (byte_len s') (byte_len s) then Ok None else many1_loop fuel p (acc ++ [a]) s'
      | Panic => Panic
      | OutOfFuel => OutOfFuel
      end
  end.
(** [many1(p)]. *)
Definition many1 {A} (fuel : nat) (p : str -> pres A) (s : str) : pres (list A) :=
  let+ (a, s) := p s in many1_loop fuel p [a] s.

(** [all_consuming(p)]. *)
Definition all_consuming {A} (x : pres A) : res (option A) :=
  match x with
  | Ok (Some (a, [])) => Ok (Some a)
  | Ok _ => Ok None
  | Panic => Panic
  | OutOfFuel => OutOfFuel
  end.

(** src/parsers/nom_xt.rs:4-35 [xt_list_with_separator]; the [loop] with its accumulator. *)
Fixpoint xt_list {A} (fuel : nat) (p : str -> pres A) (delim : str -> option str) (acc : list A) (s : str)
    : pres (list A) :=
  match fuel with
  | 0 => OutOfFuel
  | S fuel =>
      let+ (a, s) := p s in
      match delim s with
      | Some s => xt_list fuel p delim (acc ++ [a]) s
      | None => Ok (Some (acc ++ [a], s))
      end
  end.

(** ** Tokens *)

(** src/parsers/mod.rs:133-151 [whitespace_plus_comments].  The loop alternates between trimming
    whitespace and, at a [;], dropping everything before the next CR or LF (or the whole rest);
    here it is one recursion over the text.  The line end that ends a comment is whitespace and
    is dropped too. *)
Fixpoint skip (in_comment : bool) (s : str) : str :=
  match s with
  | [] => []
  | c :: r =>
      if in_comment then skip (negb (N.eqb c c_cr || N.eqb c c_lf)) r
      else if is_whitespace c then skip false r
      else if N.eqb c c_semi then skip true r
      else s
  end.
Definition whitespace_plus_comments (s : str) : str := skip false s.

(** src/parsers/mod.rs:120-124 and, with the same text, 286-290: a quoted string. *)
Definition quoted (q : char) (s : str) : option (str * str) :=
  let? s := p_char q s in
  let? (a, s) := take_until q s in
  let? s := p_char q s in Some (a, s).
Definition quoted_string (s : str) : option (str * str) :=
  match quoted dquote s with
  | Some x => Some x
  | None => quoted squote s
  end.

(** src/parsers/mod.rs:118-129 [terminal]. *)
Definition terminal (s : str) : option (term * str) :=
  let? (a, s) := quoted_string s in Some (Terminal a, whitespace_plus_comments s).

Section Format.
Variable alphabetic : char -> bool. (* [char::is_alphabetic], arbitrary *)
Variable F : format.

(** src/parsers/mod.rs:83-94 and, with the same text, 267-278 and 351-362: the name of a
    nonterminal.  Without delimiters the first character is checked but not consumed. *)
Definition name (s : str) : option (str * str) :=
  match f_delimiter F with
  | Some (start, end_) =>
      let? s := p_char start s in
      let (n, s) := take_till (fun c => N.eqb c end_) s in
      let? s := p_char end_ s in Some (n, s)
  | None =>
      match s with
      | c :: _ =>
          if alphabetic c
          then Some (take_till (fun c => is_whitespace c || N.eqb c c_close || N.eqb c c_rbrack) s)
          else None
      | [] => None
      end
  end.

(** src/parsers/mod.rs:81-99 [nonterminal]. *)
Definition nonterminal (s : str) : option (term * str) :=
  let? (n, s) := name s in Some (Nonterminal n, whitespace_plus_comments s).

(** The common part of [prod_lhs] and [parsed_prod_lhs] after the name (mod.rs:105-108,
    365-368): separator, optional alternative separator, layout. *)
Definition after_lhs (s : str) : option str :=
  let? s := p_tag (f_separator F) s in
  let s := match p_char (f_alternative F) s with Some s => s | None => s end in
  Some (whitespace_plus_comments s).

(** src/parsers/mod.rs:101-111 [prod_lhs]. *)
Definition prod_lhs (s : str) : option (term * str) :=
  let? (nt, s) := nonterminal s in
  let? s := after_lhs s in Some (nt, s).

(** src/parsers/mod.rs:160-163 [term]. *)
Definition parse_term (s : str) : option (term * str) :=
  match terminal s with
  | Some x => Some x
  | None => nonterminal s
  end.

(** src/parsers/mod.rs:165-171 [expression_next] and 297-302 [parsed_expression_next]. *)
Definition expression_next (s : str) : option str :=
  let? s := p_char (f_alternative F) s in Some (whitespace_plus_comments s).

(** [terminated(p, not(tag(F::production_separator())))]: [not] consumes nothing. *)
Definition not_before_separator {A} (x : pres A) : pres A :=
  let+ (a, s) := x in
  match p_tag (f_separator F) s with
  | Some _ => Ok None
  | None => Ok (Some (a, s))
  end.

(** src/parsers/mod.rs:173-179 [expression]. *)
Definition parse_expression (fuel : nat) (s : str) : pres expression :=
  many1 fuel (fun s => not_before_separator (Ok (parse_term s))) s.

(** src/parsers/mod.rs:113-116 [prod_rhs]. *)
Definition prod_rhs (fuel : nat) (s : str) : pres (list expression) :=
  xt_list fuel (parse_expression fuel) expression_next [] s.

(** src/parsers/mod.rs:181-198 [production]; the check at the end only looks ahead. *)
Definition production_end (s : str) : bool :=
  match s with
  | [] => true
  | _ => match f_start F with
         | Some start => match p_char start (whitespace_plus_comments s) with Some _ => true | None => false end
         | None => match prod_lhs s with Some _ => true | None => false end
         end
  end.
Definition parse_production (fuel : nat) (s : str) : pres production :=
  let+ (lhs, s) := Ok (prod_lhs s) in
  let+ (rhs, s) := prod_rhs fuel s in
  if production_end s then Ok (Some (mkProd lhs rhs, s)) else Ok None.

(** src/parsers/mod.rs:241-249 [plain_grammar]: needs two productions. *)
Definition plain_grammar (fuel : nat) (s : str) : pres grammar :=
  let s := whitespace_plus_comments s in
  let+ (first, s) := parse_production fuel s in
  let+ (rest, s) := many1 fuel (fun s => parse_production fuel (whitespace_plus_comments s)) s in
  Ok (Some (first :: rest, s)).
End Format.

(** ** Extended syntax *)

(** src/parsers/mod.rs:31-38 [ParsedTerm] and 42-45 [ParsedExpression] (its only constructor is
    represented by its field). *)
Inductive parsed_term : Type :=
| Simple (t : term)
| Group (es : list (list parsed_term))
| Optional (es : list (list parsed_term)).
Definition parsed_expression := list parsed_term.
(** src/parsers/mod.rs:49-55 [ParsedProduction]. *)
Record parsed_production : Type := mkParsed { pp_lhs : str; pp_rhs : list parsed_expression }.
(** src/parsers/mod.rs:59-67 [ParsedGrammar], represented by its field. *)
Definition parsed_grammar := list parsed_production.

(** src/parsers/mod.rs:211-238 [grammar_has_extended_syntax]: the scan; the two flags
    [in_double] and [in_single] are one value. *)
Fixpoint extended_scan (inside : option char) (s : str) : bool :=
  match s with
  | [] => false
  | c :: r =>
      match inside with
      | Some q => extended_scan (if N.eqb c q then None else Some q) r
      | None =>
          if N.eqb c dquote then extended_scan (Some dquote) r
          else if N.eqb c squote then extended_scan (Some squote) r
          else if N.eqb c c_open || N.eqb c c_lbrack then true
          else extended_scan None r
      end
  end.
Definition grammar_has_extended_syntax (s : str) : bool :=
  if negb (str_contains c_open s) && negb (str_contains c_lbrack s) then false
  else extended_scan None s.

Section Extended.
Variable alphabetic : char -> bool.
Variable F : format.

(** src/parsers/mod.rs:304-315, 317-328: a group in brackets [a], [b]. *)
Definition bracketed (a b : char) (inner : str -> pres (list parsed_expression)) (s : str)
    : pres (list parsed_expression) :=
  let+ (_, s) := Ok (option_map (pair tt) (p_char a s)) in
  let+ (es, s) := inner s in
  let+ (_, s) := Ok (option_map (pair tt) (p_char b s)) in
  Ok (Some (es, whitespace_plus_comments s)).

(** src/parsers/mod.rs:340-348 [parsed_expression], for a given parser of terms. *)
Definition expression_of (fuel : nat) (p : str -> pres parsed_term) (s : str) : pres parsed_expression :=
  many1 fuel (fun s => not_before_separator F (p s)) s.

(** src/parsers/mod.rs:373-375 [parsed_prod_rhs]; also the inside of groups. *)
Definition rhs_of (fuel : nat) (p : str -> pres parsed_term) (s : str) : pres (list parsed_expression) :=
  xt_list fuel (expression_of fuel p) (expression_next F) [] s.

(** src/parsers/mod.rs:330-338 [parsed_term] with [parsed_terminal] (285-295),
    [parsed_nonterminal] (266-283), [parsed_anonymous_group] and [parsed_optional_group]. *)
Fixpoint read_term (fuel : nat) (s : str) : pres parsed_term :=
  match fuel with
  | 0 => OutOfFuel
  | S fuel =>
      match terminal s with
      | Some (t, s') => Ok (Some (Simple t, s'))
      | None =>
          match nonterminal alphabetic F s with
          | Some (t, s') => Ok (Some (Simple t, s'))
          | None =>
              let inner := rhs_of fuel (read_term fuel) in
              match bracketed c_open c_close inner s with
              | Ok (Some (es, s')) => Ok (Some (Group es, s'))
              | Ok None => let+ (es, s') := bracketed c_lbrack c_rbrack inner s in
                           Ok (Some (Optional es, s'))
              | Panic => Panic
              | OutOfFuel => OutOfFuel
              end
          end
      end
  end.

(** src/parsers/mod.rs:350-371 [parsed_prod_lhs]. *)
Definition read_prod_lhs (s : str) : option (str * str) :=
  let? (n, s) := name alphabetic F s in
  let? s := after_lhs F (whitespace_plus_comments s) in Some (n, s).

(** src/parsers/mod.rs:377-384 [parsed_production]. *)
Definition read_production (fuel : nat) (s : str) : pres parsed_production :=
  let+ (lhs, s) := Ok (read_prod_lhs s) in
  let+ (rhs, s) := rhs_of fuel (read_term fuel) s in
  match s with
  | [] => Ok (Some (mkParsed lhs rhs, s))
  | _ => match read_prod_lhs s with
         | Some _ => Ok (Some (mkParsed lhs rhs, s))
         | None => Ok None
         end
  end.

(** src/parsers/mod.rs:386-391 [parsed_grammar]. *)
Definition read_grammar (fuel : nat) (s : str) : pres parsed_grammar :=
  many1 fuel (fun s => read_production fuel (whitespace_plus_comments s)) (whitespace_plus_comments s).
End Extended.

(** The fuel supplied by the entry points. *)
Definition fuel_for (s : str) : nat := S (S (length s)).

(** src/parsers/mod.rs:393-395 [parsed_grammar_complete]. *)
Definition parsed_grammar_complete (alphabetic : char -> bool) (F : format) (s : str) : res (option parsed_grammar) :=
  all_consuming (read_grammar alphabetic F (fuel_for s) s).

(** ** Normalization *)

(** The mutable state: the set [used_names], [counter] ([nat] instead of [usize]) and
    [anon_prods]. *)
Record lstate : Type := mkL { l_used : list str; l_counter : nat; l_anon : list production }.

(** src/parsers/mod.rs:412-421 [fresh_anon_name]; one unit of fuel per iteration. *)
Fixpoint fresh_anon_name (fuel : nat) (used : list str) (counter : nat) : res (str * list str * nat) :=
  match fuel with
  | 0 => OutOfFuel
  | S fuel =>
      let candidate := lit "__anon" ++ dec counter in
      if str_memb candidate used then fresh_anon_name fuel used (S counter)
      else Ok (candidate, candidate :: used, S counter)
  end.
Definition fresh (st : lstate) : res (str * lstate) :=
  let* (n, used, counter) := fresh_anon_name (S (length (l_used st))) (l_used st) (l_counter st) in
  Ok (n, mkL used counter (l_anon st)).
Definition push_anon (p : production) (st : lstate) : lstate :=
  mkL (l_used st) (l_counter st) (l_anon st ++ [p]).

(** [into_iter().map(f).collect()] with a stateful [f]. *)
Definition map_st {A B} (f : A -> lstate -> res (B * lstate)) : list A -> lstate -> res (list B * lstate) :=
  fix go l st :=
    match l with
    | [] => Ok ([], st)
    | x :: l => let* (y, st) := f x st in let* (ys, st) := go l st in Ok (y :: ys, st)
    end.

(** src/parsers/mod.rs:437-475 [lower_term] with [lower_expression] (423-435). *)
Fixpoint lower_term (t : parsed_term) (st : lstate) : res (term * lstate) :=
  match t with
  | Simple t => Ok (t, st)
  | Group es =>
      let* (n, st) := fresh st in
      let* (rhs, st) := map_st (map_st lower_term) es st in
      let rhs := match rhs with [] => [[Terminal []]] | _ => rhs end in
      Ok (Nonterminal n, push_anon (mkProd (Nonterminal n) rhs) st)
  | Optional es =>
      let* (n, st) := fresh st in
      let* (rhs, st) := map_st (map_st lower_term) es st in
      let rhs := rhs ++ [[Terminal []]] in
      Ok (Nonterminal n, push_anon (mkProd (Nonterminal n) rhs) st)
  end.
Definition lower_expression : parsed_expression -> lstate -> res (expression * lstate) := map_st lower_term.

(** src/parsers/mod.rs:480-488: the body of the loop over the productions. *)
Definition lower_production (p : parsed_production) (st : lstate) : res (production * lstate) :=
  let* (rhs, st) := map_st lower_expression (pp_rhs p) st in
  Ok (mkProd (Nonterminal (pp_lhs p)) rhs, st).

(** src/parsers/mod.rs:401-492 [normalize_parsed_grammar]. *)
Definition normalize_parsed_grammar (g : parsed_grammar) : res grammar :=
  let* (out, st) := map_st lower_production g (mkL (map pp_lhs g) 0 []) in
  Ok (out ++ l_anon st).

(** ** Entry points *)

Section Entry.
Variable alphabetic : char -> bool.

(** src/parsers/mod.rs:253-262 [grammar_complete]. *)
Definition grammar_complete (F : format) (s : str) : res (option grammar) :=
  let extended :=
    let* o := parsed_grammar_complete alphabetic F s in
    match o with
    | Some pg => let* g := normalize_parsed_grammar pg in Ok (Some g)
    | None => Ok None
    end in
  if grammar_has_extended_syntax s then extended
  else match all_consuming (plain_grammar alphabetic F (fuel_for s) s) with
       | Ok (Some g) => Ok (Some g)
       | Ok None => extended
       | Panic => Panic
       | OutOfFuel => OutOfFuel
       end.

(** src/error.rs:33-37: the message is this prefix and the [Debug] text of the nom error, which
    is left out here (see TextErrors.v). *)
Definition parse_error : error := ParseError (lit "Parsing error: ").
Definition to_result {A} (x : res (option A)) : res (result A) :=
  let* o := x in Ok (match o with Some a => ROk a | None => RErr parse_error end).

(** src/grammar.rs:334-339 [Grammar::parse_from]. *)
Definition grammar_parse_from (F : format) (s : str) : res (result grammar) :=
  to_result (grammar_complete F s).

(** src/parsers/mod.rs:153-158 [is_format_standard_bnf] *)
Definition is_format_standard_bnf (s : str) : bool :=
  match p_char c_lt (whitespace_plus_comments s) with Some _ => true | None => false end.

(** src/grammar.rs:789-804, with the default feature ABNF. *)
Definition grammar_from_str (s : str) : res (result grammar) :=
  if is_format_standard_bnf s then to_result (grammar_complete BNF s)
  else to_result (grammar_complete ABNF s).
(** src/grammar.rs:805-812, without the feature. *)
Definition grammar_from_str_no_abnf (s : str) : res (result grammar) :=
  to_result (grammar_complete BNF s).

(** src/term.rs:49-57 *)
Definition term_from_str (s : str) : res (result term) :=
  to_result (all_consuming (Ok (parse_term alphabetic BNF s))).
(** src/expression.rs:142-151 *)
Definition expression_from_str (s : str) : res (result expression) :=
  to_result (all_consuming (parse_expression alphabetic BNF (fuel_for s) s)).
(** src/production.rs:117-125 *)
Definition production_from_str (s : str) : res (result production) :=
  to_result (all_consuming (parse_production alphabetic BNF (fuel_for s) s)).
End Entry.
