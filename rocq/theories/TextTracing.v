(** What the optional feature [tracing] reports while a grammar text is read and a parser is built: the [span!] calls of
    src/parsers/mod.rs, src/parser/mod.rs:43 and src/parser/grammar.rs:35 (src/tracing.rs).

    Each function below is the function of the same name in Text.v (or ParseGrammar.v), returning also the list of what
    a subscriber that takes everything is told.  A span is left when the function returns, also by [?].  The functions
    for the extended syntax ([parsed_...] in src/parsers/mod.rs) have no spans of their own but call
    [whitespace_plus_comments]; what they have in common with the others in Text.v is separate here. *)
From Verif Require Export Tracing Text.
From Coq Require Import String.
Open Scope list_scope.

(** A result and what is reported. *)
Definition noted (A : Type) : Type := (A * log)%type.
Definition silent {A} (x : A) : noted A := (x, []).
Definition after {A} (l : log) (x : noted A) : noted A := (fst x, l ++ snd x).
Definition within {A} (name : string) (x : noted A) : noted A := (fst x, span name (snd x)).
Definition noting {A B} (f : A -> B) (x : noted A) : noted B := (f (fst x), snd x).

Definition obind_l {A B} (x : noted (option A)) (f : A -> noted (option B)) : noted (option B) :=
  match fst x with Some y => after (snd x) (f y) | None => (None, snd x) end.
Notation "'let?@' x ':=' e 'in' f" := (obind_l e (fun x => f)) (at level 200, x pattern, right associativity).
Definition pbind_l {A B} (x : noted (pres A)) (f : A * str -> noted (pres B)) : noted (pres B) :=
  match fst x with
  | Ok (Some y) => after (snd x) (f y)
  | Ok None => (Ok None, snd x)
  | Panic => (Panic, snd x)
  | OutOfFuel => (OutOfFuel, snd x)
  end.
Notation "'let+@' x ':=' e 'in' f" := (pbind_l e (fun x => f)) (at level 200, x pattern, right associativity).
(** [alt] of two. *)
Definition or_l {A} (x y : noted (option A)) : noted (option A) :=
  match fst x with Some _ => x | None => after (snd x) y end.

(** src/parsers/mod.rs:134 *)
Definition ws_l (s : str) : noted str := within "whitespace_plus_comments" (silent (whitespace_plus_comments s)).
(** The last step of most parsers: a value, and the text after the layout. *)
Definition then_ws {A} (a : A) (s : str) : noted (option (A * str)) := noting (fun s => Some (a, s)) (ws_l s).

(** ** Loops *)
Fixpoint many1_loop_l {A} (fuel : nat) (p : str -> noted (pres A)) (acc : list A) (s : str) : noted (pres (list A)) :=
  match fuel with
  | 0 => silent OutOfFuel
  | S fuel =>
      let x := p s in
      match fst x with
      | Ok None => (Ok (Some (acc, s)), snd x)
      | Ok (Some (a, s')) =>
          if Nat.eqb (byte_len s') (byte_len s) then (Ok None, snd x)
          else after (snd x) (many1_loop_l fuel p (acc ++ [a]) s')
      | Panic => (Panic, snd x)
      | OutOfFuel => (OutOfFuel, snd x)
      end
  end.
Definition many1_l {A} (fuel : nat) (p : str -> noted (pres A)) (s : str) : noted (pres (list A)) :=
  let+@ (a, s) := p s in many1_loop_l fuel p [a] s.
Fixpoint xt_list_l {A} (fuel : nat) (p : str -> noted (pres A)) (delim : str -> noted (option str))
    (acc : list A) (s : str) : noted (pres (list A)) :=
  match fuel with
  | 0 => silent OutOfFuel
  | S fuel =>
      let+@ (a, s) := p s in
      let d := delim s in
      match fst d with
      | Some s' => after (snd d) (xt_list_l fuel p delim (acc ++ [a]) s')
      | None => (Ok (Some (acc ++ [a], s)), snd d)
      end
  end.

(** ** Plain syntax *)

(** src/parsers/mod.rs:118-129 *)
Definition terminal_l (s : str) : noted (option (term * str)) :=
  within "terminal" (let?@ (a, s) := silent (quoted_string s) in then_ws (Terminal a) s).

Section Format.
Variable alphabetic : char -> bool.
Variable F : format.

(** src/parsers/mod.rs:81-99 *)
Definition nonterminal_l (s : str) : noted (option (term * str)) :=
  within "nonterminal" (let?@ (n, s) := silent (name alphabetic F s) in then_ws (Nonterminal n) s).
(** src/parsers/mod.rs:105-108 and 365-368 *)
Definition after_lhs_l (s : str) : noted (option str) :=
  let?@ s := silent (p_tag (f_separator F) s) in
  let s := match p_char (f_alternative F) s with Some s => s | None => s end in
  noting Some (ws_l s).
(** src/parsers/mod.rs:101-111 *)
Definition prod_lhs_l (s : str) : noted (option (term * str)) :=
  within "prod_lhs" (let?@ (nt, s) := nonterminal_l s in let?@ s := after_lhs_l s in silent (Some (nt, s))).
(** src/parsers/mod.rs:160-163 *)
Definition parse_term_l (s : str) : noted (option (term * str)) := within "term" (or_l (terminal_l s) (nonterminal_l s)).
(** src/parsers/mod.rs:297-302 *)
Definition read_next_l (s : str) : noted (option str) :=
  let?@ s := silent (p_char (f_alternative F) s) in noting Some (ws_l s).
(** src/parsers/mod.rs:165-171 *)
Definition expression_next_l (s : str) : noted (option str) := within "expression_next" (read_next_l s).
Definition not_before_separator_l {A} (x : noted (pres A)) : noted (pres A) := noting (not_before_separator F) x.
(** src/parsers/mod.rs:173-179 *)
Definition parse_expression_l (fuel : nat) (s : str) : noted (pres expression) :=
  within "expression" (many1_l fuel (fun s => not_before_separator_l (noting Ok (parse_term_l s))) s).
(** src/parsers/mod.rs:113-116 *)
Definition prod_rhs_l (fuel : nat) (s : str) : noted (pres (list expression)) :=
  within "prod_rhs" (xt_list_l fuel (parse_expression_l fuel) expression_next_l [] s).
(** src/parsers/mod.rs:185-195 *)
Definition production_end_l (s : str) : noted bool :=
  match s with
  | [] => silent true
  | _ => match f_start F with
         | Some start => noting (fun s => match p_char start s with Some _ => true | None => false end) (ws_l s)
         | None => noting (fun x => match x with Some _ => true | None => false end) (prod_lhs_l s)
         end
  end.
(** src/parsers/mod.rs:181-198 *)
Definition parse_production_l (fuel : nat) (s : str) : noted (pres production) :=
  within "production" (
    let+@ (lhs, s) := noting Ok (prod_lhs_l s) in
    let+@ (rhs, s) := prod_rhs_l fuel s in
    noting (fun b : bool => if b then Ok (Some (mkProd lhs rhs, s)) else Ok None) (production_end_l s)).
(** src/parsers/mod.rs:241-249 *)
Definition plain_grammar_l (fuel : nat) (s : str) : noted (pres grammar) :=
  within "plain_grammar" (
    after (snd (ws_l s)) (
      let+@ (first, s) := parse_production_l fuel (fst (ws_l s)) in
      let+@ (rest, s) := many1_l fuel (fun s => after (snd (ws_l s)) (parse_production_l fuel (fst (ws_l s)))) s in
      silent (Ok (Some (first :: rest, s))))).

(** ** Extended syntax *)

(** src/parsers/mod.rs:285-295 and 266-283 *)
Definition read_terminal_l (s : str) : noted (option (parsed_term * str)) :=
  let?@ (a, s) := silent (quoted_string s) in then_ws (Simple (Terminal a)) s.
Definition read_nonterminal_l (s : str) : noted (option (parsed_term * str)) :=
  let?@ (n, s) := silent (name alphabetic F s) in then_ws (Simple (Nonterminal n)) s.
(** src/parsers/mod.rs:304-315 and 317-328 *)
Definition bracketed_l (a b : char) (inner : str -> noted (pres (list parsed_expression))) (s : str)
    : noted (pres (list parsed_expression)) :=
  let+@ (_, s) := silent (Ok (option_map (pair tt) (p_char a s))) in
  let+@ (es, s) := inner s in
  let+@ (_, s) := silent (Ok (option_map (pair tt) (p_char b s))) in
  noting Ok (then_ws es s).
(** src/parsers/mod.rs:340-348 and 373-375 *)
Definition expression_of_l (fuel : nat) (p : str -> noted (pres parsed_term)) (s : str) : noted (pres parsed_expression) :=
  many1_l fuel (fun s => not_before_separator_l (p s)) s.
Definition rhs_of_l (fuel : nat) (p : str -> noted (pres parsed_term)) (s : str) : noted (pres (list parsed_expression)) :=
  xt_list_l fuel (expression_of_l fuel p) read_next_l [] s.
(** src/parsers/mod.rs:330-338 *)
Fixpoint read_term_l (fuel : nat) (s : str) : noted (pres parsed_term) :=
  match fuel with
  | 0 => silent OutOfFuel
  | S fuel =>
      match read_terminal_l s with
      | (Some x, l) => (Ok (Some x), l)
      | (None, l) => after l (
          match read_nonterminal_l s with
          | (Some x, l) => (Ok (Some x), l)
          | (None, l) => after l (
              let inner := rhs_of_l fuel (read_term_l fuel) in
              match bracketed_l c_open c_close inner s with
              | (Ok (Some (es, s')), l) => (Ok (Some (Group es, s')), l)
              | (Ok None, l) => after l (let+@ (es, s') := bracketed_l c_lbrack c_rbrack inner s in silent (Ok (Some (Optional es, s'))))
              | (Panic, l) => (Panic, l)
              | (OutOfFuel, l) => (OutOfFuel, l)
              end)
          end)
      end
  end.
(** src/parsers/mod.rs:350-371 *)
Definition read_prod_lhs_l (s : str) : noted (option (str * str)) :=
  let?@ (n, s) := silent (name alphabetic F s) in
  after (snd (ws_l s)) (let?@ s := after_lhs_l (fst (ws_l s)) in silent (Some (n, s))).
(** src/parsers/mod.rs:377-384 *)
Definition read_production_l (fuel : nat) (s : str) : noted (pres parsed_production) :=
  let+@ (lhs, s) := noting Ok (read_prod_lhs_l s) in
  let+@ (rhs, s) := rhs_of_l fuel (read_term_l fuel) s in
  match s with
  | [] => silent (Ok (Some (mkParsed lhs rhs, s)))
  | _ => noting (fun x => match x with Some _ => Ok (Some (mkParsed lhs rhs, s)) | None => Ok None end) (read_prod_lhs_l s)
  end.
(** src/parsers/mod.rs:386-391 *)
Definition read_grammar_l (fuel : nat) (s : str) : noted (pres parsed_grammar) :=
  after (snd (ws_l s))
    (many1_l fuel (fun s => after (snd (ws_l s)) (read_production_l fuel (fst (ws_l s)))) (fst (ws_l s))).

(** ** Entry points *)

(** src/parsers/mod.rs:253-262 and 393-395 *)
Definition grammar_complete_l (s : str) : noted (res (option grammar)) :=
  let extended :=
    noting (fun x => let* o := all_consuming x in
                     match o with
                     | Some pg => let* g := normalize_parsed_grammar pg in Ok (Some g)
                     | None => Ok None
                     end) (read_grammar_l (fuel_for s) s) in
  within "grammar_complete" (
    if grammar_has_extended_syntax s then extended
    else let x := plain_grammar_l (fuel_for s) s in
         match all_consuming (fst x) with
         | Ok (Some g) => (Ok (Some g), snd x)
         | Ok None => after (snd x) extended
         | Panic => (Panic, snd x)
         | OutOfFuel => (OutOfFuel, snd x)
         end).
(** src/grammar.rs:334-339 *)
Definition grammar_parse_from_l (s : str) : noted (res (result grammar)) := noting to_result (grammar_complete_l s).
End Format.

Section Entry.
Variable alphabetic : char -> bool.

(** src/parsers/mod.rs:153-158 *)
Definition is_format_standard_bnf_l (s : str) : noted bool :=
  noting (fun s => match p_char c_lt s with Some _ => true | None => false end) (ws_l s).
(** src/grammar.rs:789-804 and 805-812 *)
Definition grammar_from_str_l (s : str) : noted (res (result grammar)) :=
  let x := is_format_standard_bnf_l s in
  after (snd x) (noting to_result (grammar_complete_l alphabetic (if fst x then BNF else ABNF) s)).
Definition grammar_from_str_no_abnf_l (s : str) : noted (res (result grammar)) :=
  noting to_result (grammar_complete_l alphabetic BNF s).
(** src/term.rs:49-57, src/expression.rs:142-151 and src/production.rs:117-125 *)
Definition term_from_str_l (s : str) : noted (res (result term)) :=
  noting (fun x => to_result (all_consuming (Ok x))) (parse_term_l alphabetic BNF s).
Definition expression_from_str_l (s : str) : noted (res (result expression)) :=
  noting (fun x => to_result (all_consuming x)) (parse_expression_l alphabetic BNF (fuel_for s) s).
Definition production_from_str_l (s : str) : noted (res (result production)) :=
  noting (fun x => to_result (all_consuming x)) (parse_production_l alphabetic BNF (fuel_for s) s).
End Entry.

(** src/parser/mod.rs:42-52 and src/parser/grammar.rs:34-72: without a production the first returns before the second
    is called. *)
Definition build_parser_l (ho : hash_order) (g : grammar) : noted (result grammar_parser) :=
  within "GrammarParser::new" (
    match starting_term g with
    | None => silent (RErr (ValidationError msg_empty))
    | Some st =>
        noting (fun r => match r with RErr e => RErr e | ROk pg => ROk (mkGP st pg) end)
          (within "ParseGrammar_new" (silent (pg_new ho g)))
    end).
