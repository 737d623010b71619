(** The programs in examples/ and what the benchmarks in benches/ do with their grammars.  The text that is
    printed is a pair: standard output and standard error. *)
From Verif Require Export Fixtures TextErrors Debug TreeFormat ParseGrammar Generation Strategies.
From Coq Require Import String.
Import String.StringSyntax.
Open Scope list_scope.

Definition line (s : str) : str := s ++ [10%N].

(** examples/create_grammar.rs:12-15, examples/parse_tree.rs:12-15 *)
Definition example_text : str := utf8 "
        <dna> ::= <base> | <base> <dna>
        <base> ::= 'A' | 'C' | 'G' | 'T'
    "%string.
(** examples/parse_tree_explicit_entrypoint.rs:13-16 *)
Definition reversed_text : str := utf8 "
        <base> ::= 'A' | 'C' | 'G' | 'T'
        <dna> ::= <base> | <base> <dna>
    "%string.
(** benches/divan.rs:79-82, 212-215, 260-263, 322-325, 350-353 *)
Definition polish_text : str := utf8 "<product> ::= <number> | <op> <product> <product>
            <op> ::= '+' | '-' | '*' | '/'
            <number> ::= '0' | '1' | '2' | '3' | '4' | '5' | '6' | '7' | '8' | '9'
        "%string.
(** benches/divan.rs:114-116, 294-296 *)
Definition nullable_text : str := utf8 "
                <a> ::= '' | <b>
                <b> ::= <a>"%string.

Section Programs.
  Variable alphabetic : char -> bool.
  Variable plain : char -> bool.

  (** examples/create_grammar.rs:10-35, with the source of random numbers of [generate]. *)
  Definition create_grammar {R} (rng : rng_ops R) (text : str) (fuel : nat) (r : R) : res ((str * str) * R) :=
    let* g := grammar_from_str_msg alphabetic (debug_str plain) text in
    match g with
    | ROk g =>
        let out := line (lit "Successfully created Grammar!") ++ line (lit "Grammar structure:") ++ line (pretty_grammar plain 0 g) ++
                   line [] ++ line (lit "Generating a random DNA sequence:") in
        let* (s, r) := generate_random rng (fun _ _ => true) g fuel r in
        Ok ((out ++ match s with
                    | ROk s => line (lit "Generated: " ++ s)
                    | RErr e => line (lit "Error generating: " ++ display_error e)
                    end, []), r)
    | RErr e => Ok ((line (lit "Failed to create grammar from BNF string: " ++ display_error e), []), r)
    end.

  (** examples/parse_tree.rs:10-49 ([None]) and examples/parse_tree_explicit_entrypoint.rs:11-53 (the term to
      start with), with any text and sentence. *)
  Definition parse_tree_example (ho : hash_order) (target : option str) (text sentence : str) (fuel : nat) : res (str * str) :=
    let* g := grammar_from_str_msg alphabetic (debug_str plain) text in
    match g with
    | RErr e => Ok ([], line (lit "Failed to create grammar from BNF string: " ++ display_error e))
    | ROk g =>
        match build_parser ho g with
        | RErr e => Ok ([], line (lit "Failed to create parser: " ++ display_error e))
        | ROk p =>
            let* it := match target with
                       | None => parse_input p sentence
                       | Some n => parse_input_starting_with p sentence (Nonterminal n)
                       end in
            let* (o, _) := iter_next fuel it in
            Ok (match target with
                | None => line (lit "Parsing input: " ++ sentence)
                | Some n => line (lit "Parsing input with <" ++ n ++ lit ">: " ++ sentence)
                end ++
                match o with
                | Some t => line (lit "Parse tree:" ++ [10%N] ++ display_tree t)
                | None => line (lit "Grammar could not parse the sentence")
                end, [])
        end
    end.
End Programs.

(** benches/divan.rs:132-135, 313-316: [take(k)] and [for_each]; the trees that are dropped. *)
Fixpoint take_trees (fuel k : nat) (it : piter) : res (list ptree * piter) :=
  match k with
  | 0 => Ok ([], it)
  | S k =>
      let* (o, it) := iter_next fuel it in
      match o with
      | None => Ok ([], it)
      | Some t => let* (ts, it) := take_trees fuel k it in Ok (t :: ts, it)
      end
  end.

(** ** Specification *)

(** The letters of the example are printed as they are by [{:?}]. *)
Definition readable (plain : char -> bool) : Prop := forall c, In c (lit "abdensACGT") -> plain c = true.

Definition example_structure : str := utf8 "Grammar {
    productions: [
        Production {
            lhs: Nonterminal(
                ""dna"",
            ),
            rhs: [
                Expression {
                    terms: [
                        Nonterminal(
                            ""base"",
                        ),
                    ],
                },
                Expression {
                    terms: [
                        Nonterminal(
                            ""base"",
                        ),
                        Nonterminal(
                            ""dna"",
                        ),
                    ],
                },
            ],
        },
        Production {
            lhs: Nonterminal(
                ""base"",
            ),
            rhs: [
                Expression {
                    terms: [
                        Terminal(
                            ""A"",
                        ),
                    ],
                },
                Expression {
                    terms: [
                        Terminal(
                            ""C"",
                        ),
                    ],
                },
                Expression {
                    terms: [
                        Terminal(
                            ""G"",
                        ),
                    ],
                },
                Expression {
                    terms: [
                        Terminal(
                            ""T"",
                        ),
                    ],
                },
            ],
        },
    ],
}"%string.

(** What examples/create_grammar.rs prints when it generates [w]. *)
Definition created (w : str) : str :=
  line (lit "Successfully created Grammar!") ++ line (lit "Grammar structure:") ++ line example_structure ++
  line [] ++ line (lit "Generating a random DNA sequence:") ++ line (lit "Generated: " ++ w).

(** The picture of the tree of a DNA sequence: [own] precedes the first line, [pad] the others. *)
Fixpoint dna_picture (own pad : str) (c : char) (w : str) : str :=
  let quoted := [34%N; c; 34%N] in
  match w with
  | [] => line (own ++ lit "<dna> ::= <base>") ++ line (pad ++ utf8 "└── <base> ::= " ++ quoted) ++ line (pad ++ utf8 "    └── " ++ quoted)
  | c' :: w =>
      line (own ++ lit "<dna> ::= <base> <dna>") ++ line (pad ++ utf8 "├── <base> ::= " ++ quoted) ++ line (pad ++ utf8 "│   └── " ++ quoted) ++
      dna_picture (pad ++ utf8 "└── ") (pad ++ utf8 "    ") c' w
  end.

(** What the other two examples print after their first line. *)
Definition verdict (sentence out : str) : Prop :=
  match sentence with
  | [] => out = line (lit "Grammar could not parse the sentence")
  | c :: w => Forall (fun c => In c (lit "ACGT")) sentence /\ out = line (lit "Parse tree:" ++ [10%N] ++ dna_picture [] [] c w) \/
              ~ Forall (fun c => In c (lit "ACGT")) sentence /\ out = line (lit "Grammar could not parse the sentence")
  end.

(** Arithmetic expressions in Polish notation, their texts and their trees. *)
Inductive polish : Type :=
| Number (c : char)
| Operation (o : char) (x y : polish).
Fixpoint well_spelled (e : polish) : Prop :=
  match e with
  | Number c => In c (lit "0123456789")
  | Operation o x y => In o (lit "+-*/") /\ well_spelled x /\ well_spelled y
  end.
Fixpoint spelled (e : polish) : str :=
  match e with
  | Number c => [c]
  | Operation o x y => o :: spelled x ++ spelled y
  end.
Fixpoint polish_tree (e : polish) : ptree :=
  let rule n ks := Sub (Node (Nonterminal n) ks) in
  Node (Nonterminal (lit "product"))
    match e with
    | Number c => [rule (lit "number") [Leaf [c]]]
    | Operation o x y => [rule (lit "op") [Leaf [o]]; Sub (polish_tree x); Sub (polish_tree y)]
    end.

(** <a> ::= '' and k times around the cycle. *)
Fixpoint tower (k : nat) : ptree :=
  Node (Nonterminal (lit "a"))
    match k with
    | 0 => [Leaf []]
    | S k => [Sub (Node (Nonterminal (lit "b")) [Sub (tower k)])]
    end.
