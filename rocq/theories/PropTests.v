(** The generators and checks of the repository's property tests: the test modules of src/term.rs,
    src/expression.rs, src/production.rs, src/grammar.rs, src/parser/mod.rs, src/earley/mod.rs, and
    tests/parse_input.rs.  (Those of tests/grammar.rs are the subject of C75.)

    A quickcheck [Gen] is a source of values of the primitive types: any state with any functions
    that return a value and a new state. *)
From Verif Require Export EarleySpec TreeFormat Text Strategies.
From Coq Require String.
Import String.StringSyntax.

Record gen_ops (G : Type) : Type := mkGen {
  any_usize : G -> nat * G;
  any_bool : G -> bool * G;
  any_string : G -> str * G
}.
Arguments any_usize {G} _ _.
Arguments any_bool {G} _ _.
Arguments any_string {G} _ _.

Section Generators.
  Context {G : Type} (ops : gen_ops G).

  (** [(0..n).map(|i| ...).collect()] and the [for] loops that push; [i] counts from [from]. *)
  Fixpoint each {A} (f : nat -> G -> A * G) (from n : nat) (g : G) : list A * G :=
    match n with
    | 0 => ([], g)
    | S n => let (x, g) := f from g in
             let (l, g) := each f (S from) n g in
             (x :: l, g)
    end.

  (** [Vec::arbitrary]: any number of elements. *)
  Definition any_vec {A} (f : G -> A * G) (g : G) : list A * G :=
    let (n, g) := any_usize ops g in each (fun _ => f) 0 n g.

  Definition without (c : char) (s : str) : str := filter (fun x => negb (N.eqb x c)) s.

  (** src/term.rs:107-122 *)
  Definition any_term (g : G) : term * G :=
    let (s, g) := any_string ops g in
    let (b, g) := any_bool ops g in
    if b then (Nonterminal (without 62%N s), g)
    else (Terminal (if str_contains 34%N s then without 39%N s
                    else if str_contains 39%N s then without 34%N s
                    else s), g).

  (** src/expression.rs:202-211 *)
  Definition any_expression (g : G) : expression * G :=
    let (ts, g) := any_vec any_term g in
    match ts with
    | [] => let (t, g) := any_term g in ([t], g)
    | _ => (ts, g)
    end.

  (** src/production.rs:181-193 *)
  Definition any_production (g : G) : production * G :=
    let (s, g) := any_string ops g in
    let (es, g) := any_vec any_expression g in
    match es with
    | [] => let (e, g) := any_expression g in (mkProd (Nonterminal (without 62%N s)) [e], g)
    | _ => (mkProd (Nonterminal (without 62%N s)) es, g)
    end.

  (** src/grammar.rs:918-927 *)
  Definition any_grammar (g : G) : grammar * G :=
    let (ps, g) := any_vec any_production g in
    match ps with
    | [] => let (p, g) := any_production g in ([p], g)
    | _ => (ps, g)
    end.

  Definition nt_name (i : nat) : str := lit "nt" ++ dec i.
  Definition undefined_name (i : nat) : str := lit "undefined" ++ dec i.

  Definition any_terminal (g : G) : term * G := let (s, g) := any_string ops g in (Terminal s, g).

  (** src/parser/mod.rs:355-371 and 498-509: a reference to an earlier name, or a terminal. *)
  Definition earlier_term (names : list str) (idx : nat) (g : G) : term * G :=
    let (b, g) := any_bool ops g in
    if b && Nat.ltb 0 idx then
      let (k, g) := any_usize ops g in
      match nth_error names (k mod idx) with
      | Some n => (Nonterminal n, g)
      | None => any_terminal g
      end
    else any_terminal g.

  (** src/parser/mod.rs:337-385 [SimpleValidGrammar] and 480-521
      [ValidGrammarWithMultipleProductions], which differ in the numbers: the names are
      [% names + least], the alternatives [% alts + 1], the terms of each [% terms + 1]. *)
  Definition layered_grammar (names least alts terms : nat) (g : G) : grammar * G :=
    let (k, g) := any_usize ops g in
    let nonterms := map nt_name (seq 0 (k mod names + least)) in
    each (fun idx g =>
      let (a, g) := any_usize ops g in
      let (es, g) := each (fun _ g =>
        let (t, g) := any_usize ops g in
        each (fun _ => earlier_term nonterms idx) 0 (t mod terms + 1) g) 0 (a mod alts + 1) g in
      (mkProd (Nonterminal (nth idx nonterms [])) es, g)) 0 (k mod names + least) g.
  Definition simple_valid_grammar := layered_grammar 5 1 3 3.
  Definition multiple_productions_grammar := layered_grammar 4 2 2 2.

  (** src/parser/mod.rs:396-460 [GrammarWithUndefined].  [has_undefined_reference] is false when it is
      read in the only case in which it matters (the first alternative of the first production). *)
  Definition undefined_term (all : list str) (defined_count num_undefined : nat) (must : bool) (g : G) : term * G :=
    let pick (ref : nat) (g : G) : term * G :=
      match nth_error all ref with
      | Some n => (Nonterminal n, g)
      | None => any_terminal g
      end in
    if must then
      let (k, g) := any_usize ops g in pick (defined_count + k mod num_undefined) g
    else
      let (b, g) := any_bool ops g in
      if b && negb (match all with [] => true | _ => false end) then
        let (k, g) := any_usize ops g in pick (k mod length all) g
      else any_terminal g.
  Definition undefined_grammar (g : G) : grammar * G :=
    let (d, g) := any_usize ops g in
    let defined_count := d mod 4 + 1 in
    let (u, g) := any_usize ops g in
    let num_undefined := u mod 3 + 1 in
    let defined := map nt_name (seq 0 defined_count) in
    let all := defined ++ map undefined_name (seq 0 num_undefined) in
    each (fun idx g =>
      let (a, g) := any_usize ops g in
      let (es, g) := each (fun alt_idx g =>
        let (t, g) := any_usize ops g in
        each (fun term_idx =>
          undefined_term all defined_count num_undefined (Nat.eqb idx 0 && Nat.eqb alt_idx 0 && Nat.eqb term_idx 0))
          0 (t mod 2 + 1) g) 0 (a mod 2 + 1) g in
      (mkProd (Nonterminal (nth idx defined [])) es, g)) 0 defined_count g.

  (** src/earley/mod.rs:333-362 [NestedEmptyGrammar]: <empty> is inserted before a term of one of the two
      alternatives.  [Gen::choose] returns any element of the slice. *)
  Definition insert_at {A} (k : nat) (x : A) (l : list A) : list A := firstn k l ++ x :: skipn k l.
  Definition nested_empty_grammar (g : G) : grammar * G :=
    let e1 := [Nonterminal (lit "a"); Nonterminal (lit "empty")] in
    let e2 := [Terminal (lit "a"); Nonterminal (lit "empty")] in
    let (i, g) := any_usize ops g in
    let (k, g) := any_usize ops g in
    let put := insert_at (k mod 2) (Nonterminal (lit "empty")) in
    ([mkProd (Nonterminal (lit "start")) [if Nat.eqb (i mod 2) 0 then put e1 else e1];
      mkProd (Nonterminal (lit "a")) [if Nat.eqb (i mod 2) 0 then e2 else put e2];
      mkProd (Nonterminal (lit "empty")) [[Terminal []]]], g).

  (** tests/parse_input.rs:881-886 [MermaidLabelContent] *)
  Definition mermaid_label_content (g : G) : str * G :=
    let (s, g) := any_string ops g in (map (fun c => if N.eqb c 39%N then 95%N else c) s, g).
End Generators.

(** ** src/parser/mod.rs:615-656: every undefined nonterminal is noticed *)

(** The names on the left, and those on the right, as lists. *)
Definition test_defined (g : grammar) : list str :=
  flat_map (fun p => match p_lhs p with Nonterminal n => [n] | Terminal _ => [] end) g.
Definition test_referenced (g : grammar) : list str :=
  flat_map (fun p => flat_map (flat_map (fun t => match t with Nonterminal n => [n] | Terminal _ => [] end)) (p_rhs p)) g.
Definition test_undefined (g : grammar) : list str :=
  filter (fun n => negb (existsb (str_eqb n) (test_defined g))) (test_referenced g).

(** [str::contains(&str)] *)
Fixpoint occurs (p s : str) : bool :=
  starts_with s p || match s with [] => false | _ :: r => occurs p r end.

Definition prop_catches (g : grammar) (r : result grammar_parser) : bool :=
  match r with
  | ROk _ => match test_undefined g with [] => true | _ => false end
  | RErr (ValidationError msg) =>
      negb (match test_undefined g with [] => true | _ => false end) &&
      existsb (fun n => occurs (lit "<" ++ n ++ lit ">") msg || occurs n msg) (test_undefined g)
  | RErr _ => false
  end.

(** ** tests/parse_input.rs *)

(** [Iterator::collect]: the trees returned until the first [None]. *)
Definition collects (it : piter) (ts : list ptree) : Prop := exists it', produces it ts it' /\ exhausted it'.

(** tests/parse_input.rs:761-773 [TERMINATING_GRAMMARS] *)
Definition terminating_texts : list str :=
  [ lit "<x> ::= 'a' | 'b' | 'c'";
    lit "<ab> ::= 'a' 'b' | 'a' <ab> 'b'";
    lit "<list> ::= <digit> | <digit> ',' <list>" ++ [10%N] ++ lit "<digit> ::= '0' | '1' | '2'" ].
Definition terminating_grammars : list grammar :=
  let t s := Terminal s in let n s := Nonterminal s in
  [ [mkProd (n (lit "x")) [[t (lit "a")]; [t (lit "b")]; [t (lit "c")]]];
    [mkProd (n (lit "ab")) [[t (lit "a"); t (lit "b")]; [t (lit "a"); n (lit "ab"); t (lit "b")]]];
    [mkProd (n (lit "list")) [[n (lit "digit")]; [n (lit "digit"); t (lit ","); n (lit "list")]];
     mkProd (n (lit "digit")) [[t (lit "0")]; [t (lit "1")]; [t (lit "2")]]] ].

(** [String::truncate] panics if the cut is inside a character; the sentences of these grammars
    are ASCII, so bytes are characters. *)
Definition truncated (w : str) : str := if Nat.ltb 50 (byte_len w) then firstn 50 w else w.

(** tests/parse_input.rs:806-815 *)
Fixpoint collect_terminals (t : ptree) : str :=
  match t with
  | Node _ kids => fold_left (fun s k => s ++ match k with Leaf x => x | Sub t' => collect_terminals t' end) kids []
  end.

(** tests/parse_input.rs:888-896 *)
Fixpoint count_parse_tree_edges (t : ptree) : nat :=
  match t with
  | Node _ kids => fold_left (fun n k => match k with Leaf _ => n | Sub t' => n + count_parse_tree_edges t' end) kids (length kids)
  end.

(** [str::split('\n')] *)
Fixpoint split_newline (s : str) : list str :=
  match s with
  | [] => [[]]
  | c :: r => if N.eqb c 10%N then [] :: split_newline r
              else match split_newline r with l :: ls => (c :: l) :: ls | [] => [[c]] end
  end.
(** [str::lines]: the last piece is dropped if empty, and one CR at the end of each. *)
Definition chomp_cr (l : str) : str :=
  match rev l with c :: r => if N.eqb c 13%N then rev r else l | [] => l end.
Fixpoint drop_last_empty (ls : list str) : list str :=
  match ls with [] => [] | [[]] => [] | l :: r => l :: drop_last_empty r end.
Definition str_lines (s : str) : list str := map chomp_cr (drop_last_empty (split_newline s)).

(** [str::split] with a pattern of two different characters *)
Fixpoint split_two (a b : char) (s : str) : list str :=
  match s with
  | [] => [[]]
  | x :: r =>
      match r with
      | y :: r' => if N.eqb x a && N.eqb y b then [] :: split_two a b r'
                   else match split_two a b r with l :: ls => (x :: l) :: ls | [] => [[x]] end
      | [] => [[x]]
      end
  end.

Definition count_char (c : char) (s : str) : nat := length (filter (N.eqb c) s).

(** tests/parse_input.rs:898-911 *)
Definition edge_lines_balanced (m : str) : bool :=
  forallb (fun l => negb (occurs (lit "-->") l) || Nat.eqb (count_char 34%N l) 4) (str_lines m).
(** tests/parse_input.rs:913-915 *)
Definition count_mermaid_edges (m : str) : nat := length (filter (occurs (lit "-->")) (str_lines m)).
(** tests/parse_input.rs:917-932 *)
Definition raw_specials : list char := [34; 91; 93; 92; 60; 62; 38; 10; 13]%N.
Definition labels_no_raw_specials (m : str) : bool :=
  forallb (fun segment => match split_two 34%N 93%N segment with
                          | [] => true
                          | label :: _ => str_eqb label segment || forallb (fun bad => negb (str_contains bad label)) raw_specials
                          end) (split_two 91%N 34%N m).

(** tests/parse_input.rs:934-959.  [u32::from_str] and [char::from_u32]. *)
Definition digits_value (d : str) : N := fold_left (fun v c => 10 * v + (c - 48))%N d 0%N.
Definition char_of_u32 (n : N) : option char :=
  if N.ltb n 55296%N || (N.ltb 57343%N n && N.ltb n 1114112%N) then Some n else None.
Fixpoint take_digits (s : str) : str * str :=
  match s with
  | c :: r => if is_digit c then let (d, r') := take_digits r in (c :: d, r') else ([], s)
  | [] => ([], [])
  end.
Fixpoint unescape (fuel : nat) (s : str) : str :=
  match fuel with
  | 0 => []
  | S fuel =>
      match s with
      | [] => []
      | c :: r =>
          if N.eqb c 35%N then
            let (d, r') := take_digits r in
            match d, r' with
            | _ :: _, 59%N :: r'' =>
                if N.ltb (digits_value d) 4294967296%N then
                  match char_of_u32 (digits_value d) with
                  | Some ch => ch :: unescape fuel r''
                  | None => 35%N :: d ++ unescape fuel r''
                  end
                else 35%N :: d ++ unescape fuel r''
            | _, _ => 35%N :: d ++ unescape fuel r'
            end
          else c :: unescape fuel r
      end
  end.
Definition unescape_mermaid_entity_codes (s : str) : str := unescape (S (length s)) s.

(** tests/parse_input.rs:961-963 *)
Definition grammar_single_node (content : str) : str := lit "<root> ::= '" ++ content ++ lit "'".
