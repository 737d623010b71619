(** The snapshot tests of /repo/tests/parse_input.rs, replayed on the model: grammar text, input and
    the recorded output ([tests/snapshots]) are those of the repository.  They exercise reading the
    text, the order in which the trees are produced, and both tree formats end to end.  Generated
    from the files; string literals are UTF-8.  The snapshot tool strips final newlines. *)
From Verif Require Import TextExamples TreeFormat Generation Fixtures.
From Coq Require String.
Import String.StringSyntax.
Delimit Scope string_scope with string.

(** Draw [n] trees at most. *)
Fixpoint draw (n fuel : nat) (it : piter) : res (list ptree) :=
  match n with
  | 0 => Ok []
  | S n => let* (o, it) := iter_next fuel it in
           match o with
           | None => Ok []
           | Some t => let* ts := draw n fuel it in Ok (t :: ts)
           end
  end.

Fixpoint mermaids (ts : list ptree) : res (list str) :=
  match ts with
  | [] => Ok []
  | t :: ts => let* a := display_mermaid t in let* r := mermaids ts in Ok (a :: r)
  end.

(** The text the test compares: all trees (at most [n]) joined by newlines. *)
Definition replay (text input : String.string) (mermaid : bool) (n : nat) : res (result str) :=
  let* g := grammar_from_str ascii_alpha (utf8 text) in
  match g with
  | RErr e => Ok (RErr e)
  | ROk g =>
      let* it := grammar_parse_input g (utf8 input) in
      let* ts := draw n 5000 it in
      let* out := if mermaid then mermaids ts else Ok (map display_tree ts) in
      Ok (ROk (join newline out))
  end.
Definition shows (expected : String.string) : res (result str) :=
  Ok (ROk (match utf8 expected with [] => [] | s => s ++ newline end)).
Arguments replay (text input)%string_scope mermaid n.
Arguments shows expected%string_scope.

(** [undefined_prod_deprecated_parses] *)
Example test_undefined_prod_deprecated_parses : replay "
        <start> ::= <a> | <b>
        <a> ::= 'a'
        " "a" false 20 = shows "<start> ::= <a>
└── <a> ::= ""a""
    └── ""a""".
Proof. vm_compute. reflexivity. Qed.

(** [dna_left_recursive] *)
Example test_dna_left_recursive : replay "<dna> ::= <base> | <dna> <base>
        <base> ::= 'A' | 'C' | 'G' | 'T'" "GATTACA" false 20 = shows "<dna> ::= <dna> <base>
├── <dna> ::= <dna> <base>
│   ├── <dna> ::= <dna> <base>
│   │   ├── <dna> ::= <dna> <base>
│   │   │   ├── <dna> ::= <dna> <base>
│   │   │   │   ├── <dna> ::= <dna> <base>
│   │   │   │   │   ├── <dna> ::= <base>
│   │   │   │   │   │   └── <base> ::= ""G""
│   │   │   │   │   │       └── ""G""
│   │   │   │   │   └── <base> ::= ""A""
│   │   │   │   │       └── ""A""
│   │   │   │   └── <base> ::= ""T""
│   │   │   │       └── ""T""
│   │   │   └── <base> ::= ""T""
│   │   │       └── ""T""
│   │   └── <base> ::= ""A""
│   │       └── ""A""
│   └── <base> ::= ""C""
│       └── ""C""
└── <base> ::= ""A""
    └── ""A""".
Proof. vm_compute. reflexivity. Qed.

(** [dna_right_recursive] *)
Example test_dna_right_recursive : replay "<dna> ::= <base> | <base> <dna>
        <base> ::= 'A' | 'C' | 'G' | 'T'" "GATTACA" false 20 = shows "<dna> ::= <base> <dna>
├── <base> ::= ""G""
│   └── ""G""
└── <dna> ::= <base> <dna>
    ├── <base> ::= ""A""
    │   └── ""A""
    └── <dna> ::= <base> <dna>
        ├── <base> ::= ""T""
        │   └── ""T""
        └── <dna> ::= <base> <dna>
            ├── <base> ::= ""T""
            │   └── ""T""
            └── <dna> ::= <base> <dna>
                ├── <base> ::= ""A""
                │   └── ""A""
                └── <dna> ::= <base> <dna>
                    ├── <base> ::= ""C""
                    │   └── ""C""
                    └── <dna> ::= <base>
                        └── <base> ::= ""A""
                            └── ""A""".
Proof. vm_compute. reflexivity. Qed.

(** [dna_annotated_grammar_parses_input] *)
Example test_dna_annotated_grammar_parses_input : replay "; the building blocks of life!
<dna> ::= <base> | <base> <dna>
<base> ::= 'A' | 'C' | 'G' | 'T' ;(Adenine, Cytosine, Guanine, and Thymine)
; the end 📖" "GATTACA" false 20 = shows "<dna> ::= <base> <dna>
├── <base> ::= ""G""
│   └── ""G""
└── <dna> ::= <base> <dna>
    ├── <base> ::= ""A""
    │   └── ""A""
    └── <dna> ::= <base> <dna>
        ├── <base> ::= ""T""
        │   └── ""T""
        └── <dna> ::= <base> <dna>
            ├── <base> ::= ""T""
            │   └── ""T""
            └── <dna> ::= <base> <dna>
                ├── <base> ::= ""A""
                │   └── ""A""
                └── <dna> ::= <base> <dna>
                    ├── <base> ::= ""C""
                    │   └── ""C""
                    └── <dna> ::= <base>
                        └── <base> ::= ""A""
                            └── ""A""".
Proof. vm_compute. reflexivity. Qed.

(** [ambiguous] *)
Example test_ambiguous : replay "<start> ::= <a> | <b>
        <a> ::= 'END'
        <b> ::= 'END'" "END" false 20 = shows "<start> ::= <a>
└── <a> ::= ""END""
    └── ""END""

<start> ::= <b>
└── <b> ::= ""END""
    └── ""END""".
Proof. vm_compute. reflexivity. Qed.

(** [recursive_nested_infinite] *)
Example test_recursive_nested_infinite : replay "
            <a> ::= <b> | 'z'
            <b> ::= <a> 
        " "z" false 4 = shows "<a> ::= ""z""
└── ""z""

<a> ::= <b>
└── <b> ::= <a>
    └── <a> ::= ""z""
        └── ""z""

<a> ::= <b>
└── <b> ::= <a>
    └── <a> ::= <b>
        └── <b> ::= <a>
            └── <a> ::= ""z""
                └── ""z""

<a> ::= <b>
└── <b> ::= <a>
    └── <a> ::= <b>
        └── <b> ::= <a>
            └── <a> ::= <b>
                └── <b> ::= <a>
                    └── <a> ::= ""z""
                        └── ""z""".
Proof. vm_compute. reflexivity. Qed.

(** [empty_right_recursive] *)
Example test_empty_right_recursive : replay "<a> ::= '' | 'a' <a>" "aaaaaaaaaa" false 20 = shows "<a> ::= ""a"" <a>
├── ""a""
└── <a> ::= ""a"" <a>
    ├── ""a""
    └── <a> ::= ""a"" <a>
        ├── ""a""
        └── <a> ::= ""a"" <a>
            ├── ""a""
            └── <a> ::= ""a"" <a>
                ├── ""a""
                └── <a> ::= ""a"" <a>
                    ├── ""a""
                    └── <a> ::= ""a"" <a>
                        ├── ""a""
                        └── <a> ::= ""a"" <a>
                            ├── ""a""
                            └── <a> ::= ""a"" <a>
                                ├── ""a""
                                └── <a> ::= ""a"" <a>
                                    ├── ""a""
                                    └── <a> ::= """"
                                        └── """"".
Proof. vm_compute. reflexivity. Qed.

(** [empty_left_recursive] *)
Example test_empty_left_recursive : replay "<a> ::= '' | <a> 'a'" "aaaaaaaaaa" false 20 = shows "<a> ::= <a> ""a""
├── <a> ::= <a> ""a""
│   ├── <a> ::= <a> ""a""
│   │   ├── <a> ::= <a> ""a""
│   │   │   ├── <a> ::= <a> ""a""
│   │   │   │   ├── <a> ::= <a> ""a""
│   │   │   │   │   ├── <a> ::= <a> ""a""
│   │   │   │   │   │   ├── <a> ::= <a> ""a""
│   │   │   │   │   │   │   ├── <a> ::= <a> ""a""
│   │   │   │   │   │   │   │   ├── <a> ::= <a> ""a""
│   │   │   │   │   │   │   │   │   ├── <a> ::= """"
│   │   │   │   │   │   │   │   │   │   └── """"
│   │   │   │   │   │   │   │   │   └── ""a""
│   │   │   │   │   │   │   │   └── ""a""
│   │   │   │   │   │   │   └── ""a""
│   │   │   │   │   │   └── ""a""
│   │   │   │   │   └── ""a""
│   │   │   │   └── ""a""
│   │   │   └── ""a""
│   │   └── ""a""
│   └── ""a""
└── ""a""".
Proof. vm_compute. reflexivity. Qed.

(** [complete_empty] *)
Example test_complete_empty : replay "<start> ::= 'hi' <empty>
        <empty> ::= ''" "hi" false 20 = shows "<start> ::= ""hi"" <empty>
├── ""hi""
└── <empty> ::= """"
    └── """"".
Proof. vm_compute. reflexivity. Qed.

(** [empty] *)
Example test_empty : replay "<start> ::= ''" "" false 20 = shows "<start> ::= """"
└── """"".
Proof. vm_compute. reflexivity. Qed.

(** [nested_empty_post] *)
Example test_nested_empty_post : replay "
        <start> ::= <a> <empty>
        <a> ::= 'a' <empty>
        <empty> ::= ''" "a" false 20 = shows "<start> ::= <a> <empty>
├── <a> ::= ""a"" <empty>
│   ├── ""a""
│   └── <empty> ::= """"
│       └── """"
└── <empty> ::= """"
    └── """"".
Proof. vm_compute. reflexivity. Qed.

(** [nested_empty_pre] *)
Example test_nested_empty_pre : replay "
        <start> ::= <empty> <a>
        <a> ::= <empty> 'a'
        <empty> ::= ''" "a" false 20 = shows "<start> ::= <empty> <a>
├── <empty> ::= """"
│   └── """"
└── <a> ::= <empty> ""a""
    ├── <empty> ::= """"
    │   └── """"
    └── ""a""".
Proof. vm_compute. reflexivity. Qed.

(** [nested_empty_pre_and_post] *)
Example test_nested_empty_pre_and_post : replay "
        <start> ::= <empty> <a> <empty>
        <a> ::= <empty> 'a' <empty>
        <empty> ::= ''" "a" false 20 = shows "<start> ::= <empty> <a> <empty>
├── <empty> ::= """"
│   └── """"
├── <a> ::= <empty> ""a"" <empty>
│   ├── <empty> ::= """"
│   │   └── """"
│   ├── ""a""
│   └── <empty> ::= """"
│       └── """"
└── <empty> ::= """"
    └── """"".
Proof. vm_compute. reflexivity. Qed.

(** [empty_inline] *)
Example test_empty_inline : replay "
        <start> ::= <a> '' <a>
        <a> ::= 'a'" "aa" false 20 = shows "<start> ::= <a> """" <a>
├── <a> ::= ""a""
│   └── ""a""
├── """"
└── <a> ::= ""a""
    └── ""a""".
Proof. vm_compute. reflexivity. Qed.

(** [empty_ambiguous] *)
Example test_empty_ambiguous : replay "
        <start> ::= <a> | <b>
        <a> ::= ''
        <b> ::= ''" "" false 20 = shows "<start> ::= <a>
└── <a> ::= """"
    └── """"

<start> ::= <b>
└── <b> ::= """"
    └── """"".
Proof. vm_compute. reflexivity. Qed.

(** [empty_first_nested] *)
Example test_empty_first_nested : replay "
        <a> ::= '' | '' <b> <c>
        <b> ::= <c>
        <c> ::= <a>
        " "" false 4 = shows "<a> ::= """"
└── """"

<a> ::= """" <b> <c>
├── """"
├── <b> ::= <c>
│   └── <c> ::= <a>
│       └── <a> ::= """"
│           └── """"
└── <c> ::= <a>
    └── <a> ::= """"
        └── """"

<a> ::= """" <b> <c>
├── """"
├── <b> ::= <c>
│   └── <c> ::= <a>
│       └── <a> ::= """"
│           └── """"
└── <c> ::= <a>
    └── <a> ::= """" <b> <c>
        ├── """"
        ├── <b> ::= <c>
        │   └── <c> ::= <a>
        │       └── <a> ::= """"
        │           └── """"
        └── <c> ::= <a>
            └── <a> ::= """"
                └── """"

<a> ::= """" <b> <c>
├── """"
├── <b> ::= <c>
│   └── <c> ::= <a>
│       └── <a> ::= """" <b> <c>
│           ├── """"
│           ├── <b> ::= <c>
│           │   └── <c> ::= <a>
│           │       └── <a> ::= """"
│           │           └── """"
│           └── <c> ::= <a>
│               └── <a> ::= """"
│                   └── """"
└── <c> ::= <a>
    └── <a> ::= """"
        └── """"".
Proof. vm_compute. reflexivity. Qed.

(** [optional_whitespace] *)
Example test_optional_whitespace : replay "
        <balanced> ::= <left> <balanced> <right>
                     | ''
        
        <left> ::= <opt-ws> '(' <opt-ws>
        <right> ::= <opt-ws> ')' <opt-ws>
        
        <opt-ws> ::= '' | <ws>
        <ws> ::= ' ' | ' ' <ws>
        " "()" false 20 = shows "<balanced> ::= <left> <balanced> <right>
├── <left> ::= <opt-ws> ""("" <opt-ws>
│   ├── <opt-ws> ::= """"
│   │   └── """"
│   ├── ""(""
│   └── <opt-ws> ::= """"
│       └── """"
├── <balanced> ::= """"
│   └── """"
└── <right> ::= <opt-ws> "")"" <opt-ws>
    ├── <opt-ws> ::= """"
    │   └── """"
    ├── "")""
    └── <opt-ws> ::= """"
        └── """"".
Proof. vm_compute. reflexivity. Qed.

(** [qualified_whitespace] *)
Example test_qualified_whitespace : replay "
        <terms> ::= <terms> <ws> <term>
                  | <term>
        <term> ::= <qualified>
                 | 'unqualified'
        <qualified> ::= 'QUALIFIER:' <qual-term>
        <qual-term> ::= <qual-term> <ws>
                      | 'qualified'
        <ws> ::= ' ' | ' ' <ws>
        " "QUALIFIER:qualified unqualified" false 20 = shows "<terms> ::= <terms> <ws> <term>
├── <terms> ::= <term>
│   └── <term> ::= <qualified>
│       └── <qualified> ::= ""QUALIFIER:"" <qual-term>
│           ├── ""QUALIFIER:""
│           └── <qual-term> ::= ""qualified""
│               └── ""qualified""
├── <ws> ::= "" ""
│   └── "" ""
└── <term> ::= ""unqualified""
    └── ""unqualified""".
Proof. vm_compute. reflexivity. Qed.

(** [empty_noop_infinite] *)
Example test_empty_noop_infinite : replay "
        <a> ::= '' | <b>
        <b> ::= <a>" "" false 4 = shows "<a> ::= """"
└── """"

<a> ::= <b>
└── <b> ::= <a>
    └── <a> ::= """"
        └── """"

<a> ::= <b>
└── <b> ::= <a>
    └── <a> ::= <b>
        └── <b> ::= <a>
            └── <a> ::= """"
                └── """"

<a> ::= <b>
└── <b> ::= <a>
    └── <a> ::= <b>
        └── <b> ::= <a>
            └── <a> ::= <b>
                └── <b> ::= <a>
                    └── <a> ::= """"
                        └── """"".
Proof. vm_compute. reflexivity. Qed.

(** [math] *)
Example test_math : replay "<sum> ::= <sum> <add> <product>
            <sum> ::= <product>
            <product> ::= <product> <mult> <factor>
            <product> ::= <factor>
            <add> ::= '+' | '-'
            <mult> ::= '*' | '/'
            <factor> ::= '(' <sum> ')'
            <factor> ::= <number>
            <number> ::= <digit> <number>
            <number> ::= <digit>
            <digit> ::= '0' | '1' | '2' | '3' | '4' | '5' | '6' | '7' | '8' | '9'
        " "1+(2*3-4)" false 20 = shows "<sum> ::= <sum> <add> <product>
├── <sum> ::= <product>
│   └── <product> ::= <factor>
│       └── <factor> ::= <number>
│           └── <number> ::= <digit>
│               └── <digit> ::= ""1""
│                   └── ""1""
├── <add> ::= ""+""
│   └── ""+""
└── <product> ::= <factor>
    └── <factor> ::= ""("" <sum> "")""
        ├── ""(""
        ├── <sum> ::= <sum> <add> <product>
        │   ├── <sum> ::= <product>
        │   │   └── <product> ::= <product> <mult> <factor>
        │   │       ├── <product> ::= <factor>
        │   │       │   └── <factor> ::= <number>
        │   │       │       └── <number> ::= <digit>
        │   │       │           └── <digit> ::= ""2""
        │   │       │               └── ""2""
        │   │       ├── <mult> ::= ""*""
        │   │       │   └── ""*""
        │   │       └── <factor> ::= <number>
        │   │           └── <number> ::= <digit>
        │   │               └── <digit> ::= ""3""
        │   │                   └── ""3""
        │   ├── <add> ::= ""-""
        │   │   └── ""-""
        │   └── <product> ::= <factor>
        │       └── <factor> ::= <number>
        │           └── <number> ::= <digit>
        │               └── <digit> ::= ""4""
        │                   └── ""4""
        └── "")""".
Proof. vm_compute. reflexivity. Qed.

(** [parse_dna] *)
Example test_parse_dna : replay "<dna> ::= <base> | <base> <dna>
        <base> ::= 'A' | 'C' | 'G' | 'T'" "GATTACA" false 20 = shows "<dna> ::= <base> <dna>
├── <base> ::= ""G""
│   └── ""G""
└── <dna> ::= <base> <dna>
    ├── <base> ::= ""A""
    │   └── ""A""
    └── <dna> ::= <base> <dna>
        ├── <base> ::= ""T""
        │   └── ""T""
        └── <dna> ::= <base> <dna>
            ├── <base> ::= ""T""
            │   └── ""T""
            └── <dna> ::= <base> <dna>
                ├── <base> ::= ""A""
                │   └── ""A""
                └── <dna> ::= <base> <dna>
                    ├── <base> ::= ""C""
                    │   └── ""C""
                    └── <dna> ::= <base>
                        └── <base> ::= ""A""
                            └── ""A""".
Proof. vm_compute. reflexivity. Qed.

(** [shared_nonterminal_failure] *)
Example test_shared_nonterminal_failure : replay "
        <start> ::= <shortfail> | <longsuccess>
        <shortfail> ::= <char> 'never'
        <char> ::= 'a'
        <longsuccess> ::= <long2>
        <long2> ::= <long3>
        <long3> ::= <long4>
        <long4> ::= <char>
        " "a" false 20 = shows "<start> ::= <longsuccess>
└── <longsuccess> ::= <long2>
    └── <long2> ::= <long3>
        └── <long3> ::= <long4>
            └── <long4> ::= <char>
                └── <char> ::= ""a""
                    └── ""a""".
Proof. vm_compute. reflexivity. Qed.

(** [swap_left_right_recursion] *)
Example test_swap_left_right_recursion : replay "
        <conjunction> ::= <conjunction> <ws> <predicate> | <predicate>
        <predicate> ::= <string_null_one> | <special-string> '.'
        <string_null_one> ::= <string_null_two>
        <string_null_two> ::= <string_null_three>
        <string_null_three> ::= <string>
        <string> ::= <char_null> | <string> <char_null>
        <special-string> ::= <special-char> | <special-string> <special-char>
        <char_null> ::= <char>
        <char> ::= 'a'
        <special-char> ::= <char_null> | <whitespace>
        <whitespace> ::= ' '
        <ws> ::= ' ' | ' ' <ws>
        " "aa a" false 20 = shows "<conjunction> ::= <conjunction> <ws> <predicate>
├── <conjunction> ::= <predicate>
│   └── <predicate> ::= <string_null_one>
│       └── <string_null_one> ::= <string_null_two>
│           └── <string_null_two> ::= <string_null_three>
│               └── <string_null_three> ::= <string>
│                   └── <string> ::= <string> <char_null>
│                       ├── <string> ::= <char_null>
│                       │   └── <char_null> ::= <char>
│                       │       └── <char> ::= ""a""
│                       │           └── ""a""
│                       └── <char_null> ::= <char>
│                           └── <char> ::= ""a""
│                               └── ""a""
├── <ws> ::= "" ""
│   └── "" ""
└── <predicate> ::= <string_null_one>
    └── <string_null_one> ::= <string_null_two>
        └── <string_null_two> ::= <string_null_three>
            └── <string_null_three> ::= <string>
                └── <string> ::= <char_null>
                    └── <char_null> ::= <char>
                        └── <char> ::= ""a""
                            └── ""a""".
Proof. vm_compute. reflexivity. Qed.

(** [swap_left_right_recursion_2] *)
Example test_swap_left_right_recursion_2 : replay "
        <conjunction> ::= <conjunction> <ws> <predicate> | <predicate>
        <predicate> ::= <string_null_one> | <special-string> '.'
        <string_null_one> ::= <string_null_two>
        <string_null_two> ::= <string_null_three>
        <string_null_three> ::= <string>
        <string> ::= <char_null> | <char_null> <string>
        <special-string> ::= <special-char> | <special-string> <special-char>
        <char_null> ::= <char>
        <char> ::= 'a'
        <special-char> ::= <char_null> | <whitespace>
        <whitespace> ::= ' '
        <ws> ::= ' ' | ' ' <ws>
        " "aa a" false 20 = shows "<conjunction> ::= <conjunction> <ws> <predicate>
├── <conjunction> ::= <predicate>
│   └── <predicate> ::= <string_null_one>
│       └── <string_null_one> ::= <string_null_two>
│           └── <string_null_two> ::= <string_null_three>
│               └── <string_null_three> ::= <string>
│                   └── <string> ::= <char_null> <string>
│                       ├── <char_null> ::= <char>
│                       │   └── <char> ::= ""a""
│                       │       └── ""a""
│                       └── <string> ::= <char_null>
│                           └── <char_null> ::= <char>
│                               └── <char> ::= ""a""
│                                   └── ""a""
├── <ws> ::= "" ""
│   └── "" ""
└── <predicate> ::= <string_null_one>
    └── <string_null_one> ::= <string_null_two>
        └── <string_null_two> ::= <string_null_three>
            └── <string_null_three> ::= <string>
                └── <string> ::= <char_null>
                    └── <char_null> ::= <char>
                        └── <char> ::= ""a""
                            └── ""a""".
Proof. vm_compute. reflexivity. Qed.

(** [shared_nullable_nonterminal] *)
Example test_shared_nullable_nonterminal : replay "
        <disjunction> ::= <predicate> | <disjunction> <or> <predicate>
        <predicate> ::= <char_null_one> | <special-string> '.'

        <char_null_one> ::= <char_null_two>
        <char_null_two> ::= <char_null_three>
        <char_null_three> ::= <char>

        <or> ::= <ws> 'or' <ws>
        <ws> ::= <whitespace> | ' ' <ws>
        <whitespace> ::= ' '

        <special-string> ::= <special-char> | <special-char> <special-string>
        <special-char> ::= <char> | <whitespace>
        <char> ::= 'a'
        " "a or a" false 20 = shows "<disjunction> ::= <disjunction> <or> <predicate>
├── <disjunction> ::= <predicate>
│   └── <predicate> ::= <char_null_one>
│       └── <char_null_one> ::= <char_null_two>
│           └── <char_null_two> ::= <char_null_three>
│               └── <char_null_three> ::= <char>
│                   └── <char> ::= ""a""
│                       └── ""a""
├── <or> ::= <ws> ""or"" <ws>
│   ├── <ws> ::= <whitespace>
│   │   └── <whitespace> ::= "" ""
│   │       └── "" ""
│   ├── ""or""
│   └── <ws> ::= <whitespace>
│       └── <whitespace> ::= "" ""
│           └── "" ""
└── <predicate> ::= <char_null_one>
    └── <char_null_one> ::= <char_null_two>
        └── <char_null_two> ::= <char_null_three>
            └── <char_null_three> ::= <char>
                └── <char> ::= ""a""
                    └── ""a""".
Proof. vm_compute. reflexivity. Qed.

(** [branching_and_overlapping_parse_trees] *)
Example test_branching_and_overlapping_parse_trees : replay "
        <and> ::= <and> ' AND ' <terminal>
                | <and> ' ' <terminal>
                | <terminal>
        <terminal> ::= 'AND'
        " "AND AND AND AND AND" false 20 = shows "<and> ::= <and> "" AND "" <terminal>
├── <and> ::= <and> "" AND "" <terminal>
│   ├── <and> ::= <terminal>
│   │   └── <terminal> ::= ""AND""
│   │       └── ""AND""
│   ├── "" AND ""
│   └── <terminal> ::= ""AND""
│       └── ""AND""
├── "" AND ""
└── <terminal> ::= ""AND""
    └── ""AND""

<and> ::= <and> "" AND "" <terminal>
├── <and> ::= <and> "" "" <terminal>
│   ├── <and> ::= <and> "" "" <terminal>
│   │   ├── <and> ::= <terminal>
│   │   │   └── <terminal> ::= ""AND""
│   │   │       └── ""AND""
│   │   ├── "" ""
│   │   └── <terminal> ::= ""AND""
│   │       └── ""AND""
│   ├── "" ""
│   └── <terminal> ::= ""AND""
│       └── ""AND""
├── "" AND ""
└── <terminal> ::= ""AND""
    └── ""AND""

<and> ::= <and> "" "" <terminal>
├── <and> ::= <and> "" "" <terminal>
│   ├── <and> ::= <and> "" AND "" <terminal>
│   │   ├── <and> ::= <terminal>
│   │   │   └── <terminal> ::= ""AND""
│   │   │       └── ""AND""
│   │   ├── "" AND ""
│   │   └── <terminal> ::= ""AND""
│   │       └── ""AND""
│   ├── "" ""
│   └── <terminal> ::= ""AND""
│       └── ""AND""
├── "" ""
└── <terminal> ::= ""AND""
    └── ""AND""

<and> ::= <and> "" "" <terminal>
├── <and> ::= <and> "" AND "" <terminal>
│   ├── <and> ::= <and> "" "" <terminal>
│   │   ├── <and> ::= <terminal>
│   │   │   └── <terminal> ::= ""AND""
│   │   │       └── ""AND""
│   │   ├── "" ""
│   │   └── <terminal> ::= ""AND""
│   │       └── ""AND""
│   ├── "" AND ""
│   └── <terminal> ::= ""AND""
│       └── ""AND""
├── "" ""
└── <terminal> ::= ""AND""
    └── ""AND""

<and> ::= <and> "" "" <terminal>
├── <and> ::= <and> "" "" <terminal>
│   ├── <and> ::= <and> "" "" <terminal>
│   │   ├── <and> ::= <and> "" "" <terminal>
│   │   │   ├── <and> ::= <terminal>
│   │   │   │   └── <terminal> ::= ""AND""
│   │   │   │       └── ""AND""
│   │   │   ├── "" ""
│   │   │   └── <terminal> ::= ""AND""
│   │   │       └── ""AND""
│   │   ├── "" ""
│   │   └── <terminal> ::= ""AND""
│   │       └── ""AND""
│   ├── "" ""
│   └── <terminal> ::= ""AND""
│       └── ""AND""
├── "" ""
└── <terminal> ::= ""AND""
    └── ""AND""".
Proof. vm_compute. reflexivity. Qed.

(** [format_parse_tree] *)
Example test_format_parse_tree : replay "<dna> ::= <base> | <base> <dna>
        <base> ::= 'A' | 'C' | 'G' | 'T'" "GATTACA" false 20 = shows "<dna> ::= <base> <dna>
├── <base> ::= ""G""
│   └── ""G""
└── <dna> ::= <base> <dna>
    ├── <base> ::= ""A""
    │   └── ""A""
    └── <dna> ::= <base> <dna>
        ├── <base> ::= ""T""
        │   └── ""T""
        └── <dna> ::= <base> <dna>
            ├── <base> ::= ""T""
            │   └── ""T""
            └── <dna> ::= <base> <dna>
                ├── <base> ::= ""A""
                │   └── ""A""
                └── <dna> ::= <base> <dna>
                    ├── <base> ::= ""C""
                    │   └── ""C""
                    └── <dna> ::= <base>
                        └── <base> ::= ""A""
                            └── ""A""".
Proof. vm_compute. reflexivity. Qed.

(** [mermaid_dna_parse_tree] *)
Example test_mermaid_dna_parse_tree : replay "<dna> ::= <base> | <base> <dna>
        <base> ::= 'A' | 'C' | 'G' | 'T'" "GATTACA" true 20 = shows "flowchart TD
0[""dna""] --> 1[""base""]
1[""base""] --> 2[""G""]
0[""dna""] --> 3[""dna""]
3[""dna""] --> 4[""base""]
4[""base""] --> 5[""A""]
3[""dna""] --> 6[""dna""]
6[""dna""] --> 7[""base""]
7[""base""] --> 8[""T""]
6[""dna""] --> 9[""dna""]
9[""dna""] --> 10[""base""]
10[""base""] --> 11[""T""]
9[""dna""] --> 12[""dna""]
12[""dna""] --> 13[""base""]
13[""base""] --> 14[""A""]
12[""dna""] --> 15[""dna""]
15[""dna""] --> 16[""base""]
16[""base""] --> 17[""C""]
15[""dna""] --> 18[""dna""]
18[""dna""] --> 19[""base""]
19[""base""] --> 20[""A""]".
Proof. vm_compute. reflexivity. Qed.

(** [mermaid_math_parse_tree] *)
Example test_mermaid_math_parse_tree : replay "<sum> ::= <sum> <add> <product>
            <sum> ::= <product>
            <product> ::= <product> <mult> <factor>
            <product> ::= <factor>
            <add> ::= '+' | '-'
            <mult> ::= '*' | '/'
            <factor> ::= '(' <sum> ')'
            <factor> ::= <number>
            <number> ::= <digit> <number>
            <number> ::= <digit>
            <digit> ::= '0' | '1' | '2' | '3' | '4' | '5' | '6' | '7' | '8' | '9'
        " "1+(2*3-4)" true 20 = shows "flowchart TD
0[""sum""] --> 1[""sum""]
1[""sum""] --> 2[""product""]
2[""product""] --> 3[""factor""]
3[""factor""] --> 4[""number""]
4[""number""] --> 5[""digit""]
5[""digit""] --> 6[""1""]
0[""sum""] --> 7[""add""]
7[""add""] --> 8[""+""]
0[""sum""] --> 9[""product""]
9[""product""] --> 10[""factor""]
10[""factor""] --> 11[""(""]
10[""factor""] --> 12[""sum""]
12[""sum""] --> 13[""sum""]
13[""sum""] --> 14[""product""]
14[""product""] --> 15[""product""]
15[""product""] --> 16[""factor""]
16[""factor""] --> 17[""number""]
17[""number""] --> 18[""digit""]
18[""digit""] --> 19[""2""]
14[""product""] --> 20[""mult""]
20[""mult""] --> 21[""*""]
14[""product""] --> 22[""factor""]
22[""factor""] --> 23[""number""]
23[""number""] --> 24[""digit""]
24[""digit""] --> 25[""3""]
12[""sum""] --> 26[""add""]
26[""add""] --> 27[""-""]
12[""sum""] --> 28[""product""]
28[""product""] --> 29[""factor""]
29[""factor""] --> 30[""number""]
30[""number""] --> 31[""digit""]
31[""digit""] --> 32[""4""]
10[""factor""] --> 33["")""]".
Proof. vm_compute. reflexivity. Qed.

(** [mermaid_punctuation_double_quote_terminal] *)
Example test_mermaid_punctuation_double_quote_terminal : replay "<q> ::= '""'
        " """" true 20 = shows "flowchart TD
0[""q""] --> 1[""#34;""]".
Proof. vm_compute. reflexivity. Qed.

(** [mermaid_punctuation_closing_bracket_terminal] *)
Example test_mermaid_punctuation_closing_bracket_terminal : replay "<b> ::= ']'
        " "]" true 20 = shows "flowchart TD
0[""b""] --> 1[""#93;""]".
Proof. vm_compute. reflexivity. Qed.

(** [mermaid_punctuation_opening_bracket_terminal] *)
Example test_mermaid_punctuation_opening_bracket_terminal : replay "<b> ::= '['
        " "[" true 20 = shows "flowchart TD
0[""b""] --> 1[""#91;""]".
Proof. vm_compute. reflexivity. Qed.

(** [mermaid_punctuation_backslash_terminal] *)
Example test_mermaid_punctuation_backslash_terminal : replay "<b> ::= '\\'" "\" true 20 = shows "".
Proof. vm_compute. reflexivity. Qed.

(** [mermaid_punctuation_slash_and_angle_brackets] *)
Example test_mermaid_punctuation_slash_and_angle_brackets : replay "<expr> ::= '/'
        " "/" true 20 = shows "flowchart TD
0[""expr""] --> 1[""/""]".
Proof. vm_compute. reflexivity. Qed.

(** [mermaid_silly_syntax_salad] *)
Example test_mermaid_silly_syntax_salad : replay "
        <list> ::= '[' <items> ']'
        <items> ::= <string> ',' <items> | <string>
        <string> ::= '""foo""' | '""bar""' | '""baz""'
        " "[""foo"",""bar"",""baz""]" true 20 = shows "flowchart TD
0[""list""] --> 1[""#91;""]
0[""list""] --> 2[""items""]
2[""items""] --> 3[""string""]
3[""string""] --> 4[""#34;foo#34;""]
2[""items""] --> 5["",""]
2[""items""] --> 6[""items""]
6[""items""] --> 7[""string""]
7[""string""] --> 8[""#34;bar#34;""]
6[""items""] --> 9["",""]
6[""items""] --> 10[""items""]
10[""items""] --> 11[""string""]
11[""string""] --> 12[""#34;baz#34;""]
0[""list""] --> 13[""#93;""]".
Proof. vm_compute. reflexivity. Qed.

(** ** Other tests *)

(** Text to grammar to text. *)
Definition redisplay (text : String.string) : res (result str) :=
  let* g := grammar_from_str ascii_alpha (utf8 text) in
  Ok (match g with ROk g => ROk (display_grammar g) | RErr e => RErr e end).
Arguments redisplay text%string_scope.
Definition text (s : String.string) : res (result str) := Ok (ROk (utf8 s)).
Arguments text s%string_scope.

(** tests/display.rs [validate_terminated_display] with tests/fixtures/postal_address.terminated.input.bnf *)
Example test_validate_terminated_display : redisplay " <postal-address> ::= <name-part> <street-address> <zip-part>;

            <name-part> ::= <personal-part> <last-name> <opt-suffix-part> <EOL>
                            | <personal-part> <name-part>;

        <personal-part> ::= <initial> ""."" | <first-name>;

        <street-address> ::= <house-num> <street-name> <opt-apt-num> <EOL>;

            <zip-part> ::= <town-name> "","" <state-code> <ZIP-code> <EOL>;

        <opt-suffix-part> ::= ""Sr."" | ""Jr."" | <roman-numeral> | """";
            <opt-apt-num> ::= <apt-num> | """";

        <initial> ::= 'A' | 'B' | 'C' | 'D' | 'E' | 'F' | 'G' | 'H' | 'I' | 'J' | 'K' | 'L' | 'M' | 'N' | 'O' | 'P' | 'Q' | 'R' | 'S' | 'T' | 'U' | 'V' | 'W' | 'X' | 'Y' | 'Z';

        <first-name> ::= <name-word>;
        <last-name> ::= <name-word>;
        <name-word> ::= <letter> | <letter> <name-word>;

        <house-num> ::= <digit> | <digit> <house-num>;
        <apt-num> ::= <digit> | <digit> <apt-num>;

        <street-name> ::= <word> | <word> "" "" <street-name>;
        <town-name> ::= <word> | <word> "" "" <town-name>;
        <word> ::= <letter> | <letter> <word>;

        <state-code> ::= <letter> <letter>;

        <ZIP-code> ::= <digit> <digit> <digit> <digit> <digit>;

        <roman-numeral> ::= ""I"" | ""II"" | ""III"" | ""IV"" | ""V"" | ""VI"" | ""VII"" | ""VIII"" | ""IX"" | ""X"";

        <EOL> ::= "";"";

        <letter> ::= 'A' | 'B' | 'C' | 'D' | 'E' | 'F' | 'G' | 'H' | 'I' | 'J' | 'K' | 'L' | 'M' | 'N' | 'O' | 'P' | 'Q' | 'R' | 'S' | 'T' | 'U' | 'V' | 'W' | 'X' | 'Y' | 'Z' | 'a' | 'b' | 'c' | 'd' | 'e' | 'f' | 'g' | 'h' | 'i' | 'j' | 'k' | 'l' | 'm' | 'n' | 'o' | 'p' | 'q' | 'r' | 's' | 't' | 'u' | 'v' | 'w' | 'x' | 'y' | 'z';

        <digit> ::= '0' | '1' | '2' | '3' | '4' | '5' | '6' | '7' | '8' | '9';
" = text "<postal-address> ::= <name-part> <street-address> <zip-part>
<name-part> ::= <personal-part> <last-name> <opt-suffix-part> <EOL> | <personal-part> <name-part>
<personal-part> ::= <initial> '.' | <first-name>
<street-address> ::= <house-num> <street-name> <opt-apt-num> <EOL>
<zip-part> ::= <town-name> ',' <state-code> <ZIP-code> <EOL>
<opt-suffix-part> ::= 'Sr.' | 'Jr.' | <roman-numeral> | ''
<opt-apt-num> ::= <apt-num> | ''
<initial> ::= 'A' | 'B' | 'C' | 'D' | 'E' | 'F' | 'G' | 'H' | 'I' | 'J' | 'K' | 'L' | 'M' | 'N' | 'O' | 'P' | 'Q' | 'R' | 'S' | 'T' | 'U' | 'V' | 'W' | 'X' | 'Y' | 'Z'
<first-name> ::= <name-word>
<last-name> ::= <name-word>
<name-word> ::= <letter> | <letter> <name-word>
<house-num> ::= <digit> | <digit> <house-num>
<apt-num> ::= <digit> | <digit> <apt-num>
<street-name> ::= <word> | <word> ' ' <street-name>
<town-name> ::= <word> | <word> ' ' <town-name>
<word> ::= <letter> | <letter> <word>
<state-code> ::= <letter> <letter>
<ZIP-code> ::= <digit> <digit> <digit> <digit> <digit>
<roman-numeral> ::= 'I' | 'II' | 'III' | 'IV' | 'V' | 'VI' | 'VII' | 'VIII' | 'IX' | 'X'
<EOL> ::= ';'
<letter> ::= 'A' | 'B' | 'C' | 'D' | 'E' | 'F' | 'G' | 'H' | 'I' | 'J' | 'K' | 'L' | 'M' | 'N' | 'O' | 'P' | 'Q' | 'R' | 'S' | 'T' | 'U' | 'V' | 'W' | 'X' | 'Y' | 'Z' | 'a' | 'b' | 'c' | 'd' | 'e' | 'f' | 'g' | 'h' | 'i' | 'j' | 'k' | 'l' | 'm' | 'n' | 'o' | 'p' | 'q' | 'r' | 's' | 't' | 'u' | 'v' | 'w' | 'x' | 'y' | 'z'
<digit> ::= '0' | '1' | '2' | '3' | '4' | '5' | '6' | '7' | '8' | '9'
".
Proof. vm_compute. reflexivity. Qed.

(** tests/display.rs [validate_nonterminated_display] with tests/fixtures/postal_address.nonterminated.input.bnf *)
Example test_validate_nonterminated_display : redisplay " <postal-address> ::= <name-part> <street-address> <zip-part>;

            <name-part> ::= <personal-part> <last-name> <opt-suffix-part> <EOL>
                            | <personal-part> <name-part>;

        <personal-part> ::= <initial> ""."" | <first-name>;

        <street-address> ::= <house-num> <street-name> <opt-apt-num> <EOL>;

            <zip-part> ::= <town-name> "","" <state-code> <ZIP-code> <EOL>;

        <opt-suffix-part> ::= ""Sr."" | ""Jr."" | <roman-numeral> | """";
            <opt-apt-num> ::= <apt-num> | """"
" = text "<postal-address> ::= <name-part> <street-address> <zip-part>
<name-part> ::= <personal-part> <last-name> <opt-suffix-part> <EOL> | <personal-part> <name-part>
<personal-part> ::= <initial> '.' | <first-name>
<street-address> ::= <house-num> <street-name> <opt-apt-num> <EOL>
<zip-part> ::= <town-name> ',' <state-code> <ZIP-code> <EOL>
<opt-suffix-part> ::= 'Sr.' | 'Jr.' | <roman-numeral> | ''
<opt-apt-num> ::= <apt-num> | ''
".
Proof. vm_compute. reflexivity. Qed.

(** tests/display.rs [grammar_with_quotes] *)
Example test_grammar_with_quotes : redisplay "
        <permissive-string-definition>
            ::= <single-quote> <message> <single-quote>
            | <double-quote> <messag> <double-quote>

        <double-quote>
            ::= '""'

        <single-quote>
            ::= ""'""

        <message>
            ::= ""Hello, world!""
    " = text "<permissive-string-definition> ::= <single-quote> <message> <single-quote> | <double-quote> <messag> <double-quote>
<double-quote> ::= '""'
<single-quote> ::= ""'""
<message> ::= 'Hello, world!'
".
Proof. vm_compute. reflexivity. Qed.

(** tests/grammar.rs: the two fixtures (Fixtures.v) are the same grammar. *)
Example test_fixtures_equal : grammar_from_str ascii_alpha fixture_bnf = grammar_from_str ascii_alpha fixture_abnf /\
  match grammar_from_str ascii_alpha fixture_bnf with Ok (ROk g) => length g = 19 | _ => False end.
Proof. vm_compute. split; reflexivity. Qed.

(** src/grammar.rs [escape_mermaid_label_*] and tests/parse_input.rs [mermaid_escape_mermaid_label_public_api] *)
Example test_escape : forall a b, In (a, b)%string [
  ("abc", "abc");
  ("sum", "sum");
  ("G", "G");
  ("""", "#34;");
  ("a""b", "a#34;b");
  ("[", "#91;");
  ("]", "#93;");
  ("[x]", "#91;x#93;");
  ("\", "#92;");
  ("#", "#35;");
  (";", "#59;");
  ("#34;", "#35;34#59;");
  ("<", "#60;");
  (">", "#62;");
  ("&", "#38;");
  ("<foo>", "#60;foo#62;");
  ("a&b", "a#38;b");
  ("
", "#10;");
  ("", "#13;");
  ("a
b", "a#10;b");
  ("[""];\#""", "#91;#34;#93;#59;#92;#35;#34;");
  ("a""b", "a#34;b");
  ("[", "#91;");
  ("]", "#93;");
  ("\", "#92;");
  ("#", "#35;");
  (";", "#59;");
  ("<", "#60;");
  (">", "#62;");
  ("&", "#38;");
  ("plain", "plain")
  ]%string -> escape_mermaid_label (utf8 a) = utf8 b.
Proof. cbn [In]. intros a b H. repeat destruct H as [H|H]; try contradiction; injection H as <- <-; vm_compute; reflexivity. Qed.

(** Whether the first call of the iterator returns a tree, through [build_parser] if the grammar
    is valid. *)
Definition recognizes (text : String.string) (start : option String.string) (input : String.string) : option bool :=
  match grammar_from_str ascii_alpha (utf8 text) with
  | Ok (ROk g) =>
      match (match start with
             | None => grammar_parse_input g (utf8 input)
             | Some s => grammar_parse_input_starting_with g (utf8 input) (Nonterminal (utf8 s))
             end) with
      | Ok it => match iter_next 5000 it with
                 | Ok (Some _, _) => Some true
                 | Ok (None, _) => Some false
                 | _ => None
                 end
      | _ => None
      end
  | _ => None
  end.
Arguments recognizes (text)%string_scope start (input)%string_scope.

(** src/parsers/mod.rs [use_anon_nonterminal] *)
Example test_use_anon_nonterminal : recognizes "s = ('a' / 'b') 'c'" None "ac" = Some true /\
  recognizes "s = ('a' / 'b') 'c'" None "bc" = Some true.
Proof. vm_compute. repeat split. Qed.

(** src/parsers/mod.rs [use_incremental_alternatives] *)
Example test_use_incremental_alternatives : recognizes "s = a / (a s)
                            a = 'b'
                            a =/ 'c'" None "bcbccbbcbcbcbbbbbbbbbbbbccc" = Some true.
Proof. vm_compute. repeat split. Qed.

(** src/parsers/mod.rs [nested_groups_parse_and_parse_input] *)
Example test_nested_groups_parse_and_parse_input : recognizes "
        <s> ::= ((<a> | <b>) | <c>)
        <a> ::= 'a'
        <b> ::= 'b'
        <c> ::= 'c'" None "a" = Some true /\
  recognizes "
        <s> ::= ((<a> | <b>) | <c>)
        <a> ::= 'a'
        <b> ::= 'b'
        <c> ::= 'c'" None "b" = Some true /\
  recognizes "
        <s> ::= ((<a> | <b>) | <c>)
        <a> ::= 'a'
        <b> ::= 'b'
        <c> ::= 'c'" None "c" = Some true.
Proof. vm_compute. repeat split. Qed.

(** src/parsers/mod.rs [abnf_groups_and_optionals_parse_and_parse_input] *)
Example test_abnf_groups_and_optionals_parse_and_parse_input : recognizes "
        s = ('a' / 'b') ['c']
        a = 'a'
        b = 'b'
        c = 'c'" None "a" = Some true /\
  recognizes "
        s = ('a' / 'b') ['c']
        a = 'a'
        b = 'b'
        c = 'c'" None "ac" = Some true /\
  recognizes "
        s = ('a' / 'b') ['c']
        a = 'a'
        b = 'b'
        c = 'c'" None "b" = Some true /\
  recognizes "
        s = ('a' / 'b') ['c']
        a = 'a'
        b = 'b'
        c = 'c'" None "bc" = Some true /\
  recognizes "
        s = ('a' / 'b') ['c']
        a = 'a'
        b = 'b'
        c = 'c'" None "" = Some false.
Proof. vm_compute. repeat split. Qed.

(** src/parsers/mod.rs [single_element_group_and_optional] *)
Example test_single_element_group_and_optional : recognizes "
        <s> ::= (<a>) [<b>]
        <a> ::= 'a'
        <b> ::= 'b'" None "a" = Some true /\
  recognizes "
        <s> ::= (<a>) [<b>]
        <a> ::= 'a'
        <b> ::= 'b'" None "ab" = Some true /\
  recognizes "
        <s> ::= (<a>) [<b>]
        <a> ::= 'a'
        <b> ::= 'b'" None "" = Some false.
Proof. vm_compute. repeat split. Qed.

(** src/grammar.rs [parse_starting_with] *)
Example test_parse_starting_with : recognizes "<base> ::= 'A' | 'C' | 'G' | 'T'
        <dna> ::= <base> | <base> <dna>" (Some "dna"%string) "GATTACA" = Some true.
Proof. vm_compute. repeat split. Qed.

(** src/grammar.rs [parse_starting_with_base] *)
Example test_parse_starting_with_base : recognizes "<base> ::= 'A' | 'C' | 'G' | 'T'
        <dna> ::= <base> | <base> <dna>" (Some "base"%string) "GATTACA" = Some false.
Proof. vm_compute. repeat split. Qed.

(** src/grammar.rs [parse_starting_with_not_found_production] *)
Example test_parse_starting_with_not_found_production : recognizes "<base> ::= 'A' | 'C' | 'G' | 'T'
        <dna> ::= <base> | <base> <dna>" (Some "notfound"%string) "GATTACA" = Some false.
Proof. vm_compute. repeat split. Qed.

(** src/grammar.rs [unicode_nonterminal_names] *)
Example test_unicode_nonterminal_names : recognizes "<文本> ::= <表情> | <符号> | <表情> <文本>
        <表情> ::= '😀' | '😍'
        <符号> ::= 'α' | 'β'" None "😀α" = Some true.
Proof. vm_compute. repeat split. Qed.

(** src/grammar.rs [unicode_input_parsing] *)
Example test_unicode_input_parsing : recognizes "<text> ::= <emoji> | <emoji> <text>
        <emoji> ::= '😀' | '😍' | '🎉' | '🚀'" None "😀🎉" = Some true.
Proof. vm_compute. repeat split. Qed.

(** src/parsers/mod.rs [parse_optional_anon_nonterminal], [parse_incremental_alternatives],
    [empty_group_and_empty_optional_fail_to_parse], [round_trip_formatting_uses_anon];
    src/grammar.rs [parse_error], [parse_error_on_incomplete], [lhs_is_terminal_parse], [format_grammar]. *)
Definition reads (s : String.string) : res (result grammar) := grammar_from_str ascii_alpha (utf8 s).
Arguments reads s%string_scope.
Definition fails (r : res (result grammar)) : Prop := r = Ok (RErr parse_error).
Example test_reading :
  reads "s = 'c' ['a' / 'b']" = reads "s = 'c' ('a' / 'b' / '')" /\
  (exists g, reads "s = a / a s
                            a = 'b'
                            a =/ 'c'" = Ok (ROk g)) /\
  fails (reads "<s> ::= ()") /\ fails (reads "<s> ::= []") /\
  fails (reads "<almost_grammar> ::= <test") /\ fails (reads "") /\
  fails (reads """wrong place"" ::= <not-used>") /\
  redisplay "
        <s> ::= (<a> | <b>) [<c>]
        <a> ::= 'a'
        <b> ::= 'b'
        <c> ::= 'c'" = text "<s> ::= <__anon0> <__anon1>
<a> ::= 'a'
<b> ::= 'b'
<c> ::= 'c'
<__anon0> ::= <a> | <b>
<__anon1> ::= <c> | ''
" /\
  redisplay "<dna> ::= <base> | <base> <dna>
        <base> ::= 'A' | 'C' | 'G' | 'T'" = text "<dna> ::= <base> | <base> <dna>
<base> ::= 'A' | 'C' | 'G' | 'T'
".
Proof. vm_compute. split; [reflexivity|]. split; [eexists; reflexivity|]. repeat split. Qed.

(** src/grammar.rs [does_not_terminate], [does_terminate] *)
Definition guard (s : String.string) : res bool :=
  match reads s with Ok (ROk g) => terminates 100 g | _ => Panic end.
Arguments guard s%string_scope.
Example test_guard :
  guard "<nonterm> ::= <nonterm>" = Ok false /\
  guard "
        <A> ::= <X> | <A> <X>
        <X> ::= <Y> | <X> <Y>
        <Y> ::= <Y> <Z>
        <Z> ::= 'terminating state!'" = Ok false /\
  guard "
        <not-a-good-first-state-lhs> ::= <not-a-good-first-state-rhs>
        <A> ::= <X> | <A> <X>
        <X> ::= <Y> | <X> <Y>
        <Y> ::= <Z> | <Y> <Z>
        <Z> ::= 'terminating state!'" = Ok false /\
  guard "<nonterm> ::= 'term'" = Ok true /\
  guard "
        <A> ::= <B> | <A> <B>
        <B> ::= <C> | <B> <C>
        <C> ::= <D> | <C> <D>
        <D> ::= <E> | <D> <E>
        <E> ::= <F> | <E> <F>
        <F> ::= <G> | <F> <G>
        <G> ::= <H> | <G> <H>
        <H> ::= <I> | <H> <I>
        <I> ::= <J> | <I> <J>
        <J> ::= <K> | <J> <K>
        <K> ::= <L> | <K> <L>
        <L> ::= <M> | <L> <M>
        <M> ::= <N> | <M> <N>
        <N> ::= <O> | <N> <O>
        <O> ::= <P> | <O> <P>
        <P> ::= <Q> | <P> <Q>
        <Q> ::= <R> | <Q> <R>
        <R> ::= <S> | <R> <S>
        <S> ::= <T> | <S> <T>
        <T> ::= <U> | <T> <U>
        <U> ::= <V> | <U> <V>
        <V> ::= <W> | <V> <W>
        <W> ::= <X> | <W> <X>
        <X> ::= <Y> | <X> <Y>
        <Y> ::= <Z> | <Y> <Z>
        <Z> ::= 'terminating state!'" = Ok true.
Proof. vm_compute. repeat split. Qed.

(** src/parsers/mod.rs [whitespace_plus_comments_*] *)
Example test_layout :
  whitespace_plus_comments (utf8 "  ; comment
  rest"%string) = utf8 "rest"%string /\
  whitespace_plus_comments (utf8 "  ; comment"%string) = [] /\
  whitespace_plus_comments (utf8 "  x"%string) = utf8 "x"%string.
Proof. vm_compute. repeat split. Qed.
