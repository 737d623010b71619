(** The grammar fixtures of the repository: the texts tests/fixtures/bnf.bnf and
    tests/fixtures/bnf.abnf, the grammar they denote, and the language of that grammar stated
    without it. *)
From Verif Require Export EarleySpec Display.
From Coq Require Import Ascii.
From Coq Require String.
Import String.StringSyntax.
Delimit Scope string_scope with string.

(** UTF-8 decoding of Coq string literals (well-formed input). *)
Fixpoint utf8_cont (k : nat) (acc : N) (s : String.string) {struct s} : str :=
  match s with
  | String.EmptyString => []
  | String.String a r =>
      let b := N_of_ascii a in
      match k with
      | 0 => if N.ltb b 128 then b :: utf8_cont 0 0 r
             else if N.ltb b 224 then utf8_cont 1 (b - 192) r
             else if N.ltb b 240 then utf8_cont 2 (b - 224) r
             else utf8_cont 3 (b - 240) r
      | S k => let acc := (acc * 64 + (b - 128))%N in
               match k with 0 => acc :: utf8_cont 0 0 r | S _ => utf8_cont k acc r end
      end
  end.
Definition utf8 (s : String.string) : str := utf8_cont 0 0 s.

(** tests/fixtures/bnf.bnf and tests/fixtures/bnf.abnf, character by character. *)
Definition fixture_bnf : str := utf8 ";autodetection of grammar accounts for comments!(sic)

<syntax>         ::= <rule> | <rule> <syntax>
<rule>           ::= <opt-whitespace> ""<"" <rule-name> "">""
                     <opt-whitespace> ""::="" <opt-whitespace>
                     <expression> <line-end>
<opt-whitespace> ::= """" | "" "" <opt-whitespace>
<expression>     ::= <list> | <list> <opt-whitespace> ""|""
                     <opt-whitespace> <expression>
<line-end>       ::= <opt-whitespace> <EOL>
;that's just how it goes
<list>           ::= <term> | <term> <opt-whitespace> <list>
<term>           ::= <literal> | ""<"" <rule-name> "">""
<literal>        ::= '""' <text1> '""' | ""'"" <text2> ""'""
<text1>          ::= """" | <character1> <text1>
<text2>          ::= """" | <character2> <text2> ;random comment
<character>      ::= <letter> | <digit> | <symbol>
<letter>         ::= ""A"" | ""B"" | ""C"" | ""D"" | ""E"" | ""F""
                    | ""G"" | ""H"" | ""I"" | ""J"" | ""K"" | ""L""
                    | ""M"" | ""N"" | ""O"" | ""P"" | ""Q"" | ""R""
                    | ""S"" | ""T"" | ""U"" | ""V"" | ""W"" | ""X""
                    | ""Y"" | ""Z"" | ""a"" | ""b"" | ""c"" | ""d""
                    | ""e"" | ""f"" | ""g"" | ""h"" | ""i"" | ""j""
                    | ""k"" | ""l"" | ""m"" | ""n"" | ""o"" | ""p""
                    | ""q"" | ""r"" | ""s"" | ""t"" | ""u"" | ""v""
                    | ""w"" | ""x"" | ""y"" | ""z""
<digit>          ::= ""0"" | ""1"" | ""2"" | ""3"" | ""4"" | ""5""
                    | ""6"" | ""7"" | ""8"" | ""9""
<symbol>         ::=  ""|"" | "" "" | ""-"" | ""!"" | ""#"" | ""$""
                    | ""%"" | ""&"" | ""("" | "")"" | ""*"" | ""+""
                    | "","" | ""-"" | ""."" | ""/"" | "":"" | "";""
                    |"">"" | ""="" | ""<"" | ""?"" | ""@"" | ""[""
                    | ""\\"" | ""]"" | ""^"" | ""_"" | ""`""
                    | ""{{"" | ""}}"" | ""~""
<character1>     ::= <character> | ""'""
<character2>     ::= <character> | '""'
<rule-name>      ::= <letter> | <rule-name> <rule-char>
<rule-char>      ::= <letter> | <digit> | ""-""
<EOL>            ::= ""
""
;last thing, i promise...
"%string.
Definition fixture_abnf : str := utf8 "syntax         = rule / rule syntax
rule           = opt-whitespace ""<"" rule-name "">""
                     opt-whitespace ""::="" opt-whitespace
                     expression line-end
opt-whitespace = """" / "" "" opt-whitespace
;this is a comment
expression     = list / list opt-whitespace ""|""
                     opt-whitespace expression
line-end       = opt-whitespace EOL
list           = term / term opt-whitespace list ;s0 !s thi$
term           = literal / ""<"" rule-name "">""
literal        = '""' text1 '""' / ""'"" text2 ""'""
text1          = """" / character1 text1
text2          = """" / character2 text2 ;multiple  
    ;comments
                                    ;in a row!
character      = letter / digit / symbol
letter         = ""A"" / ""B"" / ""C"" / ""D"" / ""E"" / ""F""
                    / ""G"" / ""H"" / ""I"" / ""J"" / ""K"" / ""L""
                    / ""M"" / ""N"" / ""O"" / ""P"" / ""Q"" / ""R""
                    / ""S"" / ""T"" / ""U"" / ""V"" / ""W"" / ""X""
                    / ""Y"" / ""Z"" / ""a"" / ""b"" / ""c"" / ""d""
                    / ""e"" / ""f"" / ""g"" / ""h"" / ""i"" / ""j""
                    / ""k"" / ""l"" / ""m"" / ""n"" / ""o"" / ""p""
                    / ""q"" / ""r"" / ""s"" / ""t"" / ""u"" / ""v""
                    / ""w"" / ""x"" / ""y"" / ""z""
digit          = ""0"" / ""1"" / ""2"" / ""3"" / ""4"" / ""5""
                    / ""6"" / ""7"" / ""8"" / ""9""
symbol         =  ""|"" / "" "" / ""-"" / ""!"" / ""#"" / ""$""
                    / ""%"" / ""&"" / ""("" / "")"" / ""*"" / ""+""
                    / "","" / ""-"" / ""."" / ""/"" / "":"" / "";""
                    /"">"" / ""="" / ""<"" / ""?"" / ""@"" / ""[""
                    / ""\\"" / ""]"" / ""^"" / ""_"" / ""`""
                    / ""{{"" / ""}}"" / ""~""
character1     = character / ""'""
character2     = character / '""'
rule-name      = letter / rule-name rule-char
rule-char      = letter / digit / ""-""
EOL            = ""
"""%string.

(** ** The grammar *)

Definition letters : str := lit "ABCDEFGHIJKLMNOPQRSTUVWXYZabcdefghijklmnopqrstuvwxyz".
Definition digits : str := lit "0123456789".
(** The words of <symbol>, in the order of the file; the text has no escapes, so the backslash is
    written, and stands for, two characters. *)
Definition symbols : list str :=
  [lit "|"; lit " "; lit "-"; lit "!"; lit "#"; lit "$"; lit "%"; lit "&"; lit "("; lit ")"; lit "*"; lit "+";
   lit ","; lit "-"; lit "."; lit "/"; lit ":"; lit ";"; lit ">"; lit "="; lit "<"; lit "?"; lit "@"; lit "[";
   lit "\\"; lit "]"; lit "^"; lit "_"; lit "`"; lit "{{"; lit "}}"; lit "~"].

Definition nt (s : String.string) : term := Nonterminal (lit s).
Definition tm (s : String.string) : term := Terminal (lit s).
Arguments nt s%string.
Arguments tm s%string.
Definition single (w : str) : expression := [Terminal w].
Definition chars (s : str) : list expression := map (fun c => single [c]) s.

Definition meta_grammar : grammar :=
  [ mkProd (nt "syntax") [[nt "rule"]; [nt "rule"; nt "syntax"]];
    mkProd (nt "rule") [[nt "opt-whitespace"; tm "<"; nt "rule-name"; tm ">"; nt "opt-whitespace"; tm "::=";
                         nt "opt-whitespace"; nt "expression"; nt "line-end"]];
    mkProd (nt "opt-whitespace") [[tm ""]; [tm " "; nt "opt-whitespace"]];
    mkProd (nt "expression") [[nt "list"]; [nt "list"; nt "opt-whitespace"; tm "|"; nt "opt-whitespace"; nt "expression"]];
    mkProd (nt "line-end") [[nt "opt-whitespace"; nt "EOL"]];
    mkProd (nt "list") [[nt "term"]; [nt "term"; nt "opt-whitespace"; nt "list"]];
    mkProd (nt "term") [[nt "literal"]; [tm "<"; nt "rule-name"; tm ">"]];
    mkProd (nt "literal") [[tm """"; nt "text1"; tm """"]; [tm "'"; nt "text2"; tm "'"]];
    mkProd (nt "text1") [[tm ""]; [nt "character1"; nt "text1"]];
    mkProd (nt "text2") [[tm ""]; [nt "character2"; nt "text2"]];
    mkProd (nt "character") [[nt "letter"]; [nt "digit"]; [nt "symbol"]];
    mkProd (nt "letter") (chars letters);
    mkProd (nt "digit") (chars digits);
    mkProd (nt "symbol") (map single symbols);
    mkProd (nt "character1") [[nt "character"]; [tm "'"]];
    mkProd (nt "character2") [[nt "character"]; [tm """"]];
    mkProd (nt "rule-name") [[nt "letter"]; [nt "rule-name"; nt "rule-char"]];
    mkProd (nt "rule-char") [[nt "letter"]; [nt "digit"]; [tm "-"]];
    mkProd (nt "EOL") [[Terminal [10%N]]] ].

(** ** Its language *)

(** Letters, digits and dashes, a letter first. *)
Definition simple_name (n : str) : Prop :=
  exists c r, n = c :: r /\ In c letters /\ forall x, In x r -> In x (letters ++ digits ++ lit "-").

(** Sequences of letters, digits, words of [symbols], and the quote [q]. *)
Inductive simple_string (q : char) : str -> Prop :=
| simple_empty : simple_string q []
| simple_more w s : (exists c, w = [c] /\ In c (letters ++ digits)) \/ In w symbols \/ w = [q] ->
    simple_string q s -> simple_string q (w ++ s).

Definition spaces (s : str) : Prop := exists k, s = repeat 32%N k.

Inductive simple_term : term -> str -> Prop :=
| simple_nonterminal n : simple_name n -> simple_term (Nonterminal n) (lit "<" ++ n ++ lit ">")
| simple_double s : simple_string squote s -> simple_term (Terminal s) (dquote :: s ++ [dquote])
| simple_single s : simple_string dquote s -> simple_term (Terminal s) (squote :: s ++ [squote]).

Inductive simple_list : expression -> str -> Prop :=
| simple_last t w : simple_term t w -> simple_list [t] w
| simple_next t w sp e v : simple_term t w -> spaces sp -> simple_list e v -> simple_list (t :: e) (w ++ sp ++ v).

Inductive simple_alts : list expression -> str -> Prop :=
| simple_one e w : simple_list e w -> simple_alts [e] w
| simple_alt e w sp1 sp2 es v : simple_list e w -> spaces sp1 -> spaces sp2 -> simple_alts es v ->
    simple_alts (e :: es) (w ++ sp1 ++ lit "|" ++ sp2 ++ v).

Inductive simple_rule : production -> str -> Prop :=
| simple_production n es sp1 sp2 sp3 sp4 w : simple_name n -> spaces sp1 -> spaces sp2 -> spaces sp3 -> spaces sp4 ->
    simple_alts es w ->
    simple_rule (mkProd (Nonterminal n) es)
      (sp1 ++ lit "<" ++ n ++ lit ">" ++ sp2 ++ lit "::=" ++ sp3 ++ w ++ sp4 ++ [10%N]).

(** Texts of grammars in which every rule ends with its line, names are simple, strings use the
    characters above, layout consists of spaces, and there are no comments and groups. *)
Inductive simple_text : grammar -> str -> Prop :=
| simple_final p w : simple_rule p w -> simple_text [p] w
| simple_rules p w g v : simple_rule p w -> simple_text g v -> simple_text (p :: g) (w ++ v).

(** What such texts can write. *)
Definition simple_grammar (g : grammar) : Prop :=
  g <> [] /\ forall p, In p g -> (exists n, p_lhs p = Nonterminal n /\ simple_name n) /\ p_rhs p <> [] /\
    forall e, In e (p_rhs p) -> e <> [] /\
      forall t, In t e -> match t with
                          | Nonterminal n => simple_name n
                          | Terminal s => simple_string squote s \/ simple_string dquote s
                          end.
