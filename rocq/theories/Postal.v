(** The grammar of postal addresses that the benchmarks (benches/divan.rs) generate from and parse with:
    tests/fixtures/postal_address.terminated.input.bnf *)
From Verif Require Export Fixtures ParseExamples.
From Coq Require Import String.
Import String.StringSyntax.
Open Scope list_scope.

Definition postal_text : str := utf8 " <postal-address> ::= <name-part> <street-address> <zip-part>;

            <name-part> ::= <personal-part> <last-name> <opt-suffix-part> <EOL>
                            | <personal-part> <name-part>;

        <personal-part> ::= <initial> ""."" | <first-name>;

        <street-address> ::= <house-num> <street-name> <opt-apt-num> <EOL>;

            <zip-part> ::= <town-name> "","" <state-code> <ZIP-code> <EOL>;

        <opt-suffix-part> ::= ""Sr."" | ""Jr."" | <roman-numeral> | """";
            <opt-apt-num> ::= <apt-num> | """";

        <initial> ::= 'A' | 'B' | 'C' | 'D' | 'E' | 'F' | 'G' | 'H' | 'I' | 'J' | 'K' | 'L' | 'M' | 'N' | 'O' | 'P' | 'Q' | 'R' | 'S' | 'T' | 'U' | 'V' | 'W' | 'X' | 'Y' | 'Z';

        <first-name> ::= <name-word>;
        <last-name> ::= <name-word>;
        <name-word> ::= <letter> | <letter> <name-word>;

        <house-num> ::= <digit> | <digit> <house-num>;
        <apt-num> ::= <digit> | <digit> <apt-num>;

        <street-name> ::= <word> | <word> "" "" <street-name>;
        <town-name> ::= <word> | <word> "" "" <town-name>;
        <word> ::= <letter> | <letter> <word>;

        <state-code> ::= <letter> <letter>;

        <ZIP-code> ::= <digit> <digit> <digit> <digit> <digit>;

        <roman-numeral> ::= ""I"" | ""II"" | ""III"" | ""IV"" | ""V"" | ""VI"" | ""VII"" | ""VIII"" | ""IX"" | ""X"";

        <EOL> ::= "";"";

        <letter> ::= 'A' | 'B' | 'C' | 'D' | 'E' | 'F' | 'G' | 'H' | 'I' | 'J' | 'K' | 'L' | 'M' | 'N' | 'O' | 'P' | 'Q' | 'R' | 'S' | 'T' | 'U' | 'V' | 'W' | 'X' | 'Y' | 'Z' | 'a' | 'b' | 'c' | 'd' | 'e' | 'f' | 'g' | 'h' | 'i' | 'j' | 'k' | 'l' | 'm' | 'n' | 'o' | 'p' | 'q' | 'r' | 's' | 't' | 'u' | 'v' | 'w' | 'x' | 'y' | 'z';

        <digit> ::= '0' | '1' | '2' | '3' | '4' | '5' | '6' | '7' | '8' | '9';
".

(** One alternative for each character. *)
Definition one_of (cs : str) : list expression := map (fun c => [Terminal [c]]) cs.
Definition capitals : str := lit "ABCDEFGHIJKLMNOPQRSTUVWXYZ".
Definition letters : str := capitals ++ lit "abcdefghijklmnopqrstuvwxyz".
Definition digits : str := lit "0123456789".

Definition postal_grammar : grammar :=
  [mkProd (N_ "postal-address") [[N_ "name-part"; N_ "street-address"; N_ "zip-part"]];
   mkProd (N_ "name-part") [[N_ "personal-part"; N_ "last-name"; N_ "opt-suffix-part"; N_ "EOL"]; [N_ "personal-part"; N_ "name-part"]];
   mkProd (N_ "personal-part") [[N_ "initial"; T_ "."]; [N_ "first-name"]];
   mkProd (N_ "street-address") [[N_ "house-num"; N_ "street-name"; N_ "opt-apt-num"; N_ "EOL"]];
   mkProd (N_ "zip-part") [[N_ "town-name"; T_ ","; N_ "state-code"; N_ "ZIP-code"; N_ "EOL"]];
   mkProd (N_ "opt-suffix-part") [[T_ "Sr."]; [T_ "Jr."]; [N_ "roman-numeral"]; [T_ ""]];
   mkProd (N_ "opt-apt-num") [[N_ "apt-num"]; [T_ ""]];
   mkProd (N_ "initial") (one_of capitals);
   mkProd (N_ "first-name") [[N_ "name-word"]];
   mkProd (N_ "last-name") [[N_ "name-word"]];
   mkProd (N_ "name-word") [[N_ "letter"]; [N_ "letter"; N_ "name-word"]];
   mkProd (N_ "house-num") [[N_ "digit"]; [N_ "digit"; N_ "house-num"]];
   mkProd (N_ "apt-num") [[N_ "digit"]; [N_ "digit"; N_ "apt-num"]];
   mkProd (N_ "street-name") [[N_ "word"]; [N_ "word"; T_ " "; N_ "street-name"]];
   mkProd (N_ "town-name") [[N_ "word"]; [N_ "word"; T_ " "; N_ "town-name"]];
   mkProd (N_ "word") [[N_ "letter"]; [N_ "letter"; N_ "word"]];
   mkProd (N_ "state-code") [[N_ "letter"; N_ "letter"]];
   mkProd (N_ "ZIP-code") [[N_ "digit"; N_ "digit"; N_ "digit"; N_ "digit"; N_ "digit"]];
   mkProd (N_ "roman-numeral") [[T_ "I"]; [T_ "II"]; [T_ "III"]; [T_ "IV"]; [T_ "V"]; [T_ "VI"]; [T_ "VII"]; [T_ "VIII"]; [T_ "IX"]; [T_ "X"]];
   mkProd (N_ "EOL") [[T_ ";"]];
   mkProd (N_ "letter") (one_of letters);
   mkProd (N_ "digit") (one_of digits)].
