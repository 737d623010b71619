(** C73: [Debug] output.  [literal] (Rust's string literals) and [code_point] are defined in
    Facts_Debug.v, [code] in DebugProofs.v: a text that can be recognised at the start of a longer one. *)
From Verif Require Import DebugProofs Facts_Errors EarleyMain Facts_Debug DebugTree TextExamples ParseExamples.
From Coq Require String.
Import String.StringSyntax.

(** ** C73 Debug output identifies what it shows *)

(** A string is shown as a string literal for it, on one line; ordinary characters are shown as
    they are, whichever characters the core library regards as printable. *)
Theorem C73_strings : forall plain s, Forall code_point s ->
  literal (debug_str plain s) s /\ ~ In 10%N (debug_str plain s) /\
  ((forall c, In c s -> plain c = true /\ ~ In c [0; 9; 10; 13; 34; 92]%N) -> debug_str plain s = [34%N] ++ s ++ [34%N]).
Proof. exact C73_strings_proof. Qed.
Print Assumptions C73_strings.

(** Different values are shown differently, in the plain and in the indented form, and the end
    of the text shows where the value ends. *)
Theorem C73_shows : forall plain n,
  code (debug_str plain) /\ code (debug_term plain) /\ code (debug_expression plain) /\ code (debug_production plain) /\ code (debug_grammar plain) /\
  code (Debug.debug_error plain) /\
  code (pretty_term plain n) /\ code (pretty_expression plain n) /\ code (pretty_production plain n) /\ code (pretty_grammar plain n).
Proof. exact C73_shows_proof. Qed.
Print Assumptions C73_shows.

(** The plain form of a grammar is one line. *)
Theorem C73_one_line : forall plain g, ~ In 10%N (debug_grammar plain g).
Proof. exact debug_grammar_one_line. Qed.
Print Assumptions C73_one_line.

(** Parse trees. *)
Theorem C73_trees : forall plain n,
  code (debug_tree plain) /\ code (pretty_tree plain n) /\ forall t, ~ In 10%N (debug_tree plain t).
Proof. exact C73_trees_proof. Qed.
Print Assumptions C73_trees.

(** The message of a parse error (C65) identifies the reported rest and kind. *)
Theorem C73_message : forall plain r k r' k', message (debug_str plain) r k = message (debug_str plain) r' k' -> r = r' /\ k = k'.
Proof. exact C73_message_proof. Qed.
Print Assumptions C73_message.

(** A range held by the parser is shown as the whole input with two bars around what was matched. *)
Theorem C73_ranges : forall g start input it ts it1 t,
  opens g start input it -> produces it ts it1 -> In t (tt_arena (s_tree (it_state it1))) ->
  exists before matched after, input = before ++ matched ++ after /\ range_next (t_range t) = after /\
    debug_range (t_range t) = lit "InputRange(" ++ [34%N] ++ before ++ lit "|" ++ matched ++ lit "|" ++ after ++ [34%N] ++ lit ")".
Proof. exact C73_ranges_proof. Qed.
Print Assumptions C73_ranges.

(** So is every other range (whether or not it is inside of the input and between characters); a part
    that is not text of the input is left empty. *)
Theorem C73_any_range : forall input start len, exists before matched after,
  shown input 0 start before /\ shown input start (start + len) matched /\
  shown input (start + len) (byte_len input) after /\
  debug_range (mkR input start len) = lit "InputRange(" ++ [34%N] ++ before ++ lit "|" ++ matched ++ lit "|" ++ after ++ [34%N] ++ lit ")".
Proof. exact C73_any_range_proof. Qed.
Print Assumptions C73_any_range.

Example C73_example :
  debug_str (fun c => N.leb 32 c && N.leb c 126)%bool [97; 34; 92; 10; 7; 233; 128512]%N = lit """a\""\\\n\u{7}\u{e9}\u{1f600}""" /\
  debug_grammar (fun _ => true) [mkProd (N_ "a") [[T_ "b"; N_ "c"]; []]] =
    lit "Grammar { productions: [Production { lhs: Nonterminal(""a""), rhs: [Expression { terms: [Terminal(""b""), Nonterminal(""c"")] }, Expression { terms: [] }] }] }" /\
  pretty_expression (fun _ => true) 0 [T_ "b"] =
    removelast (lines [lit "Expression {"; lit "    terms: ["; lit "        Terminal("; lit "            ""b"","; lit "        ),"; lit "    ],"; lit "}"]) /\
  debug_tree (fun _ => true) (Node (N_ "s") [Leaf (lit "a"); Sub (Node (N_ "t") [])]) =
    lit "ParseTree { lhs: Nonterminal(""s""), rhs: [Terminal(""a""), Nonterminal(ParseTree { lhs: Nonterminal(""t""), rhs: [] })] }" /\
  pretty_tree (fun _ => true) 0 (Node (N_ "s") [Leaf (lit "a"); Sub (Node (N_ "t") [])]) = removelast (lines
    [ lit "ParseTree {"; lit "    lhs: Nonterminal("; lit "        ""s"","; lit "    ),"; lit "    rhs: ["; lit "        Terminal(";
      lit "            ""a"","; lit "        ),"; lit "        Nonterminal("; lit "            ParseTree {"; lit "                lhs: Nonterminal(";
      lit "                    ""t"","; lit "                ),"; lit "                rhs: [],"; lit "            },"; lit "        ),"; lit "    ],"; lit "}" ]) /\
  (let* r := advance_by (range_new (lit "GATTACA")) 3 in let* r := advance_by (range_after r) 2 in Ok (debug_range r)) =
    Ok (lit "InputRange(""GAT|TA|CA"")") /\
  map debug_range [mkR [97; 233; 98]%N 2 1; mkR (lit "ab") 1 5] = [lit "InputRange(""||b"")"; lit "InputRange(""a||"")"].
Proof. repeat split; vm_compute; reflexivity. Qed.
