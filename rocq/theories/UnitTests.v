(** The remaining unit tests of the repository that are not random, replayed on the model.  Their inputs
    and what they assert are those of the Rust code; the property tests are the subject of C75 and C76, the
    tests of random generation that of C78. *)
From Verif Require Import TextExamples TreeFormat Strategies GenProofs Macros Debug TextErrors PropTests ParseExamples Conformance Fixtures.
From Coq Require String.
Import String.StringSyntax.

Definition reads_term (s : String.string) : res (result term) := term_from_str ascii_alpha (utf8 s).
Definition reads_expression (s : String.string) : res (result expression) := expression_from_str ascii_alpha (utf8 s).
Definition reads_production (s : String.string) : res (result production) := production_from_str ascii_alpha (utf8 s).
Local Arguments utf8 _%string.
Arguments reads_term s%string.
Arguments reads_expression s%string.
Arguments reads_production s%string.
Definition is_error {A} (r : res (result A)) : Prop := r = Ok (RErr parse_error).
Definition is_ok {A} (r : res (result A)) : bool := match r with Ok (ROk _) => true | _ => false end.
Definition tnt (s : String.string) : mtok := MNt (lit s).
Definition tlit (s : String.string) : mtok := MLit (lit s).
Arguments tnt s%string.
Arguments tlit s%string.

(** ** src/term.rs:102-250 *)
Example unit_term_parse_complete : reads_term "<dna>" = Ok (ROk (nt "dna")).
Proof. reflexivity. Qed.
Example unit_term_parse_error : is_error (reads_term "<dna") /\
  starts_with (display_error parse_error) (lit "Parsing error: ") = true /\ is_error (reads_term "").
Proof. vm_compute. repeat split. Qed.
Example unit_term_parse_whitespace : reads_term "< some space >" = Ok (ROk (nt " some space ")) /\
  reads_term """ some space """ = Ok (ROk (tm " some space ")).
Proof. vm_compute. repeat split. Qed.
Example unit_term_parse_quotes : reads_term "'""'" = Ok (ROk (tm """")) /\ reads_term """'""" = Ok (ROk (tm "'")) /\
  term_from_str ascii_alpha (display_term (tm """")) = Ok (ROk (tm """")).
Proof. vm_compute. repeat split. Qed.
Example unit_term_add_operator : let t := tm "terminal" in let n := nt "nonterminal" in
  [n; t] = term_add_term n t /\ [n; t] = term_add_expression_ref t [n] /\ [n; t] = term_add_expression t [n].
Proof. cbv. repeat split. Qed.
Example unit_term_from_str : is_ok (reads_term "'👏 '") = true /\ is_ok (reads_term "<🤘>") = true.
Proof. vm_compute. repeat split. Qed.

(** ** src/expression.rs:197-469, tests/from_str.rs *)
Example unit_expression_new : expression_macro [tnt "nonterminal"; tlit "terminal"] =
  Some (add_term (add_term [] (nt "nonterminal")) (tm "terminal")).
Proof. reflexivity. Qed.
Example unit_expression_add_term : add_term [tm "A"; tm "C"; tm "G"] (tm "T") = [tm "A"; tm "C"; tm "G"; tm "T"].
Proof. reflexivity. Qed.
Example unit_expression_remove_term :
  remove_term [tm "A"; tm "C"; tm "G"; tm "T"; tm "Z"] (tm "Z") = Ok (Some (tm "Z"), [tm "A"; tm "C"; tm "G"; tm "T"]) /\
  remove_term [tm "A"; tm "C"; tm "G"; tm "T"] (tm "Z") = Ok (None, [tm "A"; tm "C"; tm "G"; tm "T"]).
Proof. vm_compute. repeat split. Qed.
Example unit_expression_parse : reads_expression "<base> <dna>" = Ok (ROk [nt "base"; nt "dna"]) /\
  is_error (reads_expression "<base> <dna") /\ is_error (reads_expression "") /\
  reads_expression "<b> 'A' <b>" = Ok (ROk [nt "b"; tm "A"; nt "b"]) /\ reads_expression "'END'" = Ok (ROk [tm "END"]) /\
  is_ok (reads_expression "'😵' '😋' '😉'") = true.
Proof. vm_compute. repeat split. Qed.
Example unit_expression_add_operator : let e := [nt "nonterminal"; tm "terminal"] in
  e = expression_ref_add_expression [nt "nonterminal"] [tm "terminal"] /\
  e = expression_ref_add_term [nt "nonterminal"] (tm "terminal") /\
  e = expression_add_expression [nt "nonterminal"] [tm "terminal"] /\
  e = expression_add_term [nt "nonterminal"] (tm "terminal").
Proof. cbv. repeat split. Qed.
Definition ends (s : String.string) (rules : option (list String.string)) : option bool :=
  match reads_expression s with
  | Ok (ROk e) => Some (expr_terminates e (option_map (map (fun x => Nonterminal (utf8 x))) rules))
  | _ => None
  end.
Arguments ends s%string rules.
Example unit_expression_does_not_terminate :
  ends "<a> <b> <c>" None = Some false /\ ends "'a' <b> <c>" None = Some false /\ ends "<a> 'b' <c>" None = Some false /\
  ends "<a> <b> 'c'" None = Some false /\ ends "'a' 'b' <c>" None = Some false /\ ends "'a' <b> 'c'" None = Some false /\
  ends "<a> 'b' 'c'" None = Some false /\ ends "'a' <b> <c>" (Some ["b"; "1"; "2"]%string) = Some false /\
  ends "<a> <b> <c>" (Some ["c"; "b"; "1"]%string) = Some false.
Proof. vm_compute. repeat split. Qed.
Example unit_expression_does_terminate :
  ends "'a' 'b' 'c'" None = Some true /\ ends "'a' 'b'" None = Some true /\ ends "'a'" None = Some true /\
  ends "'a' 'b' <c>" (Some ["c"]%string) = Some true /\ ends "'a' <b> <c>" (Some ["c"; "b"]%string) = Some true /\
  ends "'a' <b> <c>" (Some ["c"; "b"; "1"; "2"]%string) = Some true /\
  ends "<a> <b> <c>" (Some ["c"; "b"; "1"; "2"; "a"]%string) = Some true.
Proof. vm_compute. repeat split. Qed.
Example unit_expression_macro : expression_macro [tnt "a"; tlit "and"; tnt "b"] = Some [nt "a"; tm "and"; nt "b"].
Proof. reflexivity. Qed.

(** ** src/production.rs:176-449, tests/from_str.rs *)
Example unit_production_new : let e := [tm "STRING B"; nt "STRING_C"] in
  mkProd (nt "STRING_A") [e] = add_to_rhs (mkProd (nt "STRING_A") []) e.
Proof. reflexivity. Qed.
Example unit_production_remove : let one := [nt "base"] in let more := [nt "base"; nt "dna"] in let two := [nt "base"; nt "base"; nt "dna"] in
  remove_from_rhs (mkProd (nt "dna") [one; more; two]) two = Ok (Some two, mkProd (nt "dna") [one; more]) /\
  remove_from_rhs (mkProd (nt "dna") [one; [tm "base"; nt "dna"]]) two = Ok (None, mkProd (nt "dna") [one; [tm "base"; nt "dna"]]).
Proof. vm_compute. repeat split. Qed.
Example unit_production_parse :
  production_macro [tnt "dna"; MDef; tnt "base"; MBar; tnt "base"; tnt "dna"] = Some (mkProd (nt "dna") [[nt "base"]; [nt "base"; nt "dna"]]) /\
  reads_production "<dna> ::= <base> | <base> <dna>" = Ok (ROk (mkProd (nt "dna") [[nt "base"]; [nt "base"; nt "dna"]])).
Proof. vm_compute. repeat split. Qed.
Example unit_production_parse_error : is_error (reads_production "<base> ::= 'A' | 'C' | 'G' |") /\ is_error (reads_production "").
Proof. vm_compute. repeat split. Qed.
Example unit_production_comments :
  reads_production "<base> ::= 'A' ; 'C' ; 'G' ; 'T'" = Ok (ROk (mkProd (nt "base") [[tm "A"]])) /\
  reads_production "<a> ::= 'x' ; this is a comment
" = Ok (ROk (mkProd (nt "a") [[tm "x"]])) /\
  reads_production "<a> ::= 'x' ; comment" = Ok (ROk (mkProd (nt "a") [[tm "x"]])) /\
  reads_production "<a> ::= 'x' ; comment
 | 'y'" = Ok (ROk (mkProd (nt "a") [[tm "x"]; [tm "y"]])).
Proof. vm_compute. repeat split. Qed.
Example unit_production_format : exists p, reads_production "<dna> ::= <base> | <dna> <base>" = Ok (ROk p) /\ length (p_rhs p) = 2 /\
  display_production p = lit "<dna> ::= <base> | <dna> <base>".
Proof. eexists. split; [vm_compute; reflexivity|]. vm_compute. repeat split. Qed.
Example unit_production_iter : exists p e, reads_production "<dna> ::= <base>" = Ok (ROk p) /\ reads_expression "<base>" = Ok (ROk e) /\ p_rhs p = [e].
Proof. do 2 eexists. split; [vm_compute; reflexivity|]. split; [vm_compute; reflexivity|]. reflexivity. Qed.
Definition has_end (s : String.string) (rules : option (list String.string)) : option bool :=
  match reads_production s with
  | Ok (ROk p) => Some (has_terminating_expression p (option_map (map (fun x => Nonterminal (utf8 x))) rules))
  | _ => None
  end.
Arguments has_end s%string rules.
Example unit_production_does_have_terminating_expression :
  has_end "<S> ::= 'T'" None = Some true /\ has_end "<S> ::= 'T' | <NT>" None = Some true /\
  has_end "<S> ::= <NT> | 'T'" None = Some true /\ has_end "<S> ::= <NT1> | 'T' | <NT2>" None = Some true /\
  has_end "<S> ::= 'T1' | <NT> | 'T2'" None = Some true /\
  has_end "<S> ::= <NT1> <NT2> | <NT3> | <NT4>" (Some ["NT1"; "NT2"; "NTa"; "NTb"]%string) = Some true /\
  has_end "<S> ::= <NT1> <NT2> | <NT3> | <NT4>" (Some ["NTa"; "NT4"; "NTc"; "NTb"]%string) = Some true.
Proof. vm_compute. repeat split. Qed.
Example unit_production_does_not_have_terminating_expression :
  has_end "<S> ::= <NT>" None = Some false /\ has_end "<S> ::= 'T' <NT>" None = Some false /\
  has_end "<S> ::= <NT> 'T'" None = Some false /\ has_end "<S> ::= <NT1> 'T' | <NT2>" None = Some false /\
  has_end "<S> ::= <NT1> | <NT> 'T2'" None = Some false /\
  has_end "<S> ::= <NT1> <NT2> | <NT3> | <NT4>" (Some ["NT1"; "NTa"; "NTb"; "NTc"]%string) = Some false /\
  has_end "<S> ::= <NT1> <NT2> | <NT3> | <NT4>" (Some ["NT2"; "NTa"; "NTb"; "NTc"]%string) = Some false /\
  has_end "<S> ::= <NT1> <NT2> | <NT3> | <NT4>" (Some ["NTa"; "NTb"; "NTc"; "NTd"]%string) = Some false.
Proof. vm_compute. repeat split. Qed.
Example unit_production_from_str : is_ok (reads_production "<🤘> ::= '👏 ' '👊' | '👌'") = true.
Proof. vm_compute. reflexivity. Qed.

(** ** src/error.rs:46-139, with any [Debug] of strings *)
Example unit_error_display : forall m, display_error (ParseError m) = m /\ display_error (GenerateError m) = m /\ display_error (ValidationError m) = m.
Proof. intro m. repeat split. Qed.
Example unit_error_from_nom : forall ds e s k, (exists m, from_bare_nom ds e = ParseError m) /\ (exists m, from_pair ds s k = ParseError m) /\
  (exists m, from_nom ds e = ParseError m /\ occurs (lit "Parsing error:") m = true).
Proof. intros. repeat split; eexists; repeat split. Qed.
Example unit_error_tags : p_tag (lit "1234") (lit "12340") = Some (lit "0") /\ p_tag (lit "5678") (lit "0") = None /\ p_tag (lit "1234") [] = None.
Proof. vm_compute. repeat split. Qed.

(** ** src/parsers/bnf.rs:21-134, src/parsers/augmented.rs:18-77, src/parsers/mod.rs:520-527.  The raw strings end
    with a backslash, an r, a backslash and an n. *)
Definition pattern : production := mkProd (nt "nonterminal-pattern") [[nt "nonterminal-pattern"; tm "terminal-pattern"]; [tm "terminal-pattern"]].
Definition value {A} (r : pres A) : res (option A) := let* o := r in Ok (option_map fst o).
(** src/parsers/mod.rs:204-207 [grammar], only used by these tests. *)
Definition read_prefix (F : format) (s : str) : pres grammar :=
  let+ (pg, r) := read_grammar ascii_alpha F (fuel_for s) s in
  let* g := normalize_parsed_grammar pg in Ok (Some (g, r)).
Definition bnf_pattern : str := lit "<nonterminal-pattern> ::= <nonterminal-pattern> ""terminal-pattern"" | ""terminal-pattern"";\r\n".
Definition abnf_pattern : str := lit "nonterminal-pattern = nonterminal-pattern ""terminal-pattern"" / ""terminal-pattern"";\r\n".
Example unit_bnf_match :
  nonterminal ascii_alpha BNF (lit "<nonterminal-pattern>") = Some (nt "nonterminal-pattern", []) /\
  value (parse_expression ascii_alpha BNF 100 (lit "<nonterminal-pattern> ""terminal-pattern""")) =
    Ok (Some [nt "nonterminal-pattern"; tm "terminal-pattern"]) /\
  value (parse_production ascii_alpha BNF 200 bnf_pattern) = Ok (Some pattern) /\
  value (read_prefix BNF bnf_pattern) = Ok (Some [pattern]).
Proof. vm_compute. repeat split. Qed.
Example unit_bnf_comments :
  value (parse_production ascii_alpha BNF 100 (utf8 "<a> ::= 'x' ; only a comment
")) = Ok (Some (mkProd (nt "a") [[tm "x"]])) /\
  value (read_prefix BNF (utf8 "<a> ::= 'x'
; comment
<b> ::= 'y'
")) = Ok (Some [mkProd (nt "a") [[tm "x"]]; mkProd (nt "b") [[tm "y"]]]) /\
  value (read_prefix BNF (utf8 "<a> ::= 'x'
<b> ::= 'y' ; last line comment")) = Ok (Some [mkProd (nt "a") [[tm "x"]]; mkProd (nt "b") [[tm "y"]]]).
Proof. vm_compute. repeat split. Qed.
Example unit_augmented_match :
  nonterminal ascii_alpha ABNF (lit "nonterminal-pattern") = Some (nt "nonterminal-pattern", []) /\
  value (parse_expression ascii_alpha ABNF 100 (lit "nonterminal-pattern ""terminal-pattern""")) =
    Ok (Some [nt "nonterminal-pattern"; tm "terminal-pattern"]) /\
  value (parse_production ascii_alpha ABNF 200 abnf_pattern) = Ok (Some pattern) /\
  value (read_prefix ABNF abnf_pattern) = Ok (Some [pattern]).
Proof. vm_compute. repeat split. Qed.
Example unit_parsers_terminal_match : terminal (lit """hello world""") = Some (tm "hello world", []).
Proof. vm_compute. reflexivity. Qed.

(** src/parsers/nom_xt.rs:54-72.  Parsers that fail for good ([Err::Failure]) do not occur in the crate and are not
    modelled. *)
Definition tag_test (s : str) : pres str := Ok (option_map (fun r => (lit "test", r)) (p_tag (lit "test") s)).
Example unit_xt_list : xt_list 10 tag_test (p_tag (lit ",")) [] (lit "test,test,test") = Ok (Some ([lit "test"; lit "test"; lit "test"], [])) /\
  xt_list 10 tag_test (p_tag (lit ",")) [] (lit "test") = Ok (Some ([lit "test"], [])).
Proof. vm_compute. repeat split. Qed.

(** ** src/parser/mod.rs:100-330 *)
Definition builds (s : String.string) : option (result unit) :=
  match reads s with
  | Ok (ROk g) => Some (match build_parser id_order g with ROk _ => ROk tt | RErr e => RErr e end)
  | _ => None
  end.
Arguments builds s%string.
(** How many trees there are. *)
Definition count_trees (s input : String.string) (start : option term) : res nat :=
  let* r := reads s in
  match r with
  | RErr _ => Panic
  | ROk g => match build_parser id_order g with
             | RErr _ => Panic
             | ROk p => let* it := match start with None => parse_input p (utf8 input) | Some t => parse_input_starting_with p (utf8 input) t end in
                        let* ts := draw 100 5000 it in Ok (length ts)
             end
  end.
Arguments count_trees s%string input%string start.
Example unit_parser_construction :
  builds "<dna> ::= <base> | <base> <dna>
        <base> ::= 'A' | 'C' | 'G' | 'T'" = Some (ROk tt) /\
  build_parser id_order [] = RErr (ValidationError msg_empty) /\
  builds "<start> ::= (<undefined>)" = Some (RErr (ValidationError (msg_undefined (lit "undefined")))) /\
  builds "<start> ::= (<base>)
<base> ::= 'A'" = Some (ROk tt) /\
  builds "<dna> ::= <base> | <base> <dna>
        <base> ::= <undefined>" = Some (RErr (ValidationError (msg_undefined (lit "undefined")))).
Proof. vm_compute. repeat split. Qed.
Definition group_text : String.string := "<s> ::= (<a> | <b>) [<c>]
<a> ::= 'a'
<b> ::= 'b'
<c> ::= 'c'"%string.
Example unit_parser_normalization :
  count_trees group_text "a" None = Ok 1 /\ count_trees group_text "ac" None = Ok 1 /\ count_trees group_text "" None = Ok 0 /\
  count_trees "<s> ::= [<x>]
<x> ::= 'x'" "" None = Ok 1 /\
  count_trees "<s> ::= [<x>]
<x> ::= 'x'" "x" None = Ok 1.
Proof. vm_compute. repeat split. Qed.
Example unit_parser_user_defined_anon_name :
  count_trees "<__anon0> ::= 'a'
<s> ::= (<__anon0>)" "a" None = Ok 1 /\
  exists g, reads "<__anon0> ::= 'a'
<s> ::= (<__anon0>)" = Ok (ROk g) /\ map p_lhs g = [nt "__anon0"; nt "s"; nt "__anon1"].
Proof. split; [vm_compute; reflexivity|]. eexists. split; [vm_compute; reflexivity|reflexivity]. Qed.
Definition dna_text : String.string := "<dna> ::= <base> | <base> <dna>
        <base> ::= 'A' | 'C' | 'G' | 'T'"%string.
Definition dna_text2 : String.string := "<base> ::= 'A' | 'C' | 'G' | 'T'
        <dna> ::= <base> | <base> <dna>"%string.
Example unit_parser_inputs :
  count_trees dna_text "GATTACA" None = Ok 1 /\ count_trees dna_text "ATCG" None = Ok 1 /\
  count_trees dna_text2 "GATTACA" (Some (nt "dna")) = Ok 1 /\ count_trees dna_text2 "G" (Some (tm "G")) = Ok 0 /\
  count_trees dna_text "GATTACA" (Some (nt "dna")) = Ok 1.
Proof. vm_compute. repeat split. Qed.

(** ** src/grammar.rs:946-1154 and 1311-1853 *)
Example unit_grammar_edit :
  let p := mkProd (nt "dna") [[tm "base"]; [tm "base"; nt "dna"]] in
  production_macro [tnt "dna"; MDef; tlit "base"; MBar; tlit "base"; tnt "dna"] = Some p /\
  add_production (add_production [] p) p = [p; p] /\ add_production [] p = [p] /\
  remove_production [p] p = Ok (Some p, []) /\
  production_macro [tnt "nonexistent"; MDef] = Some (mkProd (nt "nonexistent") [[]]) /\
  remove_production [p] (mkProd (nt "nonexistent") [[]]) = Ok (None, [p]).
Proof. vm_compute. repeat split. Qed.
Definition validates (s : String.string) : option (result unit) :=
  match reads s with Ok (ROk g) => Some (validate id_order g) | _ => None end.
Arguments validates s%string.
Example unit_grammar_validate :
  validate id_order [] = RErr (ValidationError msg_empty) /\
  validates "<start> ::= <a> | <b>
            <a> ::= 'a'
            <b> ::= 'b'" = Some (ROk tt) /\
  validates "<start> ::= <a> | <b>
            <a> ::= 'a'" = Some (RErr (ValidationError (msg_undefined (lit "b")))) /\
  validates "<start> ::= <undefined_nt>" = Some (RErr (ValidationError (msg_undefined (lit "undefined_nt")))) /\
  occurs (lit "<undefined_nt>") (msg_undefined (lit "undefined_nt")) = true.
Proof. vm_compute. repeat split. Qed.
Definition count_productions (r : res (result grammar)) : option nat := match r with Ok (ROk g) => Some (length g) | _ => None end.
Example unit_grammar_parse_from :
  count_productions (grammar_parse_from ascii_alpha BNF (utf8 "<dna> ::= <base> | <base> <dna>
<base> ::= 'A' | 'C' | 'G' | 'T'")) = Some 2 /\
  count_productions (grammar_parse_from ascii_alpha ABNF (utf8 "dna = base / base dna
base = ""A"" / ""C"" / ""G"" / ""T""")) = Some 2 /\
  is_error (grammar_parse_from ascii_alpha BNF (lit "<incomplete")).
Proof. vm_compute. repeat split. Qed.
(** With any random source. *)
Example unit_grammar_generate_errors : forall R (rng : rng_ops R) r,
  let bad := [mkProd (tm """bad LHS""") [[tm """good RHS"""]]] in
  let run g := generate_random rng (fun _ _ => true) g 10 r in
  run bad = Ok (RErr (GenerateError (msg_terminal_lhs (mkProd (tm """bad LHS""") [[tm """good RHS"""]]))), r) /\
  occurs (lit "Terminal type cannot define a production") (msg_terminal_lhs (mkProd (tm """bad LHS""") [[tm """good RHS"""]])) = true /\
  run [] = Ok (RErr (GenerateError (lit "Failed to get first production!")), r) /\
  run [mkProd (tm "<good-lhs>") []] = Ok (RErr (GenerateError msg_not_terminating), r) /\
  run [mkProd (nt "nonterm") [[nt "nonterm"]]] = Ok (RErr (GenerateError msg_not_terminating), r) /\
  occurs (lit "first rule in grammar doesn't lead to a terminal state") msg_not_terminating = true /\
  run [mkProd (nt "s") []] = Ok (RErr (GenerateError msg_not_terminating), r).
Proof. intros. cbv zeta. repeat split; vm_compute; reflexivity. Qed.
Example unit_grammar_tree_fmt :
  display_tree (Node (nt "root") []) = utf8 "<root> ::=
" /\
  display_tree (Node (nt "root") [Leaf (lit "x")]) = utf8 "<root> ::= ""x""
└── ""x""
".
Proof. vm_compute. repeat split. Qed.
Definition first_tree (s input : String.string) : res ptree :=
  let* r := reads s in
  match r with
  | RErr _ => Panic
  | ROk g => let* it := grammar_parse_input g (utf8 input) in
             let* (o, _) := iter_next 5000 it in expect o
  end.
Arguments first_tree s%string input%string.
Definition kids {L} (t : tree L) : list (node L) := let (_, k) := t in k.
Example unit_grammar_iterate_tree : exists t, first_tree dna_text "GATTACA" = Ok t /\
  hd_error (kids t) = Some (Sub (Node (nt "base") [Leaf (lit "G")])).
Proof. eexists. split; [vm_compute; reflexivity|reflexivity]. Qed.
Example unit_grammar_macro :
  grammar_macro [tnt "dna"; MDef; tnt "base"; MBar; tnt "base"; tnt "dna"; MSemi;
                 tnt "base"; MDef; tlit "A"; MBar; tlit "C"; MBar; tlit "G"; MBar; tlit "T"; MSemi] <> None.
Proof. discriminate. Qed.
Definition emoji_text : String.string := "<text> ::= <emoji> | <emoji> <text>
        <emoji> ::= '😀' | '😍' | '🎉' | '🚀'"%string.
Example unit_grammar_unicode :
  count_productions (reads "<emoji> ::= '😀' | '😍' | '🎉' | '🚀'
        <symbol> ::= 'α' | 'β' | 'γ' | 'δ'
        <text> ::= <emoji> | <symbol> | <emoji> <text>") = Some 3 /\
  (exists t m, first_tree emoji_text "😀😍" = Ok t /\ occurs (utf8 "😀") (display_tree t) = true /\
     display_mermaid t = Ok m /\ occurs (lit "flowchart TD") m = true /\ occurs (lit "-->") m = true) /\
  (exists t, first_tree emoji_text "😀😍🎉" = Ok t /\ length (kids t) = 2).
Proof.
  split; [vm_compute; reflexivity|]. split.
  - do 2 eexists. split; [vm_compute; reflexivity|]. split; [vm_compute; reflexivity|]. split; [vm_compute; reflexivity|]. vm_compute. split; reflexivity.
  - eexists. split; [vm_compute; reflexivity|reflexivity].
Qed.
Example unit_grammar_mermaid_entity_codes : forall s i c,
  In (s, i, c) [("<q> ::= '""'", """", "#34;"); ("<b> ::= ']' | '['
        ", "]", "#93;"); ("<b> ::= ']' | '['
        ", "[", "#91;")]%string ->
  exists t m, first_tree s i = Ok t /\ display_mermaid t = Ok m /\ occurs (utf8 c) m = true /\ edge_lines_balanced m = true.
Proof.
  cbn [In]. intros s i c H. repeat destruct H as [H|H]; try contradiction; injection H as <- <- <-;
    (do 2 eexists; split; [vm_compute; reflexivity|]; split; [vm_compute; reflexivity|]; vm_compute; split; reflexivity).
Qed.

(** ** tests/from_str.rs, tests/iterate.rs *)
Example unit_from_str_grammars :
  is_ok (reads "<🙃> ::= '😵' '😋' | '😉'
        <🤘> ::= '👏 ' '👊' | '👌'") = true /\
  reads "<a> ::= 'x'" = Ok (ROk [mkProd (nt "a") [[tm "x"]]]) /\
  reads "<a> ::= 'x' ; end of first rule
; comment-only line
<b> ::= 'y' ; end of second rule" = Ok (ROk [mkProd (nt "a") [[tm "x"]]; mkProd (nt "b") [[tm "y"]]]) /\
  reads "<a> ::= 'x' ; note
<b> ::= 'y'" = Ok (ROk [mkProd (nt "a") [[tm "x"]]; mkProd (nt "b") [[tm "y"]]]) /\
  reads "; the building blocks of life!
<dna> ::= <base> | <base> <dna>
<base> ::= 'A' | 'C' | 'G' | 'T' ;(Adenine, Cytosine, Guanine, and Thymine)
; the end 📖" = Ok (ROk [mkProd (nt "dna") [[nt "base"]; [nt "base"; nt "dna"]]; mkProd (nt "base") [[tm "A"]; [tm "C"]; [tm "G"]; [tm "T"]]]).
Proof. vm_compute. repeat split. Qed.
Definition mem (t : term) (l : list term) : bool := existsb (term_eqb t) l.
Example unit_iterate_grammar : exists g, reads "
        <dna> ::= <base> | <base> <dna>
        <base> ::= 'A' | 'C' | 'G' | 'T'" = Ok (ROk g) /\
  let left := map p_lhs g in
  let right := flat_map (fun p => concat (p_rhs p)) g in
  left = [nt "dna"; nt "base"] /\ mem (nt "dna") right && mem (nt "base") right = true /\
  filter (fun t => negb (mem t left)) right = [tm "A"; tm "C"; tm "G"; tm "T"].
Proof. eexists. split; [vm_compute; reflexivity|]. vm_compute. repeat split. Qed.
Definition map_terms (f : term -> term) (g : grammar) : grammar := map (fun p => mkProd (p_lhs p) (map (map f) (p_rhs p))) g.
Example unit_iterate_mutably : exists g, reads "
        <dna> ::= <dna> | <base> <dna>;
        <base> ::= 'A' | 'C' | 'G' | 'T';" = Ok (ROk g) /\
  forallb (fun t => is_nonterminal t || term_eqb t (tm "Z"))
    (flat_map (fun p => concat (p_rhs p)) (map_terms (fun t => if is_nonterminal t then t else tm "Z") g)) = true.
Proof. eexists. split; [vm_compute; reflexivity|]. vm_compute. reflexivity. Qed.

(** ** src/earley/traversal.rs:223-317, src/earley/input_range.rs:73-97 *)
Definition empty_tree : ttree := mkTT [] [] [].
Example unit_traversal_predict :
  let r := range_new (lit "GATTACA") in
  let '(id, tr) := tt_predict empty_tree r 0 [nt "base"] false in
  (let* t := tt_get tr id in Ok (t_unmatched t)) = Ok [nt "base"] /\ fst (tt_predict tr r 0 [nt "base"] false) = id.
Proof. vm_compute. repeat split. Qed.
Example unit_traversal_match_term :
  let '(id, tr) := tt_predict empty_tree (range_new (lit "AAAA")) 0 [tm "A"] false in
  exists i tr', tt_match_term tr id (MTerminal (lit "A")) = Ok (i, tr') /\
    (let* t := tt_get tr' i in Ok (t_unmatched t)) = Ok [] /\ tt_match_term tr' id (MTerminal (lit "A")) = Ok (i, tr').
Proof. vm_compute. do 2 eexists. repeat split. Qed.
Example unit_traversal_match_term_complete :
  let '(id, tr) := tt_predict empty_tree (range_new (lit "ABC")) 0 [tm "A"] false in
  forall s, In s [lit "A"; lit "B"; lit "C"] ->
    (let* (i, tr) := tt_match_term tr id (MTerminal s) in let* t := tt_get tr i in Ok (next_unmatched t)) = Ok None.
Proof. vm_compute. intros s [<-|[<-|[<-|[]]]]; reflexivity. Qed.
Example unit_input_range_bounds :
  (let* r := advance_by (range_new (lit "ab")) 1 in let* r := advance_by (range_after r) 2 in Ok (r_start r, r_len r)) = Ok (1, 1).
Proof. vm_compute. reflexivity. Qed.
Example unit_input_range_debug :
  (let* r := advance_by (range_new (lit "GATTACA")) 3 in let* r := advance_by (range_after r) 2 in Ok (debug_range r)) =
  Ok (lit "InputRange(""GAT|TA|CA"")").
Proof. vm_compute. reflexivity. Qed.

(** ** src/generation.rs:302-452, the tests without repetition, with any random source *)
Definition epsilon_production : production := mkProd (nt "s") [[]].
Definition bare_production : production := mkProd (nt "s") [].
Example unit_generation_choices : forall R (rng : rng_ops R) r a,
  production_macro [tnt "s"; MDef] = Some epsilon_production /\
  (exists r', random_walk rng r a epsilon_production 0 = Ok (Some [], r')) /\
  random_walk rng r a bare_production 0 = Panic /\
  (exists r', depth_bounded rng 5 r a epsilon_production 0 = Ok (Some [], r')) /\
  depth_bounded rng 5 r a bare_production 0 = Panic /\
  (exists r', coverage_guided rng (mkCov [] r) a epsilon_production 0 = Ok (Some [], r')) /\
  coverage_guided rng (mkCov [] r) a bare_production 0 = Panic /\
  (let e := [tm "("; nt "s"; tm ")"] in exists r', depth_bounded rng 1 r a (mkProd (nt "s") [e]) 1 = Ok (Some e, r')) /\
  (exists e r', weighted rng true 0 0 r a (mkProd (nt "s") [[tm "a"]; [tm "b"]]) 0 = Ok (Some e, r') /\ In e [[tm "a"]; [tm "b"]]).
Proof.
  intros R rng r a.
  assert (H1 : exists r', draw_usize rng r 1 = (0, r')).
  { pose proof (draw_usize_lt _ rng r 1 ltac:(repeat constructor)) as H. destruct (draw_usize rng r 1) as [i r']. exists r'. cbn in H.
    destruct i as [|i]; [reflexivity|]. inversion H. inversion H1. }
  destruct H1 as [r' H1]. split; [reflexivity|].
  split; [exists r'; unfold random_walk, random_index; cbn; rewrite H1; reflexivity|]. split; [reflexivity|].
  split; [exists r'; unfold depth_bounded, pick_from, random_index; cbn; rewrite H1; reflexivity|]. split; [reflexivity|].
  split; [eexists; unfold coverage_guided, coverage_index, pick_from, random_index; cbn; rewrite H1; reflexivity|]. split; [reflexivity|].
  split; [exists r'; unfold depth_bounded, pick_from, random_index; cbn; rewrite H1; reflexivity|].
  unfold weighted, weighted_random_index, random_index. cbn. pose proof (draw_usize_lt _ rng r 2 ltac:(repeat constructor)) as H.
  destruct (draw_usize rng r 2) as [i r2]. cbn in H. destruct i as [|[|i]]; cbn.
  - do 2 eexists. split; [reflexivity|tauto].
  - do 2 eexists. split; [reflexivity|tauto].
  - do 2 apply le_S_n in H. inversion H.
Qed.
