(** Concrete texts used in the examples beside the theorems. *)
From Verif Require Export TextMain.
From Coq Require Import Bool Lia.
From Coq Require String.
Import String.StringSyntax.

(** ASCII letters, as an instance of the parameter [alphabetic]. *)
Definition ascii_alpha (c : char) : bool := (N.leb 65 c && N.leb c 90) || (N.leb 97 c && N.leb c 122).
Lemma ascii_alpha_ok : alphabetic_ok ascii_alpha.
Proof.
  intros c H. unfold ascii_alpha in H. apply orb_prop in H.
  assert (Hc : (N.le 65 c /\ N.le c 90) \/ (N.le 97 c /\ N.le c 122)).
  { destruct H as [H|H]; apply andb_prop in H; destruct H as [H1 H2]; apply N.leb_le in H1; apply N.leb_le in H2; auto. }
  split; [|auto].
  destruct (is_whitespace c) eqn:E; [exfalso|reflexivity]. unfold is_whitespace in E.
  rewrite !orb_true_iff, !andb_true_iff, !N.leb_le, !N.eqb_eq in E. lia.
Qed.

Definition lines (l : list str) : str := concat (map (fun x => x ++ [10%N]) l).

(** Two rules; the second has a group, an optional, comments and both quotes. *)
Definition bnf_text : str := lines
  [ lit "; a comment";
    lit "<s> ::= <a> 'x' | ""it's"" ; another";
    lit "  <a>::=|('b' | <s> ['c'])'d'" ].
Definition bnf_parsed : parsed_grammar :=
  [ mkParsed (lit "s") [[Simple (Nonterminal (lit "a")); Simple (Terminal (lit "x"))]; [Simple (Terminal (lit "it's"))]];
    mkParsed (lit "a") [[Group [[Simple (Terminal (lit "b"))];
                                 [Simple (Nonterminal (lit "s")); Optional [[Simple (Terminal (lit "c"))]]]];
                         Simple (Terminal (lit "d"))]] ].
Definition bnf_grammar : grammar :=
  [ mkProd (Nonterminal (lit "s")) [[Nonterminal (lit "a"); Terminal (lit "x")]; [Terminal (lit "it's")]];
    mkProd (Nonterminal (lit "a")) [[Nonterminal (lit "__anon0"); Terminal (lit "d")]];
    mkProd (Nonterminal (lit "__anon1")) [[Terminal (lit "c")]; [Terminal []]];
    mkProd (Nonterminal (lit "__anon0")) [[Terminal (lit "b")]; [Nonterminal (lit "s"); Nonterminal (lit "__anon1")]] ].
Lemma bnf_text_reads : grammar_from_str ascii_alpha bnf_text = Ok (ROk bnf_grammar).
Proof. vm_compute. reflexivity. Qed.
Lemma bnf_text_parsed : grammar_text ascii_alpha Bnf bnf_parsed bnf_text.
Proof. apply (read_grammar_sound ascii_alpha ascii_alpha_ok Bnf). vm_compute. reflexivity. Qed.
Lemma bnf_normalized : normalize_parsed_grammar bnf_parsed = Ok bnf_grammar.
Proof. vm_compute. reflexivity. Qed.

(** The same grammar in ABNF, with other layout. *)
Definition abnf_text : str := lines
  [ lit "s = a ""x"" / ""it's""";
    lit "a =/ (""b"" ; comment";
    lit " / s ['c']  )""d""" ].
Lemma abnf_text_parsed : grammar_text ascii_alpha Abnf bnf_parsed abnf_text.
Proof. apply (read_grammar_sound ascii_alpha ascii_alpha_ok Abnf). vm_compute. reflexivity. Qed.
