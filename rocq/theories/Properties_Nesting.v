(** C74: recursion depth.  The functions that call themselves, with a limit on the number of
    nested calls (Nesting.v); [OutOfFuel] says that the limit was exceeded. *)
From Verif Require Import NestingProofs TreeDepth GenDepth TextExamples ParseExamples StrategyProofs Facts_Strategies Facts_Nesting.
From Coq Require String.
Import String.StringSyntax.

(** Reading a grammar text: a limit above the number of opening brackets is never exceeded. *)
Theorem C74_text_limit : forall alphabetic F d s, brackets s < d ->
  complete_deep alphabetic F d s = parsed_grammar_complete alphabetic F s.
Proof. exact complete_deep_enough. Qed.
Print Assumptions C74_text_limit.

(** A limit changes nothing unless it is exceeded. *)
Theorem C74_text_same : forall alphabetic F d s,
  complete_deep alphabetic F d s = OutOfFuel \/ complete_deep alphabetic F d s = parsed_grammar_complete alphabetic F s.
Proof. exact complete_same. Qed.
Print Assumptions C74_text_same.

(** For a text that is accepted, the depth is exactly that of its brackets. *)
Theorem C74_text_exact : forall alphabetic, alphabetic_ok alphabetic -> forall notation s pg,
  parsed_grammar_complete alphabetic (format_of notation) s = Ok (Some pg) ->
  forall d, complete_deep alphabetic (format_of notation) d s = if nesting_all pg <? d then Ok (Some pg) else OutOfFuel.
Proof. exact complete_exact. Qed.
Print Assumptions C74_text_exact.

(** No limit is enough for all texts, whatever follows the brackets. *)
Theorem C74_text_unbounded : forall alphabetic d r,
  complete_deep alphabetic BNF d (lit "<a> ::= " ++ repeat c_open d ++ r) = OutOfFuel.
Proof. exact complete_opens. Qed.
Print Assumptions C74_text_unbounded.

(** Building a parse tree: the depth is exactly the height of the tree. *)
Theorem C74_trees : forall fuel it t it', iter_next fuel it = Ok (Some t, it') ->
  forall d, iter_next_deep d fuel it = if height t <=? d then Ok (Some t, it') else OutOfFuel.
Proof. exact iter_next_depth. Qed.
Print Assumptions C74_trees.

(** The height is bounded by the length of the input and the number of alternatives, if no
    nonterminal derives itself where it matters. *)
Theorem C74_trees_bounded : forall g n input it ts it1 fuel t it2,
  ~ live_cycle g (Nonterminal n) input -> opens g (Nonterminal n) input it -> produces it ts it1 ->
  iter_next fuel it1 = Ok (Some t, it2) -> height t <= S (byte_len input) * S (List.length (flat_prods g)).
Proof. exact iter_next_height. Qed.
Print Assumptions C74_trees_bounded.

(** It grows with the input already for <s> ::= 'a' <s> | 'a'. *)
Theorem C74_trees_linear : forall n it, opens right_grammar (Nonterminal (lit "s")) (repeat 97%N (S n)) it ->
  (exists fuel t it', iter_next fuel it = Ok (Some t, it')) /\
  forall fuel t it', iter_next fuel it = Ok (Some t, it') -> height t = S n.
Proof. exact right_deep. Qed.
Print Assumptions C74_trees_linear.

(** Generation: a limit changes nothing unless it is exceeded. *)
Theorem C74_generation_same : forall S (choose : S -> nat -> production -> nat -> res (option expression * S)) accept g tries levels fuel fuel' st,
  generate_deep choose accept g tries levels fuel st = OutOfFuel \/ generate choose accept g fuel' st = OutOfFuel \/
  generate_deep choose accept g tries levels fuel st = generate choose accept g fuel' st.
Proof. exact @generate_deep_agree. Qed.
Print Assumptions C74_generation_same.

(** With [DepthBounded], [max + 1] nested calls are enough if every production has an alternative
    of terminals, whatever the callback does: allowing more makes no difference. *)
Theorem C74_generation_bounded : forall R (rng : rng_ops R) max accept g tries extra fuel st,
  (forall p, In p g -> exists e, In e (p_rhs p) /\ forall n, ~ In (Nonterminal n) e) ->
  generate_deep (depth_bounded rng max) accept g tries (S max + extra) fuel st =
  generate_deep (depth_bounded rng max) accept g tries (S max) fuel st.
Proof. exact depth_bounded_levels. Qed.
Print Assumptions C74_generation_bounded.

(** Three levels of brackets; a tree of height 3; [DepthBounded] with limit 3 needs 4 calls. *)
Example C74_example :
  (exists pg, parsed_grammar_complete ascii_alpha BNF (lit "<a> ::= ('x' [('y' | 'z')] ['w']) 'v'") = Ok (Some pg) /\ nesting_all pg = 3 /\
     complete_deep ascii_alpha BNF 4 (lit "<a> ::= ('x' [('y' | 'z')] ['w']) 'v'") = Ok (Some pg) /\
     complete_deep ascii_alpha BNF 3 (lit "<a> ::= ('x' [('y' | 'z')] ['w']) 'v'") = OutOfFuel) /\
  brackets (lit "<a> ::= ('x' [('y' | 'z')] ['w']) 'v'") = 4 /\
  (exists it, opens right_grammar (N_ "s") (lit "aaa") it /\ ~ live_cycle right_grammar (N_ "s") (lit "aaa") /\
     (exists t it', iter_next 20 it = Ok (Some t, it') /\ height t = 3) /\ iter_next_deep 2 20 it = OutOfFuel) /\
  ((forall p, In p [two_alts] -> exists e, In e (p_rhs p) /\ forall n, ~ In (Nonterminal n) e) /\
   generate_deep (depth_bounded (const_rng 0) 3) (pure_callback (fun _ _ => true)) [two_alts] 5 4 9 tt = Ok (ROk (lit "baaa"), tt) /\
   generate_deep (depth_bounded (const_rng 0) 3) (pure_callback (fun _ _ => true)) [two_alts] 5 3 9 tt = OutOfFuel).
Proof. exact depth_example. Qed.
