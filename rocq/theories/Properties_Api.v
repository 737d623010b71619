(** C44-C46: editing operations, operators and macros. *)
From Coq Require Import Permutation.
From Verif Require Import Facts_Api ParseExamples EditProofs Macros.

(** C44: none of the operations panics; what they return and leave is as follows. *)
Theorem C44_add : forall (e : expression) t p (a : expression) g q,
  add_term e t = e ++ [t] /\
  p_lhs (add_to_rhs p a) = p_lhs p /\ p_rhs (add_to_rhs p a) = p_rhs p ++ [a] /\
  add_production g q = g ++ [q].
Proof. exact C44_add_proof. Qed.
Print Assumptions C44_add.

Theorem C44_remove_term : forall e t, exists r e', remove_term e t = Ok (r, e') /\
  ((In t e /\ r = Some t /\ exists e1 e2, e = e1 ++ t :: e2 /\ ~ In t e1 /\ e' = e1 ++ e2) \/
   (~ In t e /\ r = None /\ e' = e)).
Proof. exact remove_term_spec. Qed.
Print Assumptions C44_remove_term.

Theorem C44_remove_from_rhs : forall p e, exists r p', remove_from_rhs p e = Ok (r, p') /\ p_lhs p' = p_lhs p /\
  ((In e (p_rhs p) /\ r = Some e /\ exists l1 l2, p_rhs p = l1 ++ e :: l2 /\ ~ In e l1 /\ p_rhs p' = l1 ++ l2) \/
   (~ In e (p_rhs p) /\ r = None /\ p' = p)).
Proof. exact remove_from_rhs_spec. Qed.
Print Assumptions C44_remove_from_rhs.

(** The last production takes the place of the removed one. *)
Theorem C44_remove_production : forall g p, exists r g', remove_production g p = Ok (r, g') /\
  ((In p g /\ r = Some p /\ Permutation g (p :: g') /\
      exists g1 g2, g = g1 ++ p :: g2 /\ ~ In p g1 /\
        (g2 = [] /\ g' = g1 \/ exists g3 z, g2 = g3 ++ [z] /\ g' = g1 ++ z :: g3)) \/
   (~ In p g /\ r = None /\ g' = g)).
Proof. exact remove_production_spec. Qed.
Print Assumptions C44_remove_production.

(** So the order is not kept: removing the first of three rules makes the third one the
    starting rule. *)
Theorem C44_order_refuted : exists p1 p2 p3 g', remove_production [p1; p2; p3] p1 = Ok (Some p1, g') /\
  g' = [p3; p2] /\ starting_term g' <> Some (p_lhs p2).
Proof. exact C44_order_refuted_proof. Qed.
Print Assumptions C44_order_refuted.

Example C44_example :
  remove_term [T_ "a"; T_ "b"; T_ "a"] (T_ "a") = Ok (Some (T_ "a"), [T_ "b"; T_ "a"]) /\
  remove_term [T_ "a"; T_ "b"; T_ "a"] (N_ "a") = Ok (None, [T_ "a"; T_ "b"; T_ "a"]).
Proof. split; reflexivity. Qed.

(** C45 *)
Theorem C45_operators : forall a b e f,
  term_add_term a b = [a; b] /\
  term_add_expression a e = e ++ [a] /\ term_add_expression_ref a e = e ++ [a] /\
  expression_add_expression e f = e ++ f /\ expression_ref_add_expression e f = e ++ f /\
  expression_add_term e a = e ++ [a] /\ expression_ref_add_term e a = e ++ [a].
Proof. exact operators_spec. Qed.
Print Assumptions C45_operators.

Example C45_example : term_add_expression (T_ "x") [T_ "a"; N_ "b"] = [T_ "a"; N_ "b"; T_ "x"].
Proof. reflexivity. Qed.

(** C46: [write_*] give the tokens of a value. *)
Theorem C46_expression : forall e, e <> [] -> expression_macro (write_expression e) = Some e.
Proof. exact expression_macro_spec. Qed.
Print Assumptions C46_expression.

(** All alternatives but the last are reversed, so two alternatives are right. *)
Theorem C46_production : forall n es last,
  production_macro (write_production n (es ++ [last])) = Some (mkProd (Nonterminal n) (rev es ++ [last])).
Proof. exact production_macro_spec. Qed.
Print Assumptions C46_production.

Theorem C46_production_two : forall n es, es <> [] -> List.length es <= 2 ->
  production_macro (write_production n es) = Some (mkProd (Nonterminal n) es).
Proof. exact C46_production_two_proof. Qed.
Print Assumptions C46_production_two.

(** In all productions but the last the alternatives are reversed, and those productions
    themselves are reversed; [reversed (n, es)] is the production [n ::= rev es]. *)
Theorem C46_grammar : forall ps n es last final, (forall x, In x ps -> snd x <> []) ->
  grammar_macro (write_grammar (ps ++ [(n, es ++ [last])]) final) =
  Some (rev (map reversed ps) ++ [mkProd (Nonterminal n) (rev es ++ [last])]).
Proof. exact grammar_macro_spec. Qed.
Print Assumptions C46_grammar.

(** Exactly what is written is accepted; a grammar written without productions is empty. *)
Theorem C46_accepted :
  (forall toks e, expression_macro toks = Some e <-> e <> [] /\ toks = write_expression e) /\
  (forall toks, production_macro toks <> None <-> exists n es, es <> [] /\ toks = write_production n es) /\
  (forall toks, grammar_macro toks <> None <-> exists ps final, (forall x, In x ps -> snd x <> []) /\ toks = write_grammar ps final) /\
  grammar_macro [] = Some [].
Proof. exact macros_accept. Qed.
Print Assumptions C46_accepted.

Theorem C46_production_refuted : exists n es, es <> [] /\
  production_macro (write_production n es) <> Some (mkProd (Nonterminal n) es).
Proof. exact C46_production_refuted_proof. Qed.
Print Assumptions C46_production_refuted.

(** Two alternatives in the first of two productions are swapped; of three productions the
    second becomes the starting rule. *)
Theorem C46_grammar_refuted :
  (exists n es m e, grammar_macro (write_grammar [(n, es); (m, [e])] true) <>
     Some [mkProd (Nonterminal n) es; mkProd (Nonterminal m) [e]] /\ List.length es = 2) /\
  (exists ps g, grammar_macro (write_grammar ps true) = Some g /\
     ps = [(lit "a", [[T_ "1"]]); (lit "b", [[T_ "2"]]); (lit "c", [[T_ "3"]])] /\ starting_term g = Some (N_ "b")).
Proof. exact C46_grammar_refuted_proof. Qed.
Print Assumptions C46_grammar_refuted.

Example C46_example : write_grammar [(lit "a", [[T_ "x"]; [N_ "a"; T_ "y"]])] true =
  [MNt (lit "a"); MDef; MLit (lit "x"); MBar; MNt (lit "a"); MLit (lit "y"); MSemi] /\
  grammar_macro (write_grammar [(lit "a", [[T_ "x"]; [N_ "a"; T_ "y"]])] true) = Some [mkProd (N_ "a") [[T_ "x"]; [N_ "a"; T_ "y"]]].
Proof. split; reflexivity. Qed.
