(** C90 and C91: the order of the trees by rounds, and expressions with infix operators.  [round],
    [found] and [steps] are in RoundSpec.v; [infix], [operation], [leftmost] and [rounds] in
    InfixSpec.v, [text] and [vrest] in InfixProofs.v, [catalan] in InfixCount.v. *)
From Verif Require Import Facts_Round.
From Coq Require String.
Import String.StringSyntax.

(** Exchanging a subtree for one that is found in an earlier round makes a tree come earlier. *)
Theorem C90_exchange : forall g start input it k u v w t t',
  opens g start input it -> parses g start input t -> exchange u v w t t' ->
  root u = root v -> yield u = yield v -> found g start input k w v -> ~ found g start input k w u ->
  earlier it t' t.
Proof. exact exchange_rounds. Qed.
Print Assumptions C90_exchange.

(** In particular, trees found in an earlier round come earlier. *)
Theorem C90_trees : forall g start input it k t t',
  opens g start input it -> parses g start input t -> parses g start input t' ->
  found g start input k [] t -> ~ found g start input k [] t' -> earlier it t t'.
Proof. exact rounds_earlier. Qed.
Print Assumptions C90_trees.

(** The rounds find the parses and nothing else. *)
Theorem C90_parses : forall g start input t,
  parses g start input t <-> root t = start /\ yield t = input /\ exists k, found g start input k [] t.
Proof. exact found_parses. Qed.
Print Assumptions C90_parses.

(** A tree is found after as many rounds as it has children, subtrees counting for two. *)
Theorem C90_steps : forall g start input t,
  parses g start input t -> found g start input (steps t) [] t.
Proof. exact parses_found. Qed.
Print Assumptions C90_steps.

Example C90_example :
  let left := plus (plus atom atom) atom in let right := plus atom (plus atom atom) in
  let found := found sum_grammar (N_ "e") (lit "a+a+a") in
  found 10 [] left /\ ~ found 9 [] left /\ found 11 [] right /\ ~ found 10 [] right /\ steps left = 13 /\ steps right = 13.
Proof. exact C90_example_proof. Qed.

(** The first tree of an expression with infix operators is bracketed to the left, whatever the
    operators are and in whichever order the grammar lists them. *)
Theorem C91_first : forall g n ops operands, infix g n ops operands -> forall input it t it1,
  opens g (Nonterminal n) input it -> produces it [t] it1 -> exists a rest, t = leftmost n a rest.
Proof. exact infix_first. Qed.
Print Assumptions C91_first.

(** Anywhere in a tree, an operation whose right operand is an operation comes after the same
    expression bracketed to the left. *)
Theorem C91_left : forall g n ops operands, infix g n ops operands -> forall input it x o y a rest w t t',
  opens g (Nonterminal n) input it -> parses g (Nonterminal n) input t ->
  exchange (operation n x o y) (leftmost n a rest) w t t' ->
  yield (leftmost n a rest) = yield (operation n x o y) -> (forall b, y <> operand n b) -> earlier it t' t.
Proof. exact infix_left. Qed.
Print Assumptions C91_left.

(** The round in which an expression is found, exactly. *)
Theorem C91_found : forall g n ops operands, infix g n ops operands -> forall input u v w t t' k,
  parses g (Nonterminal n) input t -> exchange u v w t t' ->
  (found g (Nonterminal n) input k w u <-> 2 * List.length w + rounds u <= k).
Proof. exact infix_found. Qed.
Print Assumptions C91_found.

(** Fewer rounds, earlier. *)
Theorem C91_rounds : forall g n ops operands, infix g n ops operands -> forall input it u v w t t',
  opens g (Nonterminal n) input it -> parses g (Nonterminal n) input t -> exchange u v w t t' ->
  derives g v -> root u = root v -> yield u = yield v -> rounds v < rounds u -> earlier it t' t.
Proof. exact infix_rounds. Qed.
Print Assumptions C91_rounds.

(** But moving one pair of brackets to the left does not always make a tree come earlier. *)
Theorem C91_rotation_refuted : exists g n ops operands input it x o y o' z w t t', infix g n ops operands /\
  opens g (Nonterminal n) input it /\ parses g (Nonterminal n) input t /\ parses g (Nonterminal n) input t' /\
  exchange (operation n (operation n x o y) o' z) (operation n x o (operation n y o' z)) w t t' /\ earlier it t' t.
Proof. exact C91_rotation_refuted_proof. Qed.
Print Assumptions C91_rotation_refuted.

Example C91_example : infix calc_grammar (lit "e") (lit "+*") (lit "123") /\
  exists it1, produces (start_of calc_grammar (N_ "e") "1+2*3") [leftmost (lit "e") 49%N [(43%N, 50%N); (42%N, 51%N)]] it1 /\
  leftmost (lit "e") 49%N [(43%N, 50%N); (42%N, 51%N)] =
    operation (lit "e") (operation (lit "e") (operand (lit "e") 49%N) 43%N (operand (lit "e") 50%N)) 42%N (operand (lit "e") 51%N).
Proof. exact C91_example_proof. Qed.

(** The number of trees of an expression depends on the number of operators only, whatever they are. *)
Theorem C91_count : forall g n ops operands, infix g n ops operands -> forall a rest it,
  NoDup (flat_prods g) -> In a operands -> vrest ops operands rest -> opens g (Nonterminal n) (text a rest) it ->
  exists ts it', produces it ts it' /\ exhausted it' /\ List.length ts = catalan (List.length rest).
Proof. exact infix_count. Qed.
Print Assumptions C91_count.

(** It at least doubles with each operator. *)
Theorem C91_catalan : catalan 0 = 1 /\
  (forall k, catalan (S k) = list_sum (map (fun i => catalan i * catalan (k - i)) (seq 0 (S k)))) /\
  (forall k, 2 ^ k <= catalan (S k)).
Proof. exact catalan_facts. Qed.
Print Assumptions C91_catalan.

(** Other inputs have no tree, and the first call of [next] says so. *)
Theorem C91_none : forall g n ops operands, infix g n ops operands -> forall input it,
  opens g (Nonterminal n) input it ->
  (forall a rest, In a operands -> vrest ops operands rest -> input <> text a rest) -> exhausted it.
Proof. exact infix_none. Qed.
Print Assumptions C91_none.

Example C91_count_example : NoDup (flat_prods calc_grammar) /\
  text 49%N [(43%N, 50%N); (42%N, 51%N); (43%N, 49%N)] = lit "1+2*3+1" /\
  vrest (lit "+*") (lit "123") [(43%N, 50%N); (42%N, 51%N); (43%N, 49%N)] /\
  List.length (trees_of calc_grammar (N_ "e") "1+2*3+1" 10) = 5 /\ map catalan [0; 1; 2; 3; 4; 5; 6] = [1; 1; 2; 5; 14; 42; 132] /\
  exhausted (start_of calc_grammar (N_ "e") "1+").
Proof. exact C91_count_example_proof. Qed.
