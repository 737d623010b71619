(** Property C64: exactly which traversals the parser creates. *)
From Verif Require Import WorkExamples WorkNumbered.
From Coq Require Import Permutation.
Open Scope list_scope.

(** At any time the stored traversals stand for different partial parses: nothing is stored that
    no left to right derivation from the start symbol could have reached, and nothing twice. *)
Theorem C64_work_so_far : forall g start input it ts it1,
  NoDup (flat_prods g) -> opens g start input it -> produces it ts it1 ->
  exists F, NoDup F /\ (forall x, In x F -> partial_parse g start input x) /\
    List.length (tt_arena (s_tree (it_state it1))) = List.length F.
Proof. exact work_so_far. Qed.
Print Assumptions C64_work_so_far.

(** When the enumeration has ended they are all of the partial parses. *)
Theorem C64_work_exact : forall g start input it ts it1 f it2,
  NoDup (flat_prods g) -> opens g start input it -> produces it ts it1 -> iter_next f it1 = Ok (None, it2) ->
  exists F, NoDup F /\ (forall x, In x F <-> partial_parse g start input x) /\
    List.length (tt_arena (s_tree (it_state it2))) = List.length F.
Proof. exact work_exact. Qed.
Print Assumptions C64_work_exact.

(** For any grammar: an alternative that occurs several times counts as often, so that a partial parse has to say
    which occurrence it uses ([numbered_parse] in WorkNumbered.v). *)
Theorem C64_numbered_so_far : forall g start input it ts it1, opens g start input it -> produces it ts it1 ->
  exists F, NoDup F /\ (forall x, In x F -> numbered_parse g start input x) /\
    List.length (tt_arena (s_tree (it_state it1))) = List.length F.
Proof. exact numbered_so_far. Qed.
Print Assumptions C64_numbered_so_far.

Theorem C64_numbered_exact : forall g start input it ts it1 f it2,
  opens g start input it -> produces it ts it1 -> iter_next f it1 = Ok (None, it2) ->
  exists F, NoDup F /\ (forall x, In x F <-> numbered_parse g start input x) /\
    List.length (tt_arena (s_tree (it_state it2))) = List.length F.
Proof. exact numbered_exact. Qed.
Print Assumptions C64_numbered_exact.

(** So the order of the productions, and of the alternatives, changes the order of the trees only, not the work. *)
Theorem C64_order_irrelevant : forall g g' start input it it' ts ts' it1 it1' f f' it2 it2',
  Permutation (flat_prods g) (flat_prods g') ->
  opens g start input it -> produces it ts it1 -> iter_next f it1 = Ok (None, it2) ->
  opens g' start input it' -> produces it' ts' it1' -> iter_next f' it1' = Ok (None, it2') ->
  List.length (tt_arena (s_tree (it_state it2))) = List.length (tt_arena (s_tree (it_state it2'))).
Proof. exact numbered_order. Qed.
Print Assumptions C64_order_irrelevant.

(** <s> ::= 'a' | 'a': both alternatives, before and after their letter. *)
Example C64_numbered_example :
  let g := [mkProd (N_ "s") [[T_ "a"]; [T_ "a"]]] in
  ~ NoDup (flat_prods g) /\
  (exists it ts it1 f it2, opens g (N_ "s") (lit "a") it /\ produces it ts it1 /\ iter_next f it1 = Ok (None, it2) /\
     List.length ts = 2 /\ List.length (tt_arena (s_tree (it_state it2))) = 4) /\
  numbered_parse g (N_ "s") (lit "a") (1, [], [Leaf (lit "a")]).
Proof. exact numbered_example. Qed.

(** For <s> ::= 'a' <s> | 'b' and the input ab there are seven: the two rules at the beginning with
    nothing matched, the first one after its letter, the two rules after it, the second one there
    complete, and the first one complete.  For xb only the first two remain. *)
Example C64_example : NoDup (flat_prods list_grammar) /\
  (exists it f it2, opens list_grammar (N_ "s") (lit "xb") it /\ iter_next f it = Ok (None, it2) /\
     List.length (tt_arena (s_tree (it_state it2))) = 2) /\
  (exists it t it1 f it2, opens list_grammar (N_ "s") (lit "ab") it /\ produces it [t] it1 /\ iter_next f it1 = Ok (None, it2) /\
     List.length (tt_arena (s_tree (it_state it2))) = 7) /\
  partial_parse list_grammar (N_ "s") (lit "ab") ((N_ "s", [T_ "b"]), lit "a", []) /\
  partial_parse list_grammar (N_ "s") (lit "ab") ((N_ "s", [T_ "a"; N_ "s"]), [], [Leaf (lit "a")]) /\
  ~ partial_parse list_grammar (N_ "s") (lit "xb") ((N_ "s", [T_ "a"; N_ "s"]), [], [Leaf (lit "a")]).
Proof. exact work_example. Qed.
