(** C101: adding and removing rules.  [licensed] and [returns] are in ExtendSpec.v. *)
From Verif Require Import ParseExamples GenProofs ExtendProofs.
From Coq Require String.
Import String.StringSyntax.

(** The trees returned are the trees each node of which is a use of a rule. *)
Theorem C101_node_by_node : forall g start input it t, opens g start input it ->
  (returns it t <-> root t = start /\ yield t = input /\ forall s, subtree s t -> licensed g s).
Proof. exact returns_local. Qed.
Print Assumptions C101_node_by_node.

(** No tree is lost by adding a rule; those gained have a node that only the new rule allows. *)
Theorem C101_add_production : forall g q start input it it' t,
  opens g start input it -> opens (add_production g q) start input it' ->
  (returns it t -> returns it' t) /\
  (returns it' t -> (returns it t <-> forall s, subtree s t -> licensed [q] s -> licensed g s)).
Proof. exact add_production_trees. Qed.
Print Assumptions C101_add_production.

Theorem C101_add_to_rhs : forall g1 p a g2 start input it it' t,
  opens (g1 ++ p :: g2) start input it -> opens (g1 ++ add_to_rhs p a :: g2) start input it' ->
  (returns it t -> returns it' t) /\
  (returns it' t -> (returns it t <-> forall s, subtree s t -> licensed [mkProd (p_lhs p) [a]] s -> licensed (g1 ++ p :: g2) s)).
Proof. exact add_alternative_trees. Qed.
Print Assumptions C101_add_to_rhs.

Theorem C101_remove_production : forall g p g' start input it it' t, remove_production g p = Ok (Some p, g') ->
  opens g start input it -> opens g' start input it' ->
  (returns it' t -> returns it t) /\
  (returns it t -> (returns it' t <-> forall s, subtree s t -> licensed [p] s -> licensed g' s)).
Proof. exact remove_production_trees. Qed.
Print Assumptions C101_remove_production.

Theorem C101_remove_from_rhs : forall g1 p e p' g2 start input it it' t, remove_from_rhs p e = Ok (Some e, p') ->
  opens (g1 ++ p :: g2) start input it -> opens (g1 ++ p' :: g2) start input it' ->
  (returns it' t -> returns it t) /\
  (returns it t -> (returns it' t <-> forall s, subtree s t -> licensed [mkProd (p_lhs p) [e]] s -> licensed (g1 ++ p' :: g2) s)).
Proof. exact remove_alternative_trees. Qed.
Print Assumptions C101_remove_from_rhs.

(** A text that some strategy generates can be generated after an alternative has been added. *)
Theorem C101_generation : forall S (choose : S -> nat -> production -> nat -> res (option expression * S)) f g1 p a g2 fuel st w st',
  lawful choose -> no_lone_epsilon (g1 ++ add_to_rhs p a :: g2) ->
  generate choose (pure_callback f) (g1 ++ p :: g2) fuel st = Ok (ROk w, st') ->
  exists script k, forall fuel', k <= fuel' -> generate_random script_rng f (g1 ++ add_to_rhs p a :: g2) fuel' script = Ok (ROk w, []).
Proof. exact add_alternative_generates. Qed.
Print Assumptions C101_generation.

(** The end of the enumeration can be lost. *)
Theorem C101_ends_refuted : exists g q start input it it',
  opens g start input it /\ opens (add_production g q) start input it' /\
  (exists ts itf, produces it ts itf /\ exhausted itf) /\
  (forall ts it1, produces it' ts it1 -> exists fuel t it2, iter_next fuel it1 = Ok (Some t, it2)).
Proof. exact ends_lost. Qed.
Print Assumptions C101_ends_refuted.

(** The order of the trees that were there before can change. *)
Theorem C101_order_refuted : exists p a g2 start input it it' t1 t2 t3 itf itf',
  opens (p :: g2) start input it /\ produces it [t1; t2] itf /\ exhausted itf /\
  opens (add_to_rhs p a :: g2) start input it' /\ produces it' [t3; t2; t1] itf' /\ exhausted itf'.
Proof. exact order_lost. Qed.
Print Assumptions C101_order_refuted.

(** A rule for a nonterminal that had none takes away the texts with its name. *)
Theorem C101_text_refuted : exists g q script w,
  generate_random script_rng (fun _ _ => true) g 20 script = Ok (ROk w, []) /\
  forall S (choose : S -> nat -> production -> nat -> res (option expression * S)) f fuel st st',
    lawful choose -> generate choose (pure_callback f) (add_production g q) fuel st <> Ok (ROk w, st').
Proof. exact text_lost. Qed.
Print Assumptions C101_text_refuted.

(** "a+a" with the grammar of sums; a rule for products adds no tree for it and one for "a*a". *)
Example C101_example :
  opens sum_grammar (N_ "e") (lit "a+a") (start_of sum_grammar (N_ "e") "a+a") /\
  opens (add_production sum_grammar product_rule) (N_ "e") (lit "a+a") (start_of (add_production sum_grammar product_rule) (N_ "e") "a+a") /\
  trees_of (add_production sum_grammar product_rule) (N_ "e") "a+a" 5 = trees_of sum_grammar (N_ "e") "a+a" 5 /\
  List.length (trees_of sum_grammar (N_ "e") "a+a" 5) = 1 /\
  trees_of sum_grammar (N_ "e") "a*a" 5 = [] /\
  List.length (trees_of (add_production sum_grammar product_rule) (N_ "e") "a*a" 5) = 1 /\
  remove_production (add_production sum_grammar product_rule) product_rule = Ok (Some product_rule, sum_grammar) /\
  no_lone_epsilon (add_production sum_grammar product_rule).
Proof.
  split; [apply opens_deprecated_with; vm_compute; reflexivity|].
  split; [apply opens_deprecated_with; vm_compute; reflexivity|].
  repeat (split; [vm_compute; reflexivity|]).
  intros p [<-|[<-|[]]]; cbn; discriminate.
Qed.
