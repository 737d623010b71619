(** Proofs of C89 and of its examples. *)
From Verif Require Export PreferProofs ParseExamples.
From Coq Require Import String.
Import String.StringSyntax.
Open Scope list_scope.

Lemma C89_order_proof : forall g start input it, opens g start input it ->
  (forall a, ~ earlier it a a) /\
  (forall a b c, earlier it a b -> earlier it b c -> earlier it a c) /\
  (forall a b, parses g start input a -> parses g start input b -> a <> b -> earlier it a b \/ earlier it b a).
Proof.
  intros g start input it Ho. split; [intro a; apply earlier_irrefl|]. split; [intros a b c; apply earlier_trans|].
  intros a b. apply (earlier_total _ _ _ _ _ _ Ho).
Qed.

Lemma earlier_at ts : forall it it' i j a b, produces it ts it' -> nth_error ts i = Some a -> nth_error ts j = Some b -> i < j -> NoDup ts -> earlier it a b.
Proof.
  intros it it' i j a b Hp Ha Hb Hij Hnd. destruct (nth_error_split _ _ Hb) as (l1 & l2 & -> & <-).
  destruct (produces_split _ _ _ _ Hp) as (it1 & P1 & _). exists l1, it1. split; [exact P1|].
  rewrite nth_error_app1 in Ha by exact Hij. split; [eapply nth_error_In; exact Ha|].
  apply NoDup_remove_2 in Hnd. intro H. apply Hnd. apply in_or_app. left. exact H.
Qed.

Lemma earlier_runs g start s k i j a b :
  is_Ok (grammar_parse_input_starting_with g (lit s) start) = true -> is_Ok (drive k 1000 (start_of g start s)) = true ->
  NoDup (flat_prods g) ->
  nth_error (trees_of g start s k) i = Some a -> nth_error (trees_of g start s k) j = Some b -> i < j ->
  opens g start (lit s) (start_of g start s) /\ parses g start (lit s) a /\ parses g start (lit s) b /\ earlier (start_of g start s) a b.
Proof.
  intros H1 H2 Hnd Ha Hb Hij. destruct (run_facts g start s k H1 H2) as (Ho & Hp & _). split; [exact Ho|].
  split; [exact (soundness _ _ _ _ _ _ a Ho Hp (nth_error_In _ _ Ha))|]. split; [exact (soundness _ _ _ _ _ _ b Ho Hp (nth_error_In _ _ Hb))|].
  apply (earlier_at _ _ _ i j _ _ Hp Ha Hb Hij). exact (no_duplicates _ _ _ _ _ _ Hnd Ho Hp).
Qed.

Arguments earlier_runs g start s%string k i j a b.

Lemma sum_nodup : NoDup (flat_prods sum_grammar).
Proof. cbn. constructor; [intros [H|[]]; discriminate|constructor; [intros []|constructor]]. Qed.

Lemma inf_nodup : NoDup (flat_prods inf_grammar).
Proof. cbn. constructor; [intros [H|[]]; discriminate|constructor; [intros []|constructor]]. Qed.

(** Trees of sums. *)
Definition atom : ptree := Node (N_ "e") [Leaf (lit "a")].
Definition plus (x y : ptree) : ptree := Node (N_ "e") [Sub x; Leaf (lit "+"); Sub y].

Lemma C89_shallow_refuted_proof : exists g start input it a b, opens g start input it /\
  parses g start input a /\ parses g start input b /\ height b < height a /\ earlier it a b.
Proof.
  exists sum_grammar, (N_ "e"), (lit "a+a+a+a"), (start_of sum_grammar (N_ "e") "a+a+a+a"), (plus (plus (plus atom atom) atom) atom), (plus (plus atom atom) (plus atom atom)).
  destruct (earlier_runs sum_grammar (N_ "e") "a+a+a+a" 6 0 2 (plus (plus (plus atom atom) atom) atom) (plus (plus atom atom) (plus atom atom)))
    as (H1 & H2 & H3 & H4); try (vm_compute; reflexivity); try exact sum_nodup; try lia.
  split; [exact H1|]. split; [exact H2|]. split; [exact H3|]. split; [vm_compute; lia|exact H4].
Qed.

Lemma C89_preference_example_proof :
  let u := plus (plus atom atom) atom in let v := plus atom (plus atom atom) in
  let it := start_of sum_grammar (N_ "e") "a+a+a+a+a" in
  exchange u v [] (plus (plus u atom) atom) (plus (plus v atom) atom) /\
  exchange u v [] (plus u (plus atom atom)) (plus v (plus atom atom)) /\
  earlier it (plus (plus u atom) atom) (plus (plus v atom) atom) /\
  earlier it (plus u (plus atom atom)) (plus v (plus atom atom)).
Proof.
  cbv zeta. set (u := plus (plus atom atom) atom). set (v := plus atom (plus atom atom)).
  assert (X : forall c, exchange u v [] (plus u c) (plus v c)).
  { intro c. apply (exchange_in u v (N_ "e") [] u v [Leaf (lit "+"); Sub c] []). constructor. }
  assert (X1 : exchange u v [] (plus (plus u atom) atom) (plus (plus v atom) atom)).
  { apply (exchange_in u v (N_ "e") [] _ _ [Leaf (lit "+"); Sub atom] []). apply X. }
  split; [exact X1|]. split; [apply X|].
  destruct (earlier_runs sum_grammar (N_ "e") "a+a+a+a+a" 15 0 1 (plus (plus u atom) atom) (plus (plus v atom) atom))
    as (H1 & H2 & H3 & H4); try (vm_compute; reflexivity); try exact sum_nodup; try lia. split; [exact H4|].
  destruct (earlier_runs sum_grammar (N_ "e") "a+a+a+a+a" 15 5 6 (plus u (plus atom atom)) (plus v (plus atom atom)))
    as (_ & G2 & _); try (vm_compute; reflexivity); try exact sum_nodup; try lia.
  apply (preference sum_grammar (N_ "e") (lit "a+a+a+a+a") _ u v [] (plus (plus u atom) atom) (plus (plus v atom) atom) (plus u (plus atom atom)) (plus v (plus atom atom)) sum_nodup H1 H2 G2);
    try reflexivity; try assumption; try apply X.
  apply (derives_subtree sum_grammar v _ (proj2 (exchange_subtree _ _ _ _ _ X1))). apply H3.
Qed.

Lemma C89_shortcut_example_proof :
  let t := Node (N_ "s") [Sub (Node (N_ "s") [Leaf (lit "x")])] in
  parses inf_grammar (N_ "s") (lit "x") t /\ shortcut t (Node (N_ "s") [Leaf (lit "x")]) /\
  List.length inf_grammar * S (List.length (lit "x")) = 2 /\ height t = 2.
Proof.
  cbv zeta. destruct (earlier_runs inf_grammar (N_ "s") "x" 2 0 1 (Node (N_ "s") [Leaf (lit "x")]) (Node (N_ "s") [Sub (Node (N_ "s") [Leaf (lit "x")])]))
    as (_ & _ & H & _); try (vm_compute; reflexivity); [exact inf_nodup|].
  split; [exact H|]. split; [|split; reflexivity].
  exists (Node (N_ "s") [Sub (Node (N_ "s") [Leaf (lit "x")])]), (Node (N_ "s") [Leaf (lit "x")]), []. split; [constructor|].
  split; [econstructor; [left; reflexivity|constructor]|]. split; [discriminate|]. split; reflexivity.
Qed.
