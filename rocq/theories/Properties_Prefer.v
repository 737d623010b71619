(** C89: the order in which the trees of an input are returned.  [earlier], [exchange] and [shortcut]
    are in PreferSpec.v. *)
From Verif Require Import Facts_Prefer.
From Coq Require String.
Import String.StringSyntax.

(** The trees of an input are totally ordered by when they are first returned. *)
Theorem C89_order : forall g start input it, opens g start input it ->
  (forall a, ~ earlier it a a) /\
  (forall a b c, earlier it a b -> earlier it b c -> earlier it a c) /\
  (forall a b, parses g start input a -> parses g start input b -> a <> b -> earlier it a b \/ earlier it b a).
Proof. exact C89_order_proof. Qed.
Print Assumptions C89_order.

(** A tree in which a nonterminal is expanded to itself comes after the tree without that detour, so the
    infinitely many trees of a cyclic grammar are returned from simple to complicated. *)
Theorem C89_shortcut : forall g start input it t t',
  opens g start input it -> parses g start input t -> shortcut t t' -> earlier it t' t.
Proof. exact shortcut_earlier. Qed.
Print Assumptions C89_shortcut.

(** The first tree has no detour at all. *)
Theorem C89_first : forall g start input it t it1,
  opens g start input it -> produces it [t] it1 -> forall t', ~ shortcut t t'.
Proof. exact first_no_shortcut. Qed.
Print Assumptions C89_first.

(** It is therefore at most as high as there are pairs of a production and a length, and building it
    recurses no deeper, whatever the grammar. *)
Theorem C89_first_height : forall g start input it fuel t it1,
  opens g start input it -> iter_next fuel it = Ok (Some t, it1) ->
  height t <= List.length g * S (List.length input) /\
  iter_next_deep (List.length g * S (List.length input)) fuel it = Ok (Some t, it1).
Proof. exact first_shallow. Qed.
Print Assumptions C89_first_height.

(** If exchanging one subtree for another makes a tree come later, it does so in every tree that has
    the subtree at that place. *)
Theorem C89_preference : forall g start input it u v w t1 t2 t3 t4,
  NoDup (flat_prods g) -> opens g start input it -> parses g start input t1 -> parses g start input t3 ->
  derives g v -> root u = root v -> yield u = yield v -> exchange u v w t1 t2 -> exchange u v w t3 t4 ->
  earlier it t1 t2 -> earlier it t3 t4.
Proof. exact preference. Qed.
Print Assumptions C89_preference.

(** The order is not by height. *)
Theorem C89_shallow_first_refuted : exists g start input it a b, opens g start input it /\
  parses g start input a /\ parses g start input b /\ height b < height a /\ earlier it a b.
Proof. exact C89_shallow_refuted_proof. Qed.
Print Assumptions C89_shallow_first_refuted.

Example C89_example :
  let t := Node (N_ "s") [Sub (Node (N_ "s") [Leaf (lit "x")])] in
  parses inf_grammar (N_ "s") (lit "x") t /\ shortcut t (Node (N_ "s") [Leaf (lit "x")]) /\
  List.length inf_grammar * S (List.length (lit "x")) = 2 /\ height t = 2.
Proof. exact C89_shortcut_example_proof. Qed.

Example C89_preference_example :
  let u := plus (plus atom atom) atom in let v := plus atom (plus atom atom) in
  let it := start_of sum_grammar (N_ "e") "a+a+a+a+a" in
  exchange u v [] (plus (plus u atom) atom) (plus (plus v atom) atom) /\
  exchange u v [] (plus u (plus atom atom)) (plus v (plus atom atom)) /\
  earlier it (plus (plus u atom) atom) (plus (plus v atom) atom) /\
  earlier it (plus u (plus atom atom)) (plus v (plus atom atom)).
Proof. exact C89_preference_example_proof. Qed.
