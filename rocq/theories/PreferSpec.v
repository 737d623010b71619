(** The order in which the trees of an input are returned. *)
From Verif Require Export EarleySpec TreeDepth.

(** Calling [next] again and again, [a] is returned at a moment when [b] has not been. *)
Definition earlier (it : piter) (a b : ptree) : Prop :=
  exists ts it', produces it ts it' /\ In a ts /\ ~ In b ts.

(** [exchange u v w t t']: [t'] is [t] with the tree [v] in the place of the tree [u] at one place;
    [w] is the text of [t] before that place. *)
Inductive exchange (u v : ptree) : str -> ptree -> ptree -> Prop :=
| exchange_here : exchange u v [] u v
| exchange_in l a t t' b w : exchange u v w t t' ->
    exchange u v (flat_map yield_node a ++ w) (Node l (a ++ Sub t :: b)) (Node l (a ++ Sub t' :: b)).

(** [t'] is [t] without a detour: one place where a nonterminal was expanded to itself, with nothing
    around it, is left out. *)
Definition shortcut (t t' : ptree) : Prop :=
  exists u v w, exchange u v w t t' /\ subtree v u /\ v <> u /\ root v = root u /\ yield v = yield u.
