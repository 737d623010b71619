(** How often a tree is returned, when alternatives are listed more than once. *)
From Verif Require Export EarleyMain.

Definition ptree_eq_dec : forall a b : ptree, {a = b} + {a <> b}.
Proof.
  fix F 1. intros [l ks] [l' ks'].
  assert (H : {ks = ks'} + {ks <> ks'}).
  { revert ks'. induction ks as [|k ks IH]; intros [|k' ks']; [left; reflexivity|right; discriminate|right; discriminate|].
    destruct (IH ks') as [->|Hn]; [|right; congruence]. destruct k as [s|t], k' as [s'|t'].
    - destruct (list_eq_dec N.eq_dec s s') as [->|Hs]; [left; reflexivity|right; congruence].
    - right; discriminate.
    - right; discriminate.
    - destruct (F t t') as [->|Ht]; [left; reflexivity|right; congruence]. }
  destruct H as [->|H]; [|right; congruence]. destruct (term_eq_dec l l') as [->|Hl]; [left; reflexivity|right; congruence].
Defined.
Definition alternative_eq_dec : forall a b : term * expression, {a = b} + {a <> b}.
Proof. intros [l e] [l' e']. destruct (term_eq_dec l l') as [->|H]; [|right; congruence]. destruct (list_eq_dec term_eq_dec e e') as [->|H]; [left; reflexivity|right; congruence]. Defined.

(** For every node the number of times that its alternative is listed, multiplied. *)
Fixpoint copies (g : grammar) (t : ptree) : nat :=
  match t with
  | Node l ks => fold_right (fun k n => match k with Leaf _ => n | Sub t => copies g t * n end)
                   (count_occ alternative_eq_dec (flat_prods g) (l, map term_of ks)) ks
  end.
