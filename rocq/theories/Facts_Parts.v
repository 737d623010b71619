(** Examples for parts of parse trees. *)
From Verif Require Export PartsProofs CombineProofs ParseExamples PrefixSpec.
From Verif Require Import ExtendProofs.
From Coq Require Import Lia.
From Coq Require Import String.
Import String.StringSyntax.
Open Scope string_scope.
Open Scope list_scope.

(** As many "a" as "b". *)
Definition pairs : grammar := [mkProd (N_ "s") [[T_ "a"; N_ "s"; T_ "b"]; [T_ ""]]].

Lemma one_more (a b : char) n : repeat a (S n) ++ repeat b (S n) = a :: (repeat a n ++ repeat b n) ++ [b].
Proof. rewrite <- app_assoc, <- repeat_cons. reflexivity. Qed.

Lemma pairs_tree n : parses pairs (N_ "s") (repeat 97%N n ++ repeat 98%N n)
  (Nat.iter n (fun t => Node (N_ "s") [Leaf (lit "a"); Sub t; Leaf (lit "b")]) (Node (N_ "s") [Leaf (lit "")])).
Proof.
  induction n as [|n (Hd & Hr & Hy)]; [split; [|split; reflexivity]|split; [|split; [reflexivity|]]].
  - eapply derives_node with (p := mkProd (N_ "s") _) (rhs := [T_ ""]); [left; reflexivity|right; left; reflexivity|repeat constructor].
  - cbn [Nat.iter nat_rect]. eapply derives_node with (p := mkProd (N_ "s") _) (rhs := [T_ "a"; N_ "s"; T_ "b"]); [left; reflexivity|left; reflexivity|].
    constructor. constructor; [exact Hr|exact Hd|]. repeat constructor.
  - cbn [Nat.iter nat_rect yield flat_map yield_node] in *. fold (Nat.iter n (fun t => Node (N_ "s") [Leaf (lit "a"); Sub t; Leaf (lit "b")]) (Node (N_ "s") [Leaf (lit "")])).
    etransitivity; [apply (f_equal (fun w => lit "a" ++ w ++ lit "b" ++ [])); exact Hy|].
    rewrite one_more. reflexivity.
Qed.

Lemma pairs_accepts w : accepts pairs (lit "s") w <-> exists n, w = repeat 97%N n ++ repeat 98%N n.
Proof.
  rewrite accepts_iff. split; [|intros (n & ->); eexists; apply pairs_tree].
  intros (t & Hd & Hr & Hy). revert w Hr Hy. induction t as [l ks IH] using tree_ind'. intros w Hr Hy. cbn [root] in Hr. subst l.
  inversion Hd as [p e ks' Hp He Hk El]; subst. destruct Hp as [<-|[]]. cbn [p_rhs] in He. destruct He as [<-|[<-|[]]].
  - inversion Hk as [|s1 r1 k1 Hk1|]; subst. inversion Hk1 as [| |n t r2 k2 Hrt Hdt Hk2]; subst. inversion Hk2 as [|s3 r3 k3 Hk3|]; subst. inversion Hk3; subst.
    destruct (IH t (or_intror (or_introl eq_refl)) Hdt (yield t) Hrt eq_refl) as (n & En). exists (S n).
    cbn [yield flat_map yield_node]. rewrite En, one_more. reflexivity.
  - inversion Hk as [|s1 r1 k1 Hk1|]; subst. inversion Hk1; subst. exists 0. reflexivity.
Qed.

Definition pair_tree (n : nat) : ptree := Nat.iter n (fun t => Node (N_ "s") [Leaf (lit "a"); Sub t; Leaf (lit "b")]) (Node (N_ "s") [Leaf (lit "")]).
Definition in_pair : context := Inside (N_ "s") [Leaf (lit "a")] Here [Leaf (lit "b")].

Lemma pairs_returned n : exists it, opens pairs (N_ "s") (repeat 97%N n ++ repeat 98%N n) it /\ returns it (pair_tree n).
Proof.
  destruct (nonempty_opens pairs (N_ "s") (repeat 97%N n ++ repeat 98%N n)) as (it & Ho); [discriminate|]. exists it. split; [exact Ho|].
  apply (returns_iff _ _ _ _ _ Ho). apply pairs_tree.
Qed.

Lemma part_example :
  (exists it, opens pairs (N_ "s") (lit "aabb") it /\ returns it (plug in_pair (pair_tree 1))) /\
  (exists it, opens pairs (root (pair_tree 1)) (lit "aabb") it /\ returns it (pair_tree 2)) /\
  (exists it, opens pairs (N_ "s") (before in_pair ++ lit "aabb" ++ after in_pair) it /\ returns it (plug in_pair (pair_tree 2))) /\
  before in_pair ++ lit "aabb" ++ after in_pair = lit "aaabbb".
Proof. split; [exact (pairs_returned 2)|]. split; [exact (pairs_returned 2)|]. split; [exact (pairs_returned 3)|reflexivity]. Qed.

Lemma long_example :
  accepts pairs (lit "s") (lit "aabb") /\ longest pairs (List.length pairs) = 3 /\ longest pairs (S (List.length pairs)) = 9 /\
  (forall k, accepts pairs (lit "s") ([] ++ times k (lit "a") ++ lit "ab" ++ times k (lit "b") ++ [])) /\
  (forall w, accepts pairs (lit "s") w <-> exists n, w = repeat 97%N n ++ repeat 98%N n).
Proof.
  split; [apply pairs_accepts; exists 2; reflexivity|]. split; [reflexivity|]. split; [reflexivity|]. split; [|exact pairs_accepts].
  intro k. apply pairs_accepts. exists (S k). rewrite app_nil_r. cbn [app].
  assert (T : forall c, times k [c] = repeat c k). { intro c. unfold times. induction k as [|k IH]; [reflexivity|]. cbn. f_equal. exact IH. }
  change (lit "a") with [97%N]. change (lit "b") with [98%N]. rewrite !T. change (repeat 97%N (S k)) with (97%N :: repeat 97%N k). rewrite repeat_cons, <- app_assoc. reflexivity.
Qed.
