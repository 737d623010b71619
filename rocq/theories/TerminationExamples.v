(** Concrete grammars for the properties of termination and cost. *)
From Verif Require Export ParseExamples EarleyBounds.
From Coq Require Import Relation_Operators.
Open Scope list_scope.

Lemma loop_self : self_deriving loop_grammar (lit "a").
Proof.
  apply t_step. exists (mkProd (N_ "a") [[N_ "a"]; [T_ "z"]]), [], [].
  repeat split; try (cbn; auto; fail); exists []; (split; [constructor|reflexivity]).
Qed.

(** <s> ::= 'a' <s> | 'b' *)
Definition list_grammar : grammar := [mkProd (N_ "s") [[T_ "a"; N_ "s"]; [T_ "b"]]].

Lemma list_tree_unique : forall t, derives list_grammar t -> forall t', derives list_grammar t' ->
  yield t = yield t' -> t = t'.
Proof.
  intro t. induction t as [l kids IH] using tree_ind'. intros Hd t' Hd' E.
  inversion Hd as [p rhs ks Hp Hr Hk E1]; subst. inversion Hd' as [p' rhs' ks' Hp' Hr' Hk' E1']; subst.
  destruct Hp as [<-|[]], Hp' as [<-|[]]. cbn [p_lhs p_rhs] in *.
  destruct Hr as [<-|[<-|[]]], Hr' as [<-|[<-|[]]].
  - inversion Hk as [|s r k1 Hk1|]; subst. inversion Hk1 as [| |n c r k2 Hroot Hc Hk2]; subst. inversion Hk2; subst.
    inversion Hk' as [|s r k1' Hk1'|]; subst. inversion Hk1' as [| |n c' r k2' Hroot' Hc' Hk2']; subst. inversion Hk2'; subst.
    cbn [yield flat_map yield_node] in E. rewrite !app_nil_r in E. apply app_inv_head in E.
    f_equal. f_equal. f_equal. f_equal. apply IH; auto. right; left; reflexivity.
  - exfalso. inversion Hk; subst. inversion Hk'; subst. discriminate.
  - exfalso. inversion Hk; subst. inversion Hk'; subst. discriminate.
  - inversion Hk as [|s r k1 Hk1|]; subst. inversion Hk1; subst.
    inversion Hk' as [|s r k1' Hk1'|]; subst. inversion Hk1'; subst. reflexivity.
Qed.

Lemma list_unique : uniquely_matching list_grammar.
Proof.
  split.
  - cbn. constructor; [|constructor; [intros []|constructor]]. intros [E|[]]. discriminate.
  - intros p x y ks ks' [<-|[]] Hr. cbn [p_rhs] in Hr.
    assert (Hx : x = [] \/ x = [T_ "a"] \/ x = [T_ "a"; N_ "s"] \/ x = [T_ "b"]).
    { destruct Hr as [E|[E|[]]]; destruct x as [|x0 [|x1 [|x2 x]]]; cbn in E; auto; try discriminate;
        injection E; intros; subst; auto; try discriminate. }
    destruct Hx as [->|[->|[->| ->]]]; intros H H' E.
    + inversion H; inversion H'; subst. reflexivity.
    + inversion H as [|s r k1 Hk1|]; subst. inversion Hk1; subst.
      inversion H' as [|s r k1' Hk1'|]; subst. inversion Hk1'; subst. reflexivity.
    + inversion H as [|s r k1 Hk1|]; subst. inversion Hk1 as [| |n c r k2 Hroot Hc Hk2]; subst. inversion Hk2; subst.
      inversion H' as [|s r k1' Hk1'|]; subst. inversion Hk1' as [| |n c' r k2' Hroot' Hc' Hk2']; subst. inversion Hk2'; subst.
      unfold yields in E. cbn [flat_map yield_node] in E. rewrite !app_nil_r in E. apply app_inv_head in E.
      rewrite (list_tree_unique _ Hc _ Hc' E). reflexivity.
    + inversion H as [|s r k1 Hk1|]; subst. inversion Hk1; subst.
      inversion H' as [|s r k1' Hk1'|]; subst. inversion Hk1'; subst. reflexivity.
Qed.

Lemma polynomial_refuted : exists g start, ~ cyclic g /\ NoDup (flat_prods g) /\ forall n,
  let input := repeat 120%N n ++ lit "y" in
  (exists it, opens g start input it) /\
  forall it, opens g start input it ->
    (exists f it', iter_next f it = Ok (None, it')) /\
    forall f o it', iter_next f it = Ok (o, it') ->
      o = None /\ 2 ^ n < f /\ 2 ^ n <= List.length (tt_arena (s_tree (it_state it'))).
Proof.
  exists fork_grammar, (N_ "t"). split; [exact fork_acyclic|]. split.
  - cbn. repeat constructor; cbn; intuition congruence.
  - intros n input. split.
    + destruct (opens_deprecated_ok fork_grammar input (N_ "t")) as [_ H].
      destruct H as [_ [it H]]; [discriminate|]. exists it. apply opens_deprecated_with. exact H.
    + intros it Ho. split; [exact (fork_returns n it Ho)|].
      intros f o it' E. exact (exponential_rejection n it f o it' Ho E).
Qed.
