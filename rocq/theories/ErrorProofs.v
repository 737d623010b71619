(** The errors of generation and their causes. *)
From Verif Require Export EndsProofs.

Section Causes.
  Context {S : Type}.
  Variable choose : S -> nat -> production -> nat -> res (option expression * S).
  Variable accept : S -> str -> str -> bool * S.
  Variable g : grammar.
  Hypothesis Hlaw : lawful choose.
  Variable start : str.

  Definition cause (x : error) : Prop :=
    (exists n p, clos_refl_trans _ (calls g) start n /\ first_for g n p /\ (p_rhs p = [] \/ p_rhs p = [[]]) /\
       x = GenerateError msg_no_alternative) \/
    (exists st addr p depth st', nth_error g addr = Some p /\ choose st addr p depth = Ok (None, st') /\ x = GenerateError msg_no_selection).

  Lemma traverse_causes fuel : forall ident st depth x st', clos_refl_trans _ (calls g) start ident ->
    traverse choose accept g fuel ident st depth = Ok (RErr x, st') -> cause x.
  Proof.
    induction fuel as [|fuel IH]; intros ident st depth x st' Hr H; cbn [traverse] in H; [discriminate|].
    destruct (find_production g ident 0) as [[ix p]|] eqn:Ef; [|discriminate].
    apply find_production_Some in Ef. destruct Ef as (Hff & _ & Hnth). rewrite Nat.sub_0_r in Hnth.
    destruct (production_has_no_choice p) eqn:Enc.
    { injection H as <- <-. left. exists ident, p. repeat split; try assumption. apply no_choice_spec. assumption. }
    destruct (choose st ix p depth) as [[[e|] st1]| |] eqn:Ec; cbn [rbind] in H; try discriminate.
    2:{ injection H as <- <-. right. exists st, ix, p, depth, st1. repeat split; assumption. }
    apply Hlaw in Ec.
    match type of H with context [eval_terms ?ev e [] st1] => set (eval := ev) in * end.
    assert (Hev : forall e', incl e' e -> forall acc st x st', eval_terms eval e' acc st = Ok (RErr x, st') -> cause x).
    { clear H. induction e' as [|t e' IHe]; intros Hi acc st0 x0 st0' H; cbn [eval_terms] in H; [discriminate|].
      destruct (eval t st0) as [[[s|y] st2]| |] eqn:E; cbn [rbind] in H; try discriminate.
      - eapply IHe; [|exact H]. intros z Hz. apply Hi. right. assumption.
      - injection H as <- <-. unfold eval in E. destruct t as [s|m]; [discriminate|].
        destruct fuel as [|fuel']; [discriminate|].
        destruct (find_production g m 0) as [[im pm]|] eqn:Em.
        + eapply IH; [|exact E]. eapply rt_trans; [eassumption|]. apply rt_step. exists p, e. repeat split; try assumption; [apply Hi; left; reflexivity|].
          apply find_production_Some in Em. apply (first_for_has_lhs g m pm). apply Em.
        + cbn [traverse] in E. rewrite Em in E. discriminate. }
    destruct (eval_terms eval e [] st1) as [[[s|y] st2]| |] eqn:E; cbn [rbind] in H; try discriminate.
    - destruct (accept st2 ident s) as [[|] st3]; [discriminate|]. eapply IH; [exact Hr|exact H].
    - injection H as <- <-. eapply Hev; [apply incl_refl|exact E].
  Qed.
End Causes.
