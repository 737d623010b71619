(** Proofs about the editing operations and operators of Syntax.v. *)
From Coq Require Import Permutation.
From Verif Require Export Syntax.

Section Remove.
  Context {A : Type} (eqb : A -> A -> bool) (Heq : forall a b, eqb a b = true <-> a = b).

  Lemma position_spec l x : match position (fun y => eqb y x) l with
    | Some pos => exists l1 l2, l = l1 ++ x :: l2 /\ ~ In x l1 /\ pos = length l1
    | None => ~ In x l
    end.
  Proof.
    induction l as [|a l IH]; cbn [position]; [intros []|]. destruct (eqb a x) eqn:E.
    - apply Heq in E. subst a. exists [], l. repeat split. intros [].
    - assert (a <> x) by (intro; subst; assert (eqb x x = true) by (apply Heq; reflexivity); congruence).
      destruct (position _ l) as [pos|]; cbn [option_map].
      + destruct IH as (l1 & l2 & -> & Hn & ->). exists (a :: l1), l2. repeat split. intros [?|?]; auto.
      + intros [?|?]; auto.
  Qed.

  Lemma vec_remove_app (l1 l2 : list A) x : vec_remove (l1 ++ x :: l2) (length l1) = Ok (x, l1 ++ l2).
  Proof. induction l1 as [|a l1 IH]; cbn; [reflexivity|]. rewrite IH. reflexivity. Qed.

  (** The tail with its last element moved to the front. *)
  Definition last_first (l : list A) : list A := match rev l with nil => [] | z :: _ => z :: removelast l end.

  Lemma vec_set_app (l1 l2 : list A) x v : vec_set (l1 ++ x :: l2) (length l1) v = l1 ++ v :: l2.
  Proof. induction l1 as [|a l1 IH]; cbn; [reflexivity|]. rewrite IH. reflexivity. Qed.

  Lemma vec_swap_remove_app (l1 l2 : list A) x : vec_swap_remove (l1 ++ x :: l2) (length l1) = Ok (x, l1 ++ last_first l2).
  Proof.
    unfold vec_swap_remove, last_first. rewrite nth_error_app2, Nat.sub_diag by lia. cbn [nth_error].
    rewrite rev_app_distr. cbn [rev]. destruct (rev l2) as [|z r] eqn:E.
    - assert (l2 = []) as -> by (apply (f_equal (@rev A)) in E; rewrite rev_involutive in E; exact E).
      cbn [app]. rewrite vec_set_app, removelast_app by discriminate. cbn. rewrite app_nil_r. reflexivity.
    - cbn [app]. rewrite vec_set_app, removelast_app by discriminate.
      assert (Hne : l2 <> []) by (intros ->; discriminate).
      cbn [removelast]. destruct l2; [contradiction|]. reflexivity.
  Qed.

  Lemma last_first_perm l : Permutation (last_first l) l.
  Proof.
    unfold last_first. destruct (rev l) as [|z r] eqn:E.
    - assert (l = []) as -> by (apply (f_equal (@rev A)) in E; rewrite rev_involutive in E; exact E). constructor.
    - assert (l = rev r ++ [z]) as -> by (apply (f_equal (@rev A)) in E; rewrite rev_involutive in E; exact E).
      rewrite removelast_last. apply Permutation_cons_append.
  Qed.
End Remove.

Lemma remove_term_spec e t : exists r e', remove_term e t = Ok (r, e') /\
  ((In t e /\ r = Some t /\ exists e1 e2, e = e1 ++ t :: e2 /\ ~ In t e1 /\ e' = e1 ++ e2) \/
   (~ In t e /\ r = None /\ e' = e)).
Proof.
  unfold remove_term. pose proof (position_spec term_eqb term_eqb_eq e t) as H.
  destruct (position _ e) as [pos|].
  - destruct H as (e1 & e2 & -> & Hn & ->). rewrite vec_remove_app. cbn [rbind]. eexists _, _. split; [reflexivity|].
    left. split; [apply in_or_app; right; left; reflexivity|]. split; [reflexivity|]. eauto.
  - eexists _, _. split; [reflexivity|]. right. auto.
Qed.

Lemma remove_from_rhs_spec p e : exists r p', remove_from_rhs p e = Ok (r, p') /\ p_lhs p' = p_lhs p /\
  ((In e (p_rhs p) /\ r = Some e /\ exists l1 l2, p_rhs p = l1 ++ e :: l2 /\ ~ In e l1 /\ p_rhs p' = l1 ++ l2) \/
   (~ In e (p_rhs p) /\ r = None /\ p' = p)).
Proof.
  unfold remove_from_rhs. pose proof (position_spec expression_eqb expression_eqb_eq (p_rhs p) e) as H.
  destruct (position _ (p_rhs p)) as [pos|].
  - destruct H as (e1 & e2 & Hr & Hn & ->). rewrite Hr, vec_remove_app. cbn [rbind]. eexists _, _. split; [reflexivity|].
    split; [reflexivity|]. left. split; [apply in_or_app; right; left; reflexivity|]. split; [reflexivity|]. eauto.
  - eexists _, _. split; [reflexivity|]. auto.
Qed.

Lemma remove_production_spec g p : exists r g', remove_production g p = Ok (r, g') /\
  ((In p g /\ r = Some p /\ Permutation g (p :: g') /\
      exists g1 g2, g = g1 ++ p :: g2 /\ ~ In p g1 /\
        (g2 = [] /\ g' = g1 \/ exists g3 z, g2 = g3 ++ [z] /\ g' = g1 ++ z :: g3)) \/
   (~ In p g /\ r = None /\ g' = g)).
Proof.
  unfold remove_production. pose proof (position_spec production_eqb production_eqb_eq g p) as H.
  destruct (position _ g) as [pos|].
  - destruct H as (g1 & g2 & -> & Hn & ->). rewrite vec_swap_remove_app. cbn [rbind]. eexists _, _. split; [reflexivity|].
    left. split; [apply in_or_app; right; left; reflexivity|]. split; [reflexivity|]. split.
    + rewrite last_first_perm. rewrite <- Permutation_middle. reflexivity.
    + exists g1, g2. split; [reflexivity|]. split; [assumption|]. unfold last_first.
      destruct (rev g2) as [|z r] eqn:E; apply (f_equal (@rev production)) in E; rewrite rev_involutive in E; subst g2.
      * left. rewrite app_nil_r. auto.
      * right. exists (rev r), z. split; [reflexivity|]. cbn [rev]. rewrite removelast_last. reflexivity.
  - eexists _, _. split; [reflexivity|]. right. auto.
Qed.

Lemma fold_add_term f : forall e, fold_left add_term f e = e ++ f.
Proof.
  induction f as [|t f IH]; intro e; cbn; [rewrite app_nil_r; reflexivity|]. rewrite IH. unfold add_term.
  rewrite <- app_assoc. reflexivity.
Qed.

Lemma operators_spec a b e f :
  term_add_term a b = [a; b] /\
  term_add_expression a e = e ++ [a] /\ term_add_expression_ref a e = e ++ [a] /\
  expression_add_expression e f = e ++ f /\ expression_ref_add_expression e f = e ++ f /\
  expression_add_term e a = e ++ [a] /\ expression_ref_add_term e a = e ++ [a].
Proof.
  unfold term_add_term, term_add_expression, term_add_expression_ref, expression_add_expression,
    expression_ref_add_expression, expression_add_term, expression_ref_add_term, add_term at 1 2 4 5.
  rewrite !fold_add_term. repeat split.
Qed.
