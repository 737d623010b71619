(** Facts about the flattened grammar tables. *)
From Verif Require Export ParseGrammar GrammarSpec.
From Coq Require Import Permutation.

Lemma nth_error_snoc {A} (l : list A) x i y :
  nth_error (l ++ [x]) i = Some y <-> nth_error l i = Some y \/ (i = length l /\ y = x).
Proof.
  destruct (lt_eq_lt_dec i (length l)) as [[H|H]|H].
  - rewrite nth_error_app1 by assumption. split; [auto|]. intros [?|[? ?]]; [assumption|lia].
  - subst. rewrite nth_error_app2, Nat.sub_diag by lia. simpl. split.
    + intro E; injection E as ->; auto.
    + intros [E|[_ ->]]; [|reflexivity].
      assert (length l < length l) by (apply nth_error_Some; congruence). lia.
  - split.
    + intro E. assert (i < length (l ++ [x])) by (apply nth_error_Some; congruence).
      rewrite app_length in *; simpl in *; lia.
    + intros [E|[? ?]]; [|lia].
      assert (i < length l) by (apply nth_error_Some; congruence). lia.
Qed.

Lemma flat_prods_In g l e :
  In (l, e) (flat_prods g) <-> exists p, In p g /\ p_lhs p = l /\ In e (p_rhs p).
Proof.
  unfold flat_prods. rewrite in_flat_map. split.
  - intros (p & Hp & H). apply in_map_iff in H. destruct H as (e' & E & He).
    injection E as <- <-. eauto.
  - intros (p & Hp & <- & He). exists p. split; [assumption|]. apply in_map_iff. eauto.
Qed.

(** The lookup table lists, in increasing order, exactly the ids of the productions with the
    given left-hand side. *)
Definition pg_ok (pg : parse_grammar) : Prop :=
  forall t pid, In pid (get_productions_by_lhs pg t) <->
                exists rhs, nth_error (pg_prods pg) pid = Some (t, rhs).

Lemma pg_push_ok pg x : pg_ok pg -> pg_ok (pg_push pg x).
Proof.
  intros H t pid. destruct x as [l e]. unfold get_productions_by_lhs, pg_push; simpl.
  destruct (term_eqb l t) eqn:E.
  - apply term_eqb_eq in E; subst. rewrite in_app_iff. simpl.
    specialize (H t pid). unfold get_productions_by_lhs in H.
    destruct (hm_get term_eqb (pg_by_lhs pg) t) as [v|].
    + rewrite H. split.
      * intros [[rhs Hr]|[<-|[]]].
        -- exists rhs. apply nth_error_snoc; auto.
        -- exists e. apply nth_error_snoc; auto.
      * intros [rhs Hr]. apply nth_error_snoc in Hr. destruct Hr as [Hr|[-> _]]; eauto.
    + split.
      * intros [[]|[<-|[]]]. exists e. apply nth_error_snoc; auto.
      * intros [rhs Hr]. apply nth_error_snoc in Hr. destruct Hr as [Hr|[-> _]]; [|auto].
        exfalso. apply H. eauto.
  - specialize (H t pid). unfold get_productions_by_lhs in H. rewrite H.
    split; intros [rhs Hr]; exists rhs.
    + apply nth_error_snoc; auto.
    + apply nth_error_snoc in Hr. destruct Hr as [Hr|[_ Hr]]; [assumption|].
      injection Hr as -> ->. rewrite term_eqb_refl in E. discriminate.
Qed.

Lemma pg_push_prods pg x : pg_prods (pg_push pg x) = pg_prods pg ++ [x].
Proof. reflexivity. Qed.

Lemma fold_pg_push l pg : pg_ok pg ->
  pg_ok (fold_left pg_push l pg) /\ pg_prods (fold_left pg_push l pg) = pg_prods pg ++ l.
Proof.
  revert pg; induction l as [|x l IH]; intros pg H; simpl.
  - rewrite app_nil_r; auto.
  - destruct (IH (pg_push pg x)) as [H1 H2]; [apply pg_push_ok; assumption|].
    split; [assumption|]. rewrite H2, pg_push_prods, <- app_assoc. reflexivity.
Qed.

Lemma pg_empty_ok : pg_ok (mkPG [] []).
Proof.
  intros t pid. simpl. split; [intros []|]. intros [rhs H]. destruct pid; discriminate.
Qed.

Lemma pg_new_unchecked_ok g :
  pg_ok (pg_new_unchecked g) /\ pg_prods (pg_new_unchecked g) = flat_prods g.
Proof. apply (fold_pg_push (flat_prods g) (mkPG [] []) pg_empty_ok). Qed.

Lemma fold_pg_step l s pg :
  snd (fold_left pg_step l (s, pg)) = fold_left pg_push l pg.
Proof. revert s pg; induction l as [|x l IH]; intros; simpl; [reflexivity|]. apply IH. Qed.

(** [new] builds the same tables as [new_unchecked]. *)
Lemma pg_new_unchecked_eq ho g pg : pg_new ho g = ROk pg -> pg = pg_new_unchecked g.
Proof.
  unfold pg_new, pg_new_unchecked. intro H.
  pose proof (fold_pg_step (flat_prods g) sets_new (mkPG [] [])) as E.
  destruct (fold_left pg_step (flat_prods g) (sets_new, mkPG [] [])) as [s pg'].
  simpl in E. destruct (undefined ho s); [|discriminate]. congruence.
Qed.

(** ** The recorded sets *)

Lemma hs_insert_In x y l : In y (hs_insert x l) <-> In y l \/ y = x.
Proof.
  unfold hs_insert. destruct (str_memb x l) eqn:E.
  - apply str_memb_In in E. split; [auto|]. intros [?| ->]; assumption.
  - rewrite in_app_iff. simpl. intuition.
Qed.

Lemma undefined_spec ho s x : In x (undefined ho s) <-> In x (referenced s) /\ ~ In x (defined s).
Proof.
  unfold undefined. rewrite filter_In, negb_true_iff.
  rewrite <- (not_true_iff_false (str_memb x (defined s))), str_memb_In.
  split; intros [H1 H2]; split; auto.
  - eapply Permutation_in; [apply ho_perm|exact H1].
  - eapply Permutation_in; [apply Permutation_sym, ho_perm|exact H1].
Qed.

Lemma record_lhs_term_spec s t x :
  (In x (defined (record_lhs_term s t)) <-> In x (defined s) \/ t = Nonterminal x) /\
  (In x (referenced (record_lhs_term s t)) <-> In x (referenced s)).
Proof.
  destruct t as [y|y]; simpl.
  - intuition congruence.
  - rewrite hs_insert_In. intuition congruence.
Qed.

Lemma record_rhs_term_spec s t x :
  (In x (referenced (record_rhs_term s t)) <-> In x (referenced s) \/ t = Nonterminal x) /\
  (In x (defined (record_rhs_term s t)) <-> In x (defined s)).
Proof.
  destruct t as [y|y]; simpl.
  - intuition congruence.
  - rewrite hs_insert_In. intuition congruence.
Qed.

Lemma record_rhs_expr_spec e s x :
  (In x (referenced (fold_left record_rhs_term e s)) <-> In x (referenced s) \/ In (Nonterminal x) e) /\
  (In x (defined (fold_left record_rhs_term e s)) <-> In x (defined s)).
Proof.
  revert s; induction e as [|t e IH]; intros s; simpl; [intuition|].
  destruct (IH (record_rhs_term s t)) as [-> ->].
  destruct (record_rhs_term_spec s t x) as [-> ->]. intuition.
Qed.

Lemma record_rhs_exprs_spec es s x :
  (In x (referenced (fold_left (fun s e => fold_left record_rhs_term e s) es s)) <->
     In x (referenced s) \/ exists e, In e es /\ In (Nonterminal x) e) /\
  (In x (defined (fold_left (fun s e => fold_left record_rhs_term e s) es s)) <-> In x (defined s)).
Proof.
  revert s; induction es as [|e es IH]; intros s; simpl.
  - split; [|tauto]. split; [auto|]. intros [?|(e & [] & _)]; assumption.
  - destruct (IH (fold_left record_rhs_term e s)) as [-> ->].
    destruct (record_rhs_expr_spec e s x) as [-> ->]. split; [|tauto].
    split.
    + intros [[H|H]|(e' & H1 & H2)]; eauto.
    + intros [H|(e' & [->|H1] & H2)]; eauto.
Qed.

Lemma validate_sets_spec_gen g s x :
  let s' := fold_left (fun s p =>
    fold_left (fun s e => fold_left record_rhs_term e s) (p_rhs p) (record_lhs_term s (p_lhs p))) g s in
  (In x (referenced s') <-> In x (referenced s) \/ refers g x) /\
  (In x (defined s') <-> In x (defined s) \/ has_lhs g x).
Proof.
  revert s; induction g as [|p g IH]; intros s; simpl.
  - split; split; auto.
    + intros [?|(p & e & [] & _)]; assumption.
    + intros [?|(p & [] & _)]; assumption.
  - destruct (IH (fold_left (fun s e => fold_left record_rhs_term e s) (p_rhs p)
                   (record_lhs_term s (p_lhs p)))) as [-> ->].
    destruct (record_rhs_exprs_spec (p_rhs p) (record_lhs_term s (p_lhs p)) x) as [-> ->].
    destruct (record_lhs_term_spec s (p_lhs p) x) as [-> ->].
    split; split.
    + intros [[H|(e & H1 & H2)]|(p' & e & H1 & H2 & H3)]; auto; right.
      * exists p, e. simpl; auto.
      * exists p', e. simpl; auto.
    + intros [H|(p' & e & [->|H1] & H2 & H3)]; auto.
      * left; right; eauto.
      * right. exists p', e; auto.
    + intros [[H|H]|(p' & H1 & H2)]; auto; right.
      * exists p; simpl; auto.
      * exists p'; simpl; auto.
    + intros [H|(p' & [->|H1] & H2)]; auto.
      right; exists p'; auto.
Qed.

Lemma validate_sets_spec g x :
  (In x (referenced (validate_sets g)) <-> refers g x) /\
  (In x (defined (validate_sets g)) <-> has_lhs g x).
Proof.
  destruct (validate_sets_spec_gen g sets_new x) as [H1 H2].
  unfold validate_sets. rewrite H1, H2. simpl. tauto.
Qed.

Lemma pg_step_sets_gen l s pg x :
  let s' := fst (fold_left pg_step l (s, pg)) in
  (In x (referenced s') <-> In x (referenced s) \/ exists t e, In (t, e) l /\ In (Nonterminal x) e) /\
  (In x (defined s') <-> In x (defined s) \/ exists e, In (Nonterminal x, e) l).
Proof.
  revert s pg; induction l as [|[t e] l IH]; intros s pg; simpl.
  - split; split; auto.
    + intros [?|(t & e & [] & _)]; assumption.
    + intros [?|(e & [])]; assumption.
  - destruct (IH (fold_left record_rhs_term e (record_lhs_term s t)) (pg_push pg (t, e))) as [-> ->].
    destruct (record_rhs_expr_spec e (record_lhs_term s t) x) as [-> ->].
    destruct (record_lhs_term_spec s t x) as [-> ->].
    split; split.
    + intros [[H|H]|(t' & e' & H1 & H2)]; auto; right; eauto.
    + intros [H|(t' & e' & [E|H1] & H2)]; auto.
      * injection E as -> ->. auto.
      * right; eauto.
    + intros [[H| ->]|(e' & H1)]; auto; right; eauto.
    + intros [H|(e' & [E|H1])]; auto.
      * injection E as -> ->. auto.
      * right; eauto.
Qed.

Lemma pg_new_sets_spec g x :
  let s := fst (fold_left pg_step (flat_prods g) (sets_new, mkPG [] [])) in
  (In x (referenced s) <-> refers g x) /\ (In x (defined s) <-> has_alt g x).
Proof.
  destruct (pg_step_sets_gen (flat_prods g) sets_new (mkPG [] []) x) as [H1 H2].
  simpl. rewrite H1, H2. simpl. split; split.
  - intros [[]|(t & e & H & Hx)]. apply flat_prods_In in H. destruct H as (p & ? & ? & ?).
    exists p, e; auto.
  - intros (p & e & ? & ? & ?). right. exists (p_lhs p), e. split; [|assumption].
    apply flat_prods_In; eauto.
  - intros [[]|(e & H)]. apply flat_prods_In in H. destruct H as (p & ? & ? & ?).
    exists p, e; auto.
  - intros (p & e & ? & ? & ?). right. exists e. apply flat_prods_In; eauto.
Qed.
