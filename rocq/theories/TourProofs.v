(** CoverageGuided on a source of numbers takes the tours of TourSpec.v, and how many sources take a given one. *)
From Verif Require Export TourSpec Facts_Walks.
From Verif Require Import CoverDraws.
From Coq Require Import Lia Permutation.

Lemma find_production_at g n : forall ix0 ix p, find_production g n ix0 = Some (ix, p) <-> ix0 <= ix /\ first_at g n (ix - ix0) p.
Proof.
  induction g as [|q g IH]; intros ix0 ix p; cbn [find_production].
  - split; [discriminate|]. intros [_ [H _]]. destruct (ix - ix0); discriminate.
  - assert (Hs : {p_lhs q = Nonterminal n} + {p_lhs q <> Nonterminal n}) by apply term_eq_dec.
    destruct Hs as [E|E]; [rewrite (proj2 (term_eqb_eq _ _) E)|assert (E' : term_eqb (p_lhs q) (Nonterminal n) = false) by (apply not_true_is_false; rewrite term_eqb_eq; exact E); rewrite E'].
    + split.
      * intro H. injection H as <- <-. split; [lia|]. rewrite Nat.sub_diag. repeat split; [assumption|]. intros j ? Hj. lia.
      * intros [Hle (H1 & H2 & H3)]. destruct (ix - ix0) as [|k] eqn:Ek; [injection H1 as <-; do 2 f_equal; lia|].
        destruct (H3 0 q ltac:(lia) eq_refl E).
    + rewrite IH. split.
      * intros [Hle (H1 & H2 & H3)]. split; [lia|]. replace (ix - ix0) with (S (ix - S ix0)) by lia. repeat split; [exact H1|exact H2|].
        intros [|j] q' Hj Hq; [injection Hq as <-; exact E|]. apply (H3 j); [lia|exact Hq].
      * intros [Hle (H1 & H2 & H3)]. destruct (ix - ix0) as [|k] eqn:Ek; [injection H1 as <-; contradiction|].
        split; [lia|]. replace (ix - S ix0) with k by lia. repeat split; [exact H1|exact H2|].
        intros j q' Hj Hq. apply (H3 (S j)); [lia|exact Hq].
Qed.
Lemma find_first_at g n ix p : find_production g n 0 = Some (ix, p) <-> first_at g n ix p.
Proof. rewrite find_production_at, Nat.sub_0_r. split; [tauto|]. intro; split; [lia|assumption]. Qed.

Section Exact.
  Variable g : grammar.
  Variable ok : str -> str -> bool.
  Variable f : nat -> nat.

  Notation tr := (tour g ok bad_error).
  Notation trs := (tours g ok bad_error).
  Notation trav := (traverse (coverage_guided (stream_rng f)) (pure_callback ok) g).

  Definition tev (fuel : nat) (d : nat) (t : term) (c : @coverage nat) : res (result str * @coverage nat) :=
    match t with Nonterminal nt => trav fuel nt c d | Terminal s => Ok (ROk s, c) end.

  (** One draw from the offered alternatives. *)
  Lemma unseen_new seen ix p : unseen seen ix p = new_alternatives seen ix p.
  Proof.
    unfold unseen, new_alternatives. apply filter_ext. intro i. destruct (in_dec pair_eq_dec (ix, i) seen) as [H|H].
    - cut (memb seen_eqb (ix, i) seen = true); [intros ->; reflexivity|]. apply seen_memb. assumption.
    - cut (memb seen_eqb (ix, i) seen = false); [intros ->; reflexivity|]. apply not_true_is_false. rewrite seen_memb. assumption.
  Qed.

  Lemma offered_nonempty seen ix p : p_rhs p <> [] -> 0 < length (offered seen ix p).
  Proof.
    intro H. unfold offered. destruct (new_alternatives seen ix p); [rewrite seq_length; destruct (p_rhs p); [contradiction|]|]; cbn; lia.
  Qed.

  Lemma offered_index seen ix p x : p_rhs p <> [] ->
    nth_error (offered seen ix p) (x mod length (offered seen ix p)) = Some (cov_index seen ix p x).
  Proof.
    intro H. pose proof (offered_nonempty seen ix p H) as Hl. rewrite (nth_error_nth' _ 0) by (apply Nat.mod_upper_bound; lia).
    f_equal. unfold cov_index, offered. rewrite unseen_new. unfold offered in Hl. destruct (new_alternatives seen ix p) as [|a l]; [|reflexivity].
    rewrite seq_length in *. apply seq_nth. apply Nat.mod_upper_bound. lia.
  Qed.

  Lemma offered_choice seen i ix p d : p_rhs p <> [] -> exists k e,
    nth_error (offered seen ix p) (f i mod length (offered seen ix p)) = Some k /\ nth_error (p_rhs p) k = Some e /\
    coverage_guided (stream_rng f) (mkCov seen i) ix p d = Ok (Some e, mkCov ((ix, k) :: seen) (S i)).
  Proof.
    intro H. exists (cov_index seen ix p (f i)), (nth (cov_index seen ix p (f i)) (p_rhs p) []).
    split; [apply offered_index; assumption|]. split; [apply nth_error_nth', cov_index_lt; assumption|]. apply cov_choose. assumption.
  Qed.

  Lemma eval_tours fuel d :
    (forall n seen i r c, trav fuel n (mkCov seen i) d = Ok (r, c) ->
       exists ds, tr seen n ds r (c_seen c) /\ c_rng c = i + length ds /\ follows f i ds) ->
    forall e acc seen i r c, eval_terms (tev fuel d) e acc (mkCov seen i) = Ok (r, c) ->
      exists ds r', trs seen e ds r' (c_seen c) /\ r = with_acc acc r' /\ c_rng c = i + length ds /\ follows f i ds.
  Proof.
    intro Hn. induction e as [|t e IH]; intros acc seen i r c H; cbn [eval_terms] in H.
    - injection H as <- <-. exists [], (ROk []). cbn. rewrite app_nil_r. repeat split; [constructor|lia].
    - destruct t as [s|n].
      + cbn [tev rbind] in H. destruct (IH _ _ _ _ _ H) as (ds & [w|x] & Hw & -> & Hl & Hf).
        * exists ds, (ROk (s ++ w)). cbn. rewrite app_assoc. repeat split; try assumption. constructor; assumption.
        * exists ds, (RErr x). repeat split; try assumption. constructor; assumption.
      + cbn [tev] in H. destruct (trav fuel n (mkCov seen i) d) as [[r1 [s1 i1]]| |] eqn:E; cbn [rbind] in H; try discriminate.
        destruct (Hn _ _ _ _ _ E) as (ds & Hw & El & Hf). cbn [c_seen c_rng] in *. subst i1. destruct r1 as [v|x].
        * destruct (IH _ _ _ _ _ H) as (ds' & [w|x] & Hw' & -> & -> & Hf').
          -- exists (ds ++ ds'), (ROk (v ++ w)). cbn. rewrite app_assoc, app_length, Nat.add_assoc, follows_app.
             repeat split; try assumption. econstructor; eassumption.
          -- exists (ds ++ ds'), (RErr x). cbn. rewrite app_length, Nat.add_assoc, follows_app.
             repeat split; try assumption. econstructor; eassumption.
        * injection H as <- <-. exists ds, (RErr x). cbn [c_seen c_rng]. repeat split; try assumption. constructor; assumption.
  Qed.

  Lemma traverse_tour fuel : forall n seen i d r c, trav fuel n (mkCov seen i) d = Ok (r, c) ->
    exists ds, tr seen n ds r (c_seen c) /\ c_rng c = i + length ds /\ follows f i ds.
  Proof.
    induction fuel as [|fuel IH]; intros n seen i d r c H; [discriminate|]. cbn [traverse] in H.
    destruct (find_production g n 0) as [[ix p]|] eqn:Ef.
    2:{ injection H as <- <-. exists []. cbn. repeat split; [|lia]. constructor. eapply find_production_None; exact Ef. }
    apply find_first_at in Ef.
    destruct (production_has_no_choice p) eqn:Ep.
    { injection H as <- <-. exists []. cbn. repeat split; [|lia]. apply (tr_bad _ _ _ _ _ ix p); [assumption|].
      apply not_choosable_spec. assumption. }
    apply choosable_spec in Ep. destruct (offered_choice seen i ix p d (proj1 Ep)) as (k & e & Hk & He & Hc). rewrite Hc in H. cbn [rbind] in H.
    change (eval_terms _ e [] _) with (eval_terms (tev fuel (d + 1)) e [] (mkCov ((ix, k) :: seen) (S i))) in H.
    destruct (eval_terms (tev fuel (d + 1)) e [] (mkCov ((ix, k) :: seen) (S i))) as [[r1 [s1 i1]]| |] eqn:Ee; cbn [rbind] in H; try discriminate.
    destruct (eval_tours fuel (d + 1) (fun n s i r c H => IH n s i (d + 1) r c H) _ _ _ _ _ _ Ee) as (ds & r' & Hw & -> & El & Hf).
    cbn [c_seen c_rng] in *. subst i1.
    destruct r' as [w|x]; cbn [with_acc app] in H.
    - cbn [pure_callback] in H. destruct (ok n w) eqn:Eo.
      + injection H as <- <-. exists ((f i mod length (offered seen ix p), length (offered seen ix p)) :: ds). cbn [length follows c_seen c_rng].
        repeat split; [|lia|assumption]. eapply tr_accept; eassumption.
      + destruct (IH _ _ _ _ _ _ H) as (ds' & Hw' & El' & Hf').
        exists ((f i mod length (offered seen ix p), length (offered seen ix p)) :: ds ++ ds'). cbn [length follows]. rewrite app_length.
        repeat split; [|lia|]. eapply tr_reject; eassumption. apply follows_app. auto.
    - injection H as <- <-. exists ((f i mod length (offered seen ix p), length (offered seen ix p)) :: ds). cbn [length follows c_seen c_rng].
      repeat split; [|lia|assumption]. eapply tr_error; eassumption.
  Qed.

  Lemma tour_traverse :
    (forall s n ds r s', tr s n ds r s' -> forall fuel i d, length ds < fuel -> follows f i ds ->
       trav fuel n (mkCov s i) d = Ok (r, mkCov s' (i + length ds))) /\
    (forall s e ds r s', trs s e ds r s' -> forall fuel acc i d, length ds < fuel -> follows f i ds ->
       eval_terms (tev fuel d) e acc (mkCov s i) = Ok (with_acc acc r, mkCov s' (i + length ds))).
  Proof.
    assert (Hstep : forall s d n ix p k a e fuel i, first_at g n ix p -> choosable p -> nth_error (offered s ix p) k = Some a ->
      nth_error (p_rhs p) a = Some e -> f i mod length (offered s ix p) = k ->
      trav (S fuel) n (mkCov s i) d =
        (let* (r, st) := eval_terms (tev fuel (d + 1)) e [] (mkCov ((ix, a) :: s) (S i)) in
         match r with RErr x => Ok (RErr x, st)
                    | ROk s => let '(b, st) := pure_callback ok st n s in if b then Ok (ROk s, st) else trav fuel n st d end)).
    { intros s d n ix p k a e fuel i Hp Hc Hpk He Hk. cbn [traverse]. rewrite (proj2 (find_first_at g n ix p) Hp).
      apply choosable_spec in Hc. rewrite Hc. apply choosable_spec in Hc.
      destruct (offered_choice s i ix p d (proj1 Hc)) as (a' & e' & Ha' & He' & ->). rewrite Hk, Hpk in Ha'. injection Ha' as <-.
      rewrite He in He'. injection He' as <-. reflexivity. }
    apply tour_mutind.
    - intros s n Hn [|fuel] i d Hk _; [lia|]. cbn [traverse length].
      rewrite find_production_undefined by assumption. rewrite Nat.add_0_r. reflexivity.
    - intros s n ix p Hp Hc [|fuel] i d Hk _; [lia|]. cbn [traverse length].
      rewrite (proj2 (find_first_at g n ix p) Hp). apply not_choosable_spec in Hc. rewrite Hc, Nat.add_0_r. reflexivity.
    - intros s n ix p k a e ds x s' Hp Hc Hpk He _ IH [|fuel] i d Hk [Hf1 Hf2]; [lia|]. cbn [length] in Hk.
      rewrite (Hstep _ _ _ _ _ _ _ _ _ _ Hp Hc Hpk He Hf1), IH by (assumption || lia). cbn [rbind with_acc length]. do 3 f_equal. lia.
    - intros s n ix p k a e ds w s' Hp Hc Hpk He _ IH Ho [|fuel] i d Hk [Hf1 Hf2]; [lia|]. cbn [length] in Hk.
      rewrite (Hstep _ _ _ _ _ _ _ _ _ _ Hp Hc Hpk He Hf1), IH by (assumption || lia). cbn [rbind with_acc length pure_callback app].
      rewrite Ho. do 3 f_equal. lia.
    - intros s n ix p k a e ds w s' ds' r s2 Hp Hc Hpk He _ IH Ho _ IH' [|fuel] i d Hk [Hf1 Hf2]; [lia|].
      cbn [length] in Hk. rewrite app_length in Hk.
      apply follows_app in Hf2. destruct Hf2 as [Hf2 Hf3].
      rewrite (Hstep _ _ _ _ _ _ _ _ _ _ Hp Hc Hpk He Hf1), IH by (assumption || lia). cbn [rbind with_acc length pure_callback app].
      rewrite Ho, IH' by (assumption || lia). rewrite app_length. do 3 f_equal. lia.
    - intros s fuel acc i d _ _. cbn. rewrite app_nil_r, Nat.add_0_r. reflexivity.
    - intros s x e ds w s' _ IH fuel acc i d Hk Hf. cbn [eval_terms tev rbind].
      rewrite IH by assumption. cbn. rewrite app_assoc. reflexivity.
    - intros s x e ds y s' _ IH fuel acc i d Hk Hf. cbn [eval_terms tev rbind].
      rewrite IH by assumption. reflexivity.
    - intros s n e ds ds' v w s' s2 _ IH _ IH' fuel acc i d Hk Hf. rewrite app_length in Hk.
      apply follows_app in Hf. destruct Hf as [Hf Hf']. cbn [eval_terms tev]. rewrite IH by (assumption || lia). cbn [rbind].
      rewrite IH' by (assumption || lia). cbn. rewrite app_assoc, app_length, Nat.add_assoc. reflexivity.
    - intros s n e ds ds' v x s' s2 _ IH _ IH' fuel acc i d Hk Hf. rewrite app_length in Hk.
      apply follows_app in Hf. destruct Hf as [Hf Hf']. cbn [eval_terms tev]. rewrite IH by (assumption || lia). cbn [rbind].
      rewrite IH' by (assumption || lia). cbn. rewrite app_length, Nat.add_assoc. reflexivity.
    - intros s n e ds x s' _ IH fuel acc i d Hk Hf. cbn [eval_terms tev]. rewrite IH by assumption. reflexivity.
  Qed.

  Lemma tour_decidable seen n r len : (exists ds, (exists s', tr seen n ds r s') /\ length ds <= len /\ follows f 0 ds) \/
    ~ (exists ds, (exists s', tr seen n ds r s') /\ length ds <= len /\ follows f 0 ds).
  Proof.
    assert (Hx : forall ds' s', tr seen n ds' r s' -> length ds' <= len -> follows f 0 ds' ->
      trav (S len) n (mkCov seen 0) 0 = Ok (r, mkCov s' (length ds'))).
    { intros ds' s' Hw Hl Hf. exact (proj1 tour_traverse _ _ _ _ _ Hw (S len) 0 0 ltac:(lia) Hf). }
    destruct (trav (S len) n (mkCov seen 0) 0) as [[r' c]| |] eqn:E.
    - destruct (traverse_tour _ _ _ _ _ _ _ E) as (ds & Hw & Hl & Hf). cbn in Hl.
      assert (Hr : {r' = r} + {r' <> r}).
      { assert (Hs : forall a b : str, {a = b} + {a <> b}) by (apply list_eq_dec; apply N.eq_dec).
        decide equality. decide equality. }
      destruct Hr as [->|Hr], (Nat.le_gt_cases (length ds) len) as [Hle|Hle].
      + left. exists ds. eauto.
      + right. intros (ds' & [s' Hw'] & Hl' & Hf'). pose proof (Hx _ _ Hw' Hl' Hf') as H. injection H as ->. cbn in Hl. lia.
      + right. intros (ds' & [s' Hw'] & Hl' & Hf'). pose proof (Hx _ _ Hw' Hl' Hf') as H. congruence.
      + right. intros (ds' & [s' Hw'] & Hl' & Hf'). pose proof (Hx _ _ Hw' Hl' Hf') as H. congruence.
    - right. intros (ds' & [s' Hw'] & Hl' & Hf'). pose proof (Hx _ _ Hw' Hl' Hf') as H. discriminate.
    - right. intros (ds' & [s' Hw'] & Hl' & Hf'). pose proof (Hx _ _ Hw' Hl' Hf') as H. discriminate.
  Qed.

  Lemma generate_tour p rest n seen r seen' l fuel0 : g = p :: rest -> p_lhs p = Nonterminal n -> terminates fuel0 g = Ok true ->
    (exists fuel, generate (coverage_guided (stream_rng f)) (pure_callback ok) g fuel (mkCov seen 0) = Ok (r, mkCov seen' l)) <->
    (exists ds, tr seen n ds r seen' /\ length ds = l /\ follows f 0 ds).
  Proof.
    intros Eg Hl Ht. unfold generate. split.
    - intros [fuel H]. destruct (terminates fuel g) as [b| |] eqn:E; cbn [rbind] in H; try discriminate.
      assert (b = true) as ->.
      { pose proof (terminates_mono g _ (Nat.max fuel fuel0) _ E (Nat.le_max_l _ _)) as H1.
        pose proof (terminates_mono g _ (Nat.max fuel fuel0) _ Ht (Nat.le_max_r _ _)) as H2. congruence. }
      cbn [negb] in H. rewrite Eg, Hl in H. rewrite <- Eg in H. destruct (traverse_tour _ _ _ _ _ _ _ H) as (ds & H1 & H2 & H3).
      cbn in H1, H2. exists ds. auto.
    - intros (ds & Hw & <- & Hf). exists (Nat.max fuel0 (S (length ds))).
      rewrite (terminates_mono g _ (Nat.max fuel0 (S (length ds))) _ Ht (Nat.le_max_l _ _)). cbn [rbind negb].
      rewrite Eg, Hl. rewrite <- Eg. apply (proj1 tour_traverse _ _ _ _ _ Hw _ 0); [lia|assumption].
  Qed.

  (** At most one tour is taken. *)
  Lemma first_at_unique n ix p ix' p' : first_at g n ix p -> first_at g n ix' p' -> ix = ix' /\ p = p'.
  Proof. intros H H'. apply find_first_at in H, H'. rewrite H in H'. injection H' as <- <-. auto. Qed.
  Lemma first_at_defined n ix p : first_at g n ix p -> ~ has_lhs g n -> False.
  Proof. intros (H1 & H2 & _) Hn. apply Hn. exists p. split; [eapply nth_error_In; exact H1|assumption]. Qed.

  Ltac dup := try solve [exfalso; eauto using first_at_defined];
    repeat match goal with
    | H1 : first_at g ?n ?ix ?p, H2 : first_at g ?n ?ix' ?q |- _ =>
        first [constr_eq p q; clear H2 | destruct (first_at_unique _ _ _ _ _ H1 H2); subst ix'; subst q; clear H2]
    end; try contradiction.
  Ltac same_pick := match goal with
    | H1 : nth_error (offered ?s ?ix ?p) ?k = Some ?a, H2 : nth_error (offered ?s ?ix ?p) ?k = Some ?a' |- _ =>
        first [constr_eq a a'; clear H2 | assert (a' = a) by congruence; subst a'; clear H2]
    end; match goal with
    | H1 : nth_error (p_rhs ?p) ?a = Some ?e, H2 : nth_error (p_rhs ?p) ?a = Some ?e' |- _ =>
        first [constr_eq e e'; clear H2 | assert (e' = e) by congruence; subst e'; clear H2]
    end.

  Lemma tour_unique :
    (forall s n ds r s', tr s n ds r s' -> forall i ds' r' s2, tr s n ds' r' s2 ->
       follows f i ds -> follows f i ds' -> ds = ds' /\ r = r' /\ s' = s2) /\
    (forall s e ds r s', trs s e ds r s' -> forall i ds' r' s2, trs s e ds' r' s2 ->
       follows f i ds -> follows f i ds' -> ds = ds' /\ r = r' /\ s' = s2).
  Proof.
    apply tour_mutind.
    - intros s n Hn i ds' r' s2 H _ _. inversion H; subst; dup. auto.
    - intros s n ix p Hp Hc i ds' r' s2 H _ _. inversion H; subst; dup. auto.
    - intros s n ix p k a e ds x s' Hp Hc Hk He Hw IH i ds' r' s2 H [<- F2] F'. inversion H; subst; dup; cbn [follows] in F';
        destruct F' as [<- F']; same_pick; try (apply follows_app in F'; destruct F' as [F' F3']);
        destruct (IH (S i) _ _ _ ltac:(eassumption) F2 F') as (<- & E & <-); try discriminate.
      injection E as <-. auto.
    - intros s n ix p k a e ds w s' Hp Hc Hk He Hw IH Ho i ds' r' s2 H [<- F2] F'. inversion H; subst; dup; cbn [follows] in F';
        destruct F' as [<- F']; same_pick; try (apply follows_app in F'; destruct F' as [F' F3']);
        destruct (IH (S i) _ _ _ ltac:(eassumption) F2 F') as (<- & E & <-); try discriminate; injection E as <-; [auto|congruence].
    - intros s n ix p k a e ds w s' ds2 r s3 Hp Hc Hk He Hw IH Ho Hw2 IH2 i ds' r' s2 H [<- F2] F'.
      apply follows_app in F2. destruct F2 as [F2 F3].
      inversion H; subst; dup; cbn [follows] in F'; destruct F' as [<- F']; same_pick;
        try (apply follows_app in F'; destruct F' as [F' F3']);
        destruct (IH (S i) _ _ _ ltac:(eassumption) F2 F') as (<- & E & <-); try discriminate; injection E as <-; [congruence|].
      destruct (IH2 _ _ _ _ ltac:(eassumption) F3 F3') as (<- & <- & <-). auto.
    - intros s i ds' r' s2 H _ _. inversion H; subst. auto.
    - intros s x e ds w s' Hw IH i ds' r' s2 H F F'. inversion H; subst;
        destruct (IH i _ _ _ ltac:(eassumption) F F') as (<- & E & <-); try discriminate. injection E as <-. auto.
    - intros s x e ds w s' Hw IH i ds' r' s2 H F F'. inversion H; subst;
        destruct (IH i _ _ _ ltac:(eassumption) F F') as (<- & E & <-); try discriminate. injection E as <-. auto.
    - intros s n e ds ds2 v w s' s3 Hw IH Hw2 IH2 i ds' r' s2 H F F'. apply follows_app in F. destruct F as [F1 F2].
      inversion H; subst; try (apply follows_app in F'; destruct F' as [F' F2']);
        destruct (IH i _ _ _ ltac:(eassumption) F1 F') as (<- & E & <-); try discriminate; injection E as <-;
        destruct (IH2 _ _ _ _ ltac:(eassumption) F2 F2') as (<- & E & <-); try discriminate. injection E as <-. auto.
    - intros s n e ds ds2 v w s' s3 Hw IH Hw2 IH2 i ds' r' s2 H F F'. apply follows_app in F. destruct F as [F1 F2].
      inversion H; subst; try (apply follows_app in F'; destruct F' as [F' F2']);
        destruct (IH i _ _ _ ltac:(eassumption) F1 F') as (<- & E & <-); try discriminate; injection E as <-;
        destruct (IH2 _ _ _ _ ltac:(eassumption) F2 F2') as (<- & E & <-); try discriminate. injection E as <-. auto.
    - intros s n e ds x s' Hw IH i ds' r' s2 H F F'. inversion H; subst; try (apply follows_app in F'; destruct F' as [F' F2']);
        destruct (IH i _ _ _ ltac:(eassumption) F F') as (<- & E & <-); try discriminate. auto.
  Qed.
End Exact.

(** The draws of a tour. *)
Lemma tour_draws g ok bad (P : nat -> nat -> Prop) :
  (forall s ix p k i, In p g -> choosable p -> nth_error (offered s ix p) k = Some i -> P k (length (offered s ix p))) ->
  (forall s n ds r s', tour g ok bad s n ds r s' -> forall k m, In (k, m) ds -> P k m) /\
  (forall s e ds r s', tours g ok bad s e ds r s' -> forall k m, In (k, m) ds -> P k m).
Proof.
  intro H. assert (Hin : forall n ix p, first_at g n ix p -> In p g) by (intros n ix p (H1 & _); eapply nth_error_In; exact H1).
  apply tour_mutind; intros; try (match goal with H : In _ [] |- _ => destruct H end); eauto.
  all: repeat match goal with
       | H : In _ (_ ++ _) |- _ => apply in_app_or in H; destruct H
       | H : In _ (_ :: _) |- _ => destruct H as [H|H]; [injection H as <- <-|]
       end; eauto.
Qed.

Lemma offered_length s ix p : length (offered s ix p) <= length (p_rhs p).
Proof.
  unfold offered, new_alternatives. set (t := fun i => _). pose proof (seq_length (length (p_rhs p)) 0) as E.
  assert (H : length (filter t (seq 0 (length (p_rhs p)))) <= length (p_rhs p)) by (rewrite <- E at 2; generalize (seq 0 (length (p_rhs p))); intro l; induction l as [|a l IHl]; cbn; [lia|]; destruct (t a); cbn; lia).
  destruct (filter t (seq 0 (length (p_rhs p)))); [rewrite seq_length; lia|exact H].
Qed.

(** [base] is a multiple of every number up to the number of alternatives of a production. *)
Definition common_multiple (g : grammar) (base : nat) : Prop :=
  0 < base /\ forall p k, In p g -> 1 <= k <= length (p_rhs p) -> Nat.divide k base.

Lemma tour_share g ok bad s n ds r s' base len : tour g ok bad s n ds r s' -> common_multiple g base -> length ds <= len ->
  count (gives ds) (scripts base len) * product (map snd ds) = base ^ len.
Proof.
  intros Hw [Hb Hd] Hlen. apply share; [assumption..|].
  refine (proj1 (tour_draws g ok bad (fun k m => k < m /\ Nat.divide m base) _) _ _ _ _ _ Hw).
  intros s0 ix p k i Hp Hc Hk. assert (k < length (offered s0 ix p)) by (apply nth_error_Some; congruence).
  split; [assumption|]. apply (Hd p); [assumption|]. pose proof (offered_length s0 ix p). lia.
Qed.

Section Probability.
  Variables (g : grammar) (ok : str -> str -> bool) (base len : nat).
  Hypothesis Hb : common_multiple g base.
  Notation tr := (tour g ok bad_error).

  Lemma tour_probability p rest n seen r fuel0 : g = p :: rest -> p_lhs p = Nonterminal n -> terminates fuel0 g = Ok true ->
    exists W, NoDup W /\ (forall ds, In ds W <-> (exists s', tr seen n ds r s') /\ length ds <= len) /\
    returning (fun f fuel => let* (r, c) := generate (coverage_guided (stream_rng f)) (pure_callback ok) g fuel (mkCov seen 0) in Ok (r, c_rng c))
      base len r (list_sum (map (fun ds => base ^ len / product (map snd ds)) W)).
  Proof.
    intros Eg Hl Ht.
    assert (Hgf : forall s ds, In s (scripts base len) -> length ds <= len -> gives ds s = true <-> follows (source s) 0 ds).
    { intros s ds Hs Hd. apply scripts_spec in Hs. apply gives_follows; [lia|reflexivity]. }
    assert (Hun : forall s ds ds' r' s1 s2, In s (scripts base len) -> tr seen n ds r' s1 -> length ds <= len -> tr seen n ds' r' s2 -> length ds' <= len ->
      gives ds s = true -> gives ds' s = true -> ds = ds').
    { intros s ds ds' r' s1 s2 Hs Hw Hd Hw' Hd' Hg Hg'. rewrite Hgf in Hg, Hg' by assumption.
      exact (proj1 (proj1 (tour_unique g ok (source s)) _ _ _ _ _ Hw 0 _ _ _ Hw' Hg Hg')). }
    destruct (collect_walks (fun ds => (exists s', tr seen n ds r s') /\ length ds <= len) (scripts base len)) as (W & HN & HW).
    { intros s Hs. destruct (tour_decidable g ok (source s) seen n r len) as [(ds & Hw & Hd & Hf)|Hno].
      - left. exists ds. split; [auto|]. apply Hgf; assumption.
      - right. intros (ds & [Hw Hd] & Hg). apply Hno. exists ds. rewrite <- Hgf by assumption. auto. }
    { intros s ds ds' Hs [[s1 Hw] Hd] [[s2 Hw'] Hd'] Hg Hg'. exact (Hun s ds ds' r s1 s2 Hs Hw Hd Hw' Hd' Hg Hg'). }
    assert (HW' : forall ds, In ds W <-> (exists s', tr seen n ds r s') /\ length ds <= len).
    { intro ds. rewrite HW. split; [tauto|]. intros [[s' Hw] Hd]. split; [eauto|].
      pose proof (tour_share _ _ _ _ _ _ _ _ _ _ Hw Hb Hd) as Hs. unfold count in Hs. destruct Hb as [Hb0 _].
      destruct (filter (gives ds) (scripts base len)) as [|s l] eqn:E.
      - cbn in Hs. pose proof (Nat.pow_nonzero base len). lia.
      - assert (Hin : In s (filter (gives ds) (scripts base len))) by (rewrite E; left; reflexivity).
        apply filter_In in Hin. eauto. }
    exists W. split; [assumption|]. split; [assumption|]. intros S HS HSs.
    assert (E : map (fun ds => base ^ len / product (map snd ds)) W = map (fun ds => count (gives ds) (scripts base len)) W).
    { apply map_ext_in. intros ds Hds. apply HW' in Hds. destruct Hds as [[s' Hw] Hd]. pose proof (tour_share _ _ _ _ _ _ _ _ _ _ Hw Hb Hd) as Hs.
      destruct Hb as [Hb0 _].
      rewrite <- Hs. apply Nat.div_mul. intro E0. rewrite E0, Nat.mul_0_r in Hs. pose proof (Nat.pow_nonzero base len). lia. }
    rewrite E, <- shares_add; [|assumption|].
    2:{ intros ds ds' s Hds Hds' Hs. apply HW' in Hds, Hds'. destruct Hds as [[s1 Hw] Hd], Hds' as [[s2 Hw'] Hd'].
        exact (Hun s ds ds' r s1 s2 Hs Hw Hd Hw' Hd'). }
    unfold count. apply Permutation_length. apply NoDup_Permutation; [assumption|apply NoDup_filter, scripts_NoDup|].
    intro s. rewrite HSs, filter_In, existsb_exists. split.
    - intros (Hs & fuel & l & Hle & Hg). split; [assumption|].
      destruct (generate (coverage_guided (stream_rng (source s))) (pure_callback ok) g fuel (mkCov seen 0)) as [[r0 [s' l0]]| |] eqn:Eg0; try discriminate.
      cbn in Hg. injection Hg as -> ->.
      destruct (proj1 (generate_tour g ok (source s) p rest n seen r s' l fuel0 Eg Hl Ht) (ex_intro _ fuel Eg0)) as (ds & Hw & <- & Hf).
      exists ds. split; [apply HW'; eauto|]. apply Hgf; assumption.
    - intros (Hs & ds & Hds & Hg). apply HW' in Hds. destruct Hds as [[s' Hw] Hd]. split; [assumption|].
      destruct (proj2 (generate_tour g ok (source s) p rest n seen r s' (length ds) fuel0 Eg Hl Ht)) as [fuel Hf].
      { exists ds. rewrite Hgf in Hg by assumption. auto. }
      exists fuel, (length ds). split; [assumption|]. rewrite Hf. reflexivity.
  Qed.
End Probability.
