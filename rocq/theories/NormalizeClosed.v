(** Normalization in closed form. *)
From Verif Require Export NormalizeProofs.

Lemma map_from_cons {A B} (count : A -> nat) (f : nat -> A -> B) k x l :
  map_from count f k (x :: l) = f k x :: map_from count f (k + count x) l.
Proof. reflexivity. Qed.

(** ** The enumeration of the free names *)

Definition next_free (lhss : list str) (c : nat) : nat :=
  match fresh (mkL lhss c []) with Ok (_, st) => pred (l_counter st) | _ => 0 end.

Lemma next_free_spec lhss c : c <= next_free lhss c /\ ~ In (anon_name (next_free lhss c)) lhss /\
  forall i, c <= i -> i < next_free lhss c -> In (anon_name i) lhss.
Proof.
  unfold next_free. destruct (fresh_dense (mkL lhss c [])) as (j & H1 & H2 & H3 & ->). cbn in *. auto.
Qed.

Fixpoint free_num (lhss : list str) (k : nat) : nat :=
  match k with
  | 0 => next_free lhss 0
  | S k => next_free lhss (S (free_num lhss k))
  end.

Lemma free_num_enumerates lhss : enumerates_free lhss (free_num lhss).
Proof.
  split.
  - intro k. cbn [free_num]. destruct (next_free_spec lhss (S (free_num lhss k))) as [H _]. lia.
  - intro i. split.
    + intro Hi.
      assert (H : forall k, i < free_num lhss k -> exists k', free_num lhss k' = i).
      { induction k as [|k IH]; intro Hk.
        - exfalso. apply Hi. cbn [free_num] in Hk. apply (next_free_spec lhss 0); [lia|assumption].
        - destruct (lt_eq_lt_dec i (free_num lhss k)) as [[Hlt|Heq]|Hgt]; [auto|eauto|]. exfalso. apply Hi.
          cbn [free_num] in Hk. apply (next_free_spec lhss (S (free_num lhss k))); [lia|assumption]. }
      assert (Hge : forall k, k <= free_num lhss k).
      { induction k as [|k IH]; [lia|]. cbn [free_num]. destruct (next_free_spec lhss (S (free_num lhss k))) as [H' _]. lia. }
      apply (H (S i)). apply Hge.
    + intros [k <-]. destruct k; cbn [free_num]; apply next_free_spec.
Qed.

Lemma increasing_lt (num : nat -> nat) : (forall k, num k < num (S k)) -> forall j k, j < k -> num j < num k.
Proof. intros H j k Hjk. induction Hjk as [|k _ IH]; [apply H|]. specialize (H k). lia. Qed.

(** The enumeration is unique. *)
Lemma enumerates_unique lhss num num' : enumerates_free lhss num -> enumerates_free lhss num' ->
  forall k, num k = num' k.
Proof.
  intros [I1 F1] [I2 F2].
  assert (Hle : forall (a b : nat -> nat), (forall k, a k < a (S k)) -> (forall k, b k < b (S k)) ->
      (forall k, exists j, a j = b k) -> forall k, a k <= b k).
  { intros a b Ia Ib He k.
    assert (Hinv : forall k, exists j, k <= j /\ a j = b k); [|destruct (Hinv k) as (j & Hj & <-)].
    - clear k. induction k as [|k (j & Hj & E)].
      + destruct (He 0) as [j Hj]. exists j. split; [lia|assumption].
      + destruct (He (S k)) as [j' Hj']. exists j'. split; [|assumption].
        destruct (le_lt_dec j' j) as [Hle|Hlt]; [|lia]. exfalso.
        assert (a j' <= a j) by (destruct (Nat.eq_dec j' j) as [->|]; [lia|]; apply Nat.lt_le_incl, increasing_lt; [assumption|lia]).
        specialize (Ib k). lia.
    - destruct (Nat.eq_dec k j) as [->|]; [lia|]. apply Nat.lt_le_incl, increasing_lt; [assumption|lia]. }
  intro k. apply Nat.le_antisymm; apply Hle; try assumption; intro j.
  - apply F1, F2. eauto.
  - apply F2, F1. eauto.
Qed.

(** ** Lowering *)

Section Closed.
Variable lhss : list str.
Variable num : nat -> nat.
Hypothesis Hnum : enumerates_free lhss num.

(** [k] names have been given out. *)
Definition at_name (k : nat) (st : lstate) : Prop :=
  l_counter st = (match k with 0 => 0 | S k => S (num k) end) /\
  forall i, l_counter st <= i -> (In (anon_name i) (l_used st) <-> In (anon_name i) lhss).

Lemma anon_name_inj i j : anon_name i = anon_name j -> i = j.
Proof. unfold anon_name. intro H. apply app_inv_head in H. apply dec_inj. assumption. Qed.

Lemma fresh_at k st : at_name k st ->
  exists st', fresh st = Ok (anon_name (num k), st') /\ at_name (S k) st' /\ l_anon st' = l_anon st.
Proof.
  intros [Hc Hu]. destruct (fresh_dense st) as (j & H1 & H2 & H3 & ->).
  assert (j = num k) as ->.
  { destruct Hnum as [Hi Hf]. pose proof (increasing_lt num Hi) as Hlt.
    rewrite Hu in H2 by assumption. apply Hf in H2. destruct H2 as [k' <-].
    destruct (lt_eq_lt_dec k' k) as [[Hk| ->]|Hk]; [|reflexivity|].
    - exfalso. rewrite Hc in H1. destruct k as [|k]; [lia|].
      destruct (Nat.eq_dec k' k) as [->|]; [lia|]. specialize (Hlt k' k). lia.
    - exfalso. assert (Hin : In (anon_name (num k)) (l_used st)).
      { apply H3; [|apply Hlt; assumption]. rewrite Hc. destruct k; [lia|]. specialize (Hi k). lia. }
      rewrite Hu in Hin.
      + assert (~ In (anon_name (num k)) lhss) by (apply Hf; eauto). contradiction.
      + rewrite Hc. destruct k; [lia|]. specialize (Hi k). lia. }
  eexists. split; [reflexivity|]. split; [|reflexivity]. split; [reflexivity|]. cbn [l_counter l_used In].
  intros i Hi. rewrite <- Hu by lia. split; [|auto]. intros [E|E]; [|assumption].
  apply anon_name_inj in E. lia.
Qed.

(** [f] gives out [count x] names, returns [val k x] and appends the rules [rules k x]. *)
Definition lowers {A B} (f : A -> lstate -> res (B * lstate)) (count : A -> nat) (val : nat -> A -> B)
    (rules : nat -> A -> list production) (x : A) : Prop :=
  forall k st, at_name k st -> exists st', f x st = Ok (val k x, st') /\ at_name (k + count x) st' /\
    l_anon st' = l_anon st ++ rules k x.

Lemma map_st_lowers {A B} (f : A -> lstate -> res (B * lstate)) count val rules l :
  (forall x, In x l -> lowers f count val rules x) ->
  lowers (map_st f) (fun l => list_sum (map count l)) (map_from count val) (fun k l => concat (map_from count rules k l)) l.
Proof.
  induction l as [|x l IH]; intros H k st Hk.
  - exists st. cbn. rewrite Nat.add_0_r, app_nil_r. auto.
  - rewrite map_st_cons. destruct (H x (or_introl eq_refl) k st Hk) as (st1 & -> & H1 & E1). cbn [rbind].
    destruct (IH (fun y Hy => H y (or_intror Hy)) _ _ H1) as (st2 & -> & H2 & E2). cbn [rbind].
    exists st2. rewrite !map_from_cons. split; [reflexivity|]. split.
    + cbn [map list_sum fold_right]. rewrite Nat.add_assoc. exact H2.
    + cbn [concat]. rewrite E2, E1, app_assoc. reflexivity.
Qed.

Lemma map_from_nil_iff {A B} (count : A -> nat) (f : nat -> A -> B) k l : map_from count f k l = [] <-> l = [].
Proof. destruct l; [split; reflexivity|]. rewrite map_from_cons. split; discriminate. Qed.

Lemma push_at k p st : at_name k st -> at_name k (push_anon p st).
Proof. exact (fun H => H). Qed.

Lemma lower_term_lowers t : lowers lower_term count_groups (closed_term num) (fun k t => closed_rules num t k) t.
Proof.
  induction t as [t|es IH|es IH] using parsed_term_ind'; intros k st Hk.
  - exists st. cbn. rewrite Nat.add_0_r, app_nil_r. auto.
  - cbn [lower_term]. destruct (fresh_at k st Hk) as (st1 & -> & H1 & E1). cbn [rbind].
    destruct (map_st_lowers (map_st lower_term) count_terms (closed_terms num)
      (fun k e => concat (map_from count_groups (fun k t => closed_rules num t k) k e)) es
      (fun e He => map_st_lowers lower_term _ _ _ e (IH e He)) (S k) st1 H1) as (st2 & -> & H2 & E2). cbn [rbind].
    eexists. split; [reflexivity|]. split.
    + apply push_at. cbn [count_groups]. rewrite <- plus_n_Sm. exact H2.
    + cbn [l_anon push_anon closed_rules]. rewrite E2, E1, <- app_assoc. f_equal. f_equal. f_equal. f_equal.
      destruct es as [|e es]; [reflexivity|]. unfold closed_alts. rewrite map_from_cons. reflexivity.
  - cbn [lower_term]. destruct (fresh_at k st Hk) as (st1 & -> & H1 & E1). cbn [rbind].
    destruct (map_st_lowers (map_st lower_term) count_terms (closed_terms num)
      (fun k e => concat (map_from count_groups (fun k t => closed_rules num t k) k e)) es
      (fun e He => map_st_lowers lower_term _ _ _ e (IH e He)) (S k) st1 H1) as (st2 & -> & H2 & E2). cbn [rbind].
    eexists. split; [reflexivity|]. split.
    + apply push_at. cbn [count_groups]. rewrite <- plus_n_Sm. exact H2.
    + cbn [l_anon push_anon closed_rules]. rewrite E2, E1, <- app_assoc. reflexivity.
Qed.

Lemma lower_production_lowers p : lowers lower_production (fun p => count_alts (pp_rhs p))
  (fun k p => mkProd (Nonterminal (pp_lhs p)) (closed_alts num k (pp_rhs p)))
  (fun k p => closed_rules_alts num k (pp_rhs p)) p.
Proof.
  intros k st Hk. unfold lower_production.
  destruct (map_st_lowers lower_expression count_terms (closed_terms num)
    (fun k e => concat (map_from count_groups (fun k t => closed_rules num t k) k e)) (pp_rhs p)
    (fun e He => map_st_lowers lower_term _ _ _ e (fun t _ => lower_term_lowers t)) k st Hk) as (st1 & -> & H1 & E1).
  cbn [rbind]. exists st1. auto.
Qed.
End Closed.

Theorem normalize_closed pg num : enumerates_free (map pp_lhs pg) num ->
  normalize_parsed_grammar pg = Ok (closed_form num pg).
Proof.
  intro H. unfold normalize_parsed_grammar.
  destruct (map_st_lowers (map pp_lhs pg) num lower_production _ _ _ pg (fun p _ => lower_production_lowers _ num H p)
    0 (mkL (map pp_lhs pg) 0 [])) as (st & -> & _ & E).
  - split; [reflexivity|]. cbn. tauto.
  - cbn [rbind]. cbn [l_anon app] in E. rewrite E. reflexivity.
Qed.

Theorem normalize_closed_exists pg :
  exists num, enumerates_free (map pp_lhs pg) num /\
    (forall num', enumerates_free (map pp_lhs pg) num' -> forall k, num' k = num k) /\
    normalize_parsed_grammar pg = Ok (closed_form num pg).
Proof.
  exists (free_num (map pp_lhs pg)). pose proof (free_num_enumerates (map pp_lhs pg)) as H. split; [assumption|].
  split; [|apply normalize_closed; assumption]. intros num' H'. exact (enumerates_unique _ _ _ H' H).
Qed.

Theorem normalize_closed_usual pg : (forall i, ~ In (anon_name i) (map pp_lhs pg)) ->
  normalize_parsed_grammar pg = Ok (closed_form (fun k => k) pg).
Proof.
  intro H. apply normalize_closed. split; [intro k; lia|]. intro i. split; [eauto|intros _; apply H].
Qed.
