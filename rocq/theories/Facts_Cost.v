(** Proofs for Properties_Cost.v. *)
From Verif Require Import TextCost TextCostProofs TextSpec NormalizeSpec NormalizeClosed.

Lemma C69_grammar_proof : forall alphabetic s, alphabetic_ok alphabetic ->
  grammar_from_str alphabetic s = to_result (finish (fst (grammar_from_str_c alphabetic s))) /\
  snd (grammar_from_str_c alphabetic s) <= 134 * length s + 106.
Proof.
  intros alphabetic s H. destruct (grammar_from_str_count alphabetic H s) as (o & _ & Hc). split; [|exact Hc].
  unfold grammar_from_str, grammar_from_str_c. cbn [fst tick]. destruct (is_format_standard_bnf s); rewrite erase_grammar_complete; reflexivity.
Qed.
Lemma C69_notation_proof : forall alphabetic N s, alphabetic_ok alphabetic ->
  grammar_parse_from alphabetic (format_of N) s = to_result (finish (fst (grammar_complete_c alphabetic (format_of N) s))) /\
  snd (grammar_complete_c alphabetic (format_of N) s) <= 131 * length s + 102.
Proof.
  intros alphabetic N s H. destruct (grammar_complete_count alphabetic H N s) as (o & _ & Hc). split; [|exact Hc].
  unfold grammar_parse_from. rewrite erase_grammar_complete. reflexivity.
Qed.
Lemma C69_items_proof : forall alphabetic s, alphabetic_ok alphabetic ->
  (term_from_str alphabetic s = to_result (fst (term_from_str_c alphabetic s)) /\
   snd (term_from_str_c alphabetic s) <= 16 * length s + 9) /\
  (expression_from_str alphabetic s = to_result (fst (expression_from_str_c alphabetic s)) /\
   snd (expression_from_str_c alphabetic s) <= 16 * length s + 9) /\
  (production_from_str alphabetic s = to_result (fst (production_from_str_c alphabetic s)) /\
   snd (production_from_str_c alphabetic s) <= 32 * length s + 25).
Proof.
  intros alphabetic s H. repeat split.
  - unfold term_from_str, term_from_str_c, ok_c. cbn [fst]. rewrite erase_parse_term. reflexivity.
  - apply term_from_str_count, H.
  - unfold expression_from_str, expression_from_str_c. cbn [fst]. rewrite erase_parse_expression. reflexivity.
  - apply expression_from_str_count, H.
  - unfold production_from_str, production_from_str_c. cbn [fst]. rewrite erase_parse_production. reflexivity.
  - apply production_from_str_count, H.
Qed.

(** The number of a made up name: at most one candidate is skipped for each production. *)
Lemma C69_names_proof : forall lhss num k, enumerates_free lhss num -> num k <= k + length lhss.
Proof.
  intros lhss num k [Hi Hf].
  set (free := fun i => negb (str_memb (anon_name i) lhss)).
  assert (Hfree : forall i, free i = true <-> ~ In (anon_name i) lhss).
  { intro i. unfold free. rewrite negb_true_iff. rewrite <- (str_memb_In (anon_name i) lhss). destruct (str_memb (anon_name i) lhss); intuition congruence. }
  assert (H1 : length (filter free (seq 0 (num k))) <= k).
  { rewrite <- (seq_length k 0) at 2. rewrite <- (map_length num (seq 0 k)). apply NoDup_incl_length.
    - apply NoDup_filter, seq_NoDup.
    - intros i H. apply filter_In in H as [H1 H2]. apply in_seq in H1. apply Hfree, Hf in H2 as [k' E].
      apply in_map_iff. exists k'. split; [assumption|]. apply in_seq. split; [lia|].
      destruct (Nat.lt_ge_cases k' k) as [|Hge]; [lia|]. exfalso.
      assert (num k <= num k'). { destruct (Nat.eq_dec k k') as [->|]; [lia|]. apply Nat.lt_le_incl, (increasing_lt num Hi). lia. }
      lia. }
  assert (H2 : length (filter (fun i => negb (free i)) (seq 0 (num k))) <= length lhss).
  { rewrite <- (map_length anon_name). apply NoDup_incl_length.
    - apply FinFun.Injective_map_NoDup; [intros i j; apply anon_name_inj|apply NoDup_filter, seq_NoDup].
    - intros n H. apply in_map_iff in H as (i & <- & H). apply filter_In in H as [_ H].
      apply negb_true_iff in H. destruct (str_memb (anon_name i) lhss) eqn:E; [apply str_memb_In; assumption|].
      unfold free in H. rewrite E in H. discriminate. }
  assert (H3 : forall l, length l = length (filter free l) + length (filter (fun i => negb (free i)) l)).
  { induction l as [|x l IH]; [reflexivity|]. cbn [filter length]. destruct (free x); cbn [negb length]; lia. }
  specialize (H3 (seq 0 (num k))). rewrite seq_length in H3. lia.
Qed.
