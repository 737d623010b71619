(** Proofs about the length of displayed grammars. *)
From Verif Require Import SizeSpec SizeProofs NormalizeClosed TextMain TreeSpec TreeSizeProofs Display Decimals DecimalProofs Facts_Cost.
From Verif Require Import Properties_Text Properties_Normalize.
From Coq Require String.
Import String.StringSyntax.

(** ** The length of what is displayed *)

Lemma join_length sep l : l <> [] -> length (join sep l) + length sep = list_sum (map (fun x => length x + length sep) l).
Proof.
  induction l as [|x l IH]; [congruence|]. intros _. destruct l as [|y l]; [cbn; lia|].
  change (join sep (x :: y :: l)) with (x ++ sep ++ join sep (y :: l)). cbn [map]. rewrite sum_cons, !app_length.
  specialize (IH ltac:(discriminate)). cbn [map] in IH. rewrite sum_cons in IH. rewrite sum_cons. lia.
Qed.

Lemma display_term_length t : length (display_term t) = term_chars t + 2.
Proof.
  destruct t as [s|s]; cbn; [destruct (str_contains squote s); cbn; rewrite app_length; cbn; lia|]. rewrite app_length. cbn. lia.
Qed.

(** What a production takes, including the newline after it. *)
Definition space_expr (e : expression) : nat := 2 + list_sum (map (fun t => term_chars t + 3) e).
Definition space (p : production) : nat := term_chars (p_lhs p) + 5 + list_sum (map space_expr (p_rhs p)).

Lemma display_expression_length e : e <> [] -> length (display_expression e) + 3 = space_expr e.
Proof.
  intro H. unfold display_expression, space_expr. pose proof (join_length (lit " ") (map display_term e)) as J.
  rewrite map_map in J. change (length (lit " ")) with 1 in J.
  rewrite (map_ext (fun t => length (display_term t) + 1) (fun t => term_chars t + 3)) in J
    by (intro t; rewrite display_term_length; lia).
  assert (map display_term e <> []) as N by (destruct e; [congruence|discriminate]). specialize (J N). unfold str, char in *. lia.
Qed.

Lemma display_production_length p : p_rhs p <> [] -> (forall e, In e (p_rhs p) -> e <> []) ->
  length (display_production p) + 1 = space p.
Proof.
  intros Hp He. unfold display_production, space. rewrite !app_length, display_term_length.
  pose proof (join_length (lit " | ") (map display_expression (p_rhs p))) as J. rewrite map_map in J.
  assert (map display_expression (p_rhs p) <> []) as N by (destruct (p_rhs p); [congruence|discriminate]). specialize (J N).
  change (length (lit " | ")) with 3 in J. rewrite (map_ext_in (fun e => length (display_expression e) + 3) space_expr) in J
    by (intros e H; apply display_expression_length; auto).
  change (length (lit " ::= ")) with 5. unfold str, char in *. lia.
Qed.

Lemma display_space g : well_formed g -> length (display_grammar g) = list_sum (map space g).
Proof.
  intros [Hn Hw]. unfold display_grammar. rewrite app_length. cbn [length].
  pose proof (join_length [10%N] (map display_production g)) as J. rewrite map_map in J. cbn [length] in J.
  assert (map display_production g <> []) as N by (destruct g; [congruence|discriminate]). specialize (J N).
  rewrite (map_ext_in (fun p => length (display_production p) + 1) space) in J; [exact J|].
  intros p Hp. destruct (Hw p Hp) as (_ & H1 & H2). apply display_production_length; assumption.
Qed.

Lemma space_parts p : space p = term_chars (p_lhs p) + weight_alts term_chars (p_rhs p) + 3 * weight_alts (fun _ => 1) (p_rhs p) + 2 * length (p_rhs p) + 5.
Proof.
  unfold space. assert (E : forall es, list_sum (map space_expr es) =
    weight_alts term_chars es + 3 * weight_alts (fun _ => 1) es + 2 * length es); [|rewrite E; lia].
  intro es. unfold weight_alts. induction es as [|e es IH]; [reflexivity|]. cbn [map length]. rewrite !sum_cons, IH.
  assert (E : space_expr e = weight_expr term_chars e + 3 * weight_expr (fun _ => 1) e + 2); [|lia].
  unfold space_expr, weight_expr. clear. induction e as [|t e IH]; [reflexivity|]. cbn [map]. rewrite !sum_cons. lia.
Qed.

Lemma display_size g : well_formed g ->
  length (display_grammar g) = lhs_chars g + weight term_chars g + 3 * terms_in g + 2 * alternatives_in g + 5 * length g.
Proof.
  intro H. rewrite (display_space g H). clear H. unfold lhs_chars, terms_in, alternatives_in, weight.
  induction g as [|p g IH]; [reflexivity|]. cbn [map length]. rewrite !sum_cons, IH, space_parts. lia.
Qed.

(** ** After normalization *)

Lemma sum_map_from_le {A B} (count : A -> nat) (f : nat -> A -> B) (W : B -> nat) (V : A -> nat) M l :
  (forall k x, In x l -> k + count x <= M -> W (f k x) <= V x) ->
  forall k, k + list_sum (map count l) <= M -> list_sum (map W (map_from count f k l)) <= list_sum (map V l).
Proof.
  induction l as [|x l IH]; intros H k Hk; [cbn; lia|]. cbn [map_from map] in *. rewrite sum_cons in Hk.
  change (W (f k x) + list_sum (map W (map_from count f (k + count x) l)) <= V x + list_sum (map V l)).
  assert (W (f k x) <= V x) by (apply H; [left; reflexivity|lia]).
  assert (list_sum (map W (map_from count f (k + count x) l)) <= list_sum (map V l)); [|lia].
  apply IH; [|lia]. intros k' y Hy. apply H. right. assumption.
Qed.

Section Bound.
Variable num : nat -> nat.
Variable M v : nat.
Hypothesis names : forall k, k < M -> length (anon_name (num k)) <= v.

Definition own (t : parsed_term) : nat := match t with Simple t => term_chars t + 3 | _ => v + 3 end.
Definition own_alts (es : list parsed_expression) : nat := list_sum (map (fun e => 2 + list_sum (map own e)) es).
Fixpoint added (t : parsed_term) : nat :=
  let inside es := list_sum (map (fun e => list_sum (map added e)) es) in
  match t with
  | Simple _ => 0
  | Group [] => v + 10
  | Group es => v + 5 + own_alts es + inside es
  | Optional es => v + 10 + own_alts es + inside es
  end.

Lemma closed_terms_space e k : k + count_terms e <= M -> space_expr (closed_terms num k e) <= 2 + list_sum (map own e).
Proof.
  intro H. unfold space_expr. apply Nat.add_le_mono_l. revert k H. unfold closed_terms. apply sum_map_from_le.
  intros k t _ Hk. destruct t as [t|es|es]; cbn [closed_term own term_chars count_groups] in *; [lia| |]; specialize (names k); lia.
Qed.

Lemma closed_alts_space es k : k + count_alts es <= M -> list_sum (map space_expr (closed_alts num k es)) <= own_alts es.
Proof. revert k. unfold closed_alts, own_alts. apply sum_map_from_le. intros k e _ Hk. apply closed_terms_space. exact Hk. Qed.

Lemma inner_space (es : list parsed_expression) k :
  (forall e, In e es -> forall t, In t e -> forall k, k + count_groups t <= M -> list_sum (map space (closed_rules num t k)) <= added t) ->
  k + count_alts es <= M ->
  list_sum (map space (concat (map_from count_terms (fun k e =>
                    concat (map_from count_groups (fun k t => closed_rules num t k) k e)) k es))) <=
  list_sum (map (fun e => list_sum (map added e)) es).
Proof.
  intros IH. rewrite sum_concat. revert k. apply sum_map_from_le. intros k e He Hk. rewrite sum_concat.
  revert k Hk. apply sum_map_from_le. intros k' t Ht Hk'. apply (IH e He t Ht _ Hk').
Qed.

Lemma rules_space t : forall k, k + count_groups t <= M -> list_sum (map space (closed_rules num t k)) <= added t.
Proof.
  induction t as [t|es IH|es IH] using parsed_term_ind'; intros k Hk; [cbn; lia| |];
    cbn [closed_rules]; rewrite map_app, list_sum_app; cbn [map]; rewrite sum_cons; change (list_sum []) with 0;
    assert (k < M) as Hlt by (cbn [count_groups] in Hk; lia); pose proof (names k Hlt) as Hn;
    assert (S k + count_alts es <= M) as Hk' by (unfold count_alts, count_terms; cbn [count_groups] in Hk; unfold parsed_expression in *; lia);
    pose proof (inner_space es (S k) IH Hk') as Hi; unfold space at 2; cbn [p_lhs p_rhs term_chars].
  - destruct es as [|e es]; [cbn in *; lia|]. pose proof (closed_alts_space (e :: es) (S k) Hk').
    cbn [added] in *. unfold parsed_expression in *. lia.
  - rewrite map_app, list_sum_app. pose proof (closed_alts_space es (S k) Hk'). cbn [added]. change (list_sum (map space_expr [[Terminal []]])) with 5. lia.
Qed.

Definition needed (p : parsed_production) : nat :=
  length (pp_lhs p) + 5 + own_alts (pp_rhs p) + list_sum (map (fun e => list_sum (map added e)) (pp_rhs p)).

Lemma form_space pg : count_all pg <= M -> list_sum (map space (closed_form num pg)) <= list_sum (map needed pg).
Proof.
  intro H. unfold closed_form. rewrite map_app, list_sum_app. unfold needed.
  rewrite (sum_add (fun p => length (pp_lhs p) + 5 + own_alts (pp_rhs p))
                   (fun p => list_sum (map (fun e => list_sum (map added e)) (pp_rhs p)))).
  apply Nat.add_le_mono.
  - apply (sum_map_from_le _ _ _ _ M); [|exact H]. intros k p _ Hk. unfold space. cbn [p_lhs p_rhs term_chars].
    pose proof (closed_alts_space _ _ Hk). lia.
  - rewrite sum_concat. apply (sum_map_from_le _ _ _ _ M); [|exact H]. intros k p _ Hk. unfold closed_rules_alts.
    apply inner_space; [|exact Hk]. intros e _ t _. apply rules_space.
Qed.

(** ** From text *)

Definition tok_long (t : token) : nat := match t with TokString _ s => length s + 2 | TokName n => Nat.max 1 (length n) | _ => 1 end.
Definition toks_long (ts : list token) : nat := list_sum (map tok_long ts).

Lemma toks_long_app a b : toks_long (a ++ b) = toks_long a + toks_long b.
Proof. unfold toks_long. rewrite map_app. apply list_sum_app. Qed.
Lemma toks_long_cons t l : toks_long (t :: l) = tok_long t + toks_long l.
Proof. reflexivity. Qed.

Lemma token_text_long alphabetic N tok text : token_text alphabetic N tok text -> tok_long tok <= length text.
Proof. intro H. destruct H; cbn [tok_long]; rewrite ?app_length; unfold str, char in *; cbn [length lit app]; rewrite ?app_length; cbn [length]; lia. Qed.

Lemma spells_long alphabetic N toks s : spells alphabetic N toks s -> toks_long toks <= length s.
Proof.
  induction 1 as [s H|tok text lay rest toks Ht Hl Ho Hn Hs IH]; [cbn; lia|].
  rewrite toks_long_cons, !app_length. apply token_text_long in Ht. lia.
Qed.

Lemma toks_space :
  (forall t ts, term_toks t ts -> own t + added t <= (v + 8) * toks_long ts) /\
  (forall e ts, terms_toks e ts -> list_sum (map own e) + list_sum (map added e) <= (v + 8) * toks_long ts) /\
  (forall es ts, alts_toks es ts ->
     own_alts es + list_sum (map (fun e => list_sum (map added e)) es) <= (v + 8) * toks_long ts + 2).
Proof.
  apply toks_mutind.
  - intros q s. cbn [own added term_chars toks_long map list_sum fold_right tok_long]. nia.
  - intros n. cbn [own added term_chars toks_long map list_sum fold_right tok_long]. unfold str, char in *. nia.
  - intros es ts Ha H. rewrite toks_long_cons, toks_long_app. change (toks_long [TokClose]) with 1. cbn [tok_long].
    destruct es as [|e es]; [inversion Ha|]. cbn [own added]. rewrite !Nat.mul_add_distr_l. unfold parsed_expression in *. lia.
  - intros es ts Ha H. rewrite toks_long_cons, toks_long_app. change (toks_long [TokCloseOpt]) with 1. cbn [tok_long].
    cbn [own added]. rewrite !Nat.mul_add_distr_l. unfold parsed_expression in *. lia.
  - cbn. lia.
  - intros t e ts ts' H H1 He H3. rewrite toks_long_app. cbn [map]. rewrite !sum_cons. nia.
  - intros e ts Hne H H1. unfold own_alts. cbn [map]. rewrite !sum_cons. cbn [list_sum fold_right]. unfold parsed_expression in *. lia.
  - intros e es ts ts' Hne H H1 Hes H3. rewrite toks_long_app, toks_long_cons. unfold own_alts in *. cbn [map].
    rewrite !sum_cons. cbn [tok_long]. rewrite !Nat.mul_add_distr_l. unfold parsed_expression in *. lia.
Qed.

Lemma productions_space pg ts : productions_toks pg ts -> list_sum (map needed pg) <= (v + 8) * toks_long ts.
Proof.
  induction 1 as [|p ps ts ts' Hp Hps IH]; [cbn; lia|].
  destruct Hp as (inc & us & Ha & ->). pose proof (proj2 (proj2 toks_space) _ _ Ha) as H1.
  rewrite toks_long_app, !toks_long_cons. cbn [map tok_long]. rewrite sum_cons. unfold needed at 1. unfold parsed_expression in *.
  unfold str, char in *. nia.
Qed.
End Bound.

Lemma read_display alphabetic s g d : alphabetic_ok alphabetic -> grammar_from_str alphabetic s = Ok (ROk g) ->
  length s <= 10 ^ d -> length (display_grammar g) <= (d + 14) * length s.
Proof.
  intros Ha H Hd. pose proof (C36_well_formed alphabetic s g Ha H) as [Hw _].
  apply C32_grammar_text in H; [|assumption]. destruct H as (N & pg & Ht & Hn).
  destruct (text_size _ _ _ _ Ht) as [_ Hc]. destruct (normalize_closed_exists pg) as (num & He & _ & En).
  assert (g = closed_form num pg) as -> by congruence. rewrite (display_space _ Hw).
  assert (Hd1 : 1 <= d) by (destruct d; [cbn in Hd; lia|lia]).
  assert (names : forall k, k < count_all pg -> length (anon_name (num k)) <= 6 + d).
  { intros k Hk. unfold anon_name. rewrite app_length. change (length (lit "__anon")) with 6. apply Nat.add_le_mono_l.
    apply TreeSizeProofs.dec_digits; [|assumption]. pose proof (C69_names_proof _ _ k He) as Hl. rewrite map_length in Hl. lia. }
  pose proof (form_space num (count_all pg) (6 + d) names pg (le_n _)) as Hf.
  destruct Ht as (lay & rest & toks & -> & _ & _ & Hp & Hs). pose proof (productions_space (6 + d) pg toks Hp) as Hq.
  pose proof (spells_long _ _ _ _ Hs). rewrite app_length in *.
  replace (6 + d + 8) with (d + 14) in Hq by lia. nia.
Qed.

(** ** No linear bound *)

Lemma decimal_small s n : decimal s n -> N.to_nat n < 10 ^ length s.
Proof.
  induction 1 as [c Hc|s v c H IH Hv Hc]; [cbn [length]; unfold char in *; cbn; lia|].
  rewrite app_length. cbn [length]. rewrite Nat.add_1_r, Nat.pow_succ_r'. unfold char in *. lia.
Qed.

Lemma dec_long d i : 10 ^ d <= i -> d < length (dec i).
Proof.
  intro H. pose proof (decimal_small _ _ (dec_decimal i)) as H1. rewrite Nat2N.id in H1.
  apply (Nat.pow_lt_mono_r_iff 10); lia.
Qed.

Lemma nest_space d k : forall j, 10 ^ d <= j -> k * (d + 6) <= list_sum (map space (closed_rules (fun k => k) (nest k) j)).
Proof.
  induction k as [|k IH]; intros j Hj; [cbn; lia|]. cbn [nest closed_rules]. rewrite map_app, list_sum_app.
  cbn [map_from concat app]. rewrite !app_nil_r. specialize (IH (S j) ltac:(lia)).
  cbn [map]. rewrite sum_cons. unfold space at 2. cbn [p_lhs term_chars]. unfold anon_name. rewrite app_length. change (length (lit "__anon")) with 6.
  pose proof (dec_long d j Hj). lia.
Qed.

Lemma nest_skip i k : forall j, list_sum (map space (closed_rules (fun k => k) (nest k) (i + j))) <=
  list_sum (map space (closed_rules (fun k => k) (nest (i + k)) j)).
Proof.
  induction i as [|i IH]; intro j; [apply le_n|]. cbn [Nat.add nest closed_rules]. rewrite map_app, list_sum_app.
  cbn [map_from concat app]. rewrite !app_nil_r. specialize (IH (S j)). rewrite Nat.add_succ_r in IH. lia.
Qed.

Lemma nest_display alphabetic d : alphabetic_ok alphabetic -> alphabetic 97%N = true -> alphabetic 98%N = true ->
  exists g, grammar_from_str alphabetic (nest_text (2 * 10 ^ d)) = Ok (ROk g) /\
    length (nest_text (2 * 10 ^ d)) = 4 * 10 ^ d + 4 /\
    d * length (nest_text (2 * 10 ^ d)) <= 8 * length (display_grammar g).
Proof.
  intros Ho Ha Hb. set (k := 2 * 10 ^ d).
  assert (En : normalize_parsed_grammar [mkParsed (lit "a") [[nest k]]] = Ok (closed_form (fun k => k) [mkParsed (lit "a") [[nest k]]])).
  { apply normalize_closed_usual. intros i [E|[]]. discriminate E. }
  set (g := closed_form _ _) in *. exists g.
  assert (Hg : grammar_from_str alphabetic (nest_text k) = Ok (ROk g)).
  { apply C32_grammar_text; [assumption|]. eauto using nest_spelled. }
  split; [assumption|]. pose proof (C36_well_formed _ _ _ Ho Hg) as [Hw _]. rewrite (display_space _ Hw).
  assert (El : length (nest_text k) = 2 * k + 4).
  { unfold nest_text. rewrite !app_length, !repeat_length. cbn [length lit]. cbn. lia. }
  rewrite El. split; [unfold k; lia|]. subst g. unfold closed_form. rewrite map_app, list_sum_app. cbn [map_from concat pp_rhs]. unfold closed_rules_alts.
  cbn [map_from concat]. rewrite !app_nil_r.
  pose proof (nest_skip (10 ^ d) (10 ^ d) 0) as H1. rewrite Nat.add_0_r in H1.
  pose proof (nest_space d (10 ^ d) (10 ^ d) (le_n _)) as H2.
  replace (10 ^ d + 10 ^ d) with k in H1 by (unfold k; lia).
  assert (1 <= 10 ^ d) by (apply Nat.neq_0_lt_0, Nat.pow_nonzero; lia).
  transitivity (8 * (10 ^ d * (d + 6))); [|lia]. unfold k. nia.
Qed.
