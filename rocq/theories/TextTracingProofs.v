(** The log of reading a text: it changes nothing, the spans are nested, and there are not many of them. *)
From Verif Require Export TextTracing TextCost.
From Verif Require Import TracingSpec TracingProofs.
From Coq Require Import String.
Open Scope list_scope.

(** [x] returns what [y] returns, and reports at most six entries for each character that [y] counts, [k] less. *)
Definition tracks {A} (k : nat) (x : noted A) (y : counted A) : Prop :=
  fst x = fst y /\ nested (snd x) /\ List.length (snd x) + k <= 6 * snd y.

Lemma tracks_less {A} k k' (x : noted A) y : tracks k x y -> k' <= k -> tracks k' x y.
Proof. intros (H1 & H2 & H3) Hk. split; [exact H1|]. split; [exact H2|lia]. Qed.
Lemma tracks_silent {A} (a : A) n : tracks (6 * n) (silent a) (a, n).
Proof. split; [reflexivity|]. split; [constructor|cbn; lia]. Qed.
Lemma tracks_eq {A} k (a b : A) l n : a = b -> nested l -> List.length l + k <= 6 * n -> tracks k (a, l) (b, n).
Proof. intros -> H1 H2. split; [reflexivity|]. split; assumption. Qed.
Lemma tracks_after {A} j k (x : noted A) y l n : nested l -> List.length l + j <= 6 * n -> tracks k x y -> tracks (j + k) (after l x) (tick n y).
Proof.
  intros Hl Hn (H1 & H2 & H3). split; [exact H1|]. cbn [after tick snd]. split; [apply nested_app; assumption|]. rewrite app_length. lia.
Qed.
Lemma span_length name l : List.length (span name l) = 2 + List.length l.
Proof. unfold span. cbn [List.length]. rewrite app_length. cbn. lia. Qed.
Lemma tracks_within {A} k name (x : noted A) y : tracks (2 + k) x y -> tracks k (within name x) y.
Proof.
  intros (H1 & H2 & H3). split; [exact H1|]. split; [apply nested_in; exact H2|]. cbn [within snd]. rewrite span_length. lia.
Qed.
Lemma tracks_noting {A B} k (f : A -> B) (x : noted A) y : tracks k x y -> tracks k (noting f x) (f (fst y), snd y).
Proof. intros (H1 & H2 & H3). split; [cbn; congruence|]. split; assumption. Qed.
Lemma tracks_obind {A B} k (x : noted (option A)) y (f : A -> noted (option B)) g :
  tracks k x y -> (forall a, fst y = Some a -> tracks 0 (f a) (g a)) -> tracks k (obind_l x f) (obind_c y g).
Proof.
  intros (H1 & H2 & H3) H. unfold obind_l, obind_c. rewrite H1. destruct (fst y) as [a|] eqn:E; [|split; [reflexivity|split; assumption]].
  replace k with (k + 0) by lia. apply tracks_after; auto.
Qed.
Lemma tracks_pbind {A B} k (x : noted (pres A)) y (f : A * str -> noted (pres B)) g :
  tracks k x y -> (forall a, tracks 0 (f a) (g a)) -> tracks k (pbind_l x f) (pbind_c y g).
Proof.
  intros (H1 & H2 & H3) H. unfold pbind_l, pbind_c. rewrite H1. destruct (fst y) as [[a|]| |] eqn:E; try (split; [reflexivity|split; assumption]).
  replace k with (k + 0) by lia. apply tracks_after; auto.
Qed.
Lemma tracks_or {A} k (x : noted (option A)) y x' y' : tracks k x y -> tracks 0 x' y' -> tracks k (or_l x x') (or_c y y').
Proof.
  intros (H1 & H2 & H3) H. unfold or_l, or_c. rewrite H1. destruct (fst y) as [a|] eqn:E; [split; [congruence|split; assumption]|].
  replace k with (k + 0) by lia. apply tracks_after; auto.
Qed.

Lemma skip_count_min s : forall b, 3 <= skip_count b s.
Proof.
  induction s as [|c s IH]; intro b; cbn [skip_count]; [lia|].
  pose proof (IH true). pose proof (IH false). destruct b.
  - destruct (N.eqb c c_cr || N.eqb c c_lf); lia.
  - destruct (is_whitespace c); [lia|]. destruct (N.eqb c c_semi); lia.
Qed.
Lemma ws_tracks s : tracks 16 (ws_l s) (ws_c s).
Proof. apply tracks_eq; [reflexivity|apply nested_in; constructor|]. pose proof (skip_count_min s false). cbn. lia. Qed.
Lemma then_ws_tracks {A} (a : A) s : tracks 16 (then_ws a s) (tick (snd (ws_c s)) (Some (a, fst (ws_c s)), 0)).
Proof.
  destruct (ws_tracks s) as (H1 & H2 & H3). unfold then_ws, noting, tick. cbn [fst snd]. apply tracks_eq; [rewrite H1; reflexivity|exact H2|lia].
Qed.
Lemma some_ws_tracks s n : tracks 16 (noting Some (ws_l s)) (Some (fst (ws_c s)), n + snd (ws_c s)).
Proof.
  destruct (ws_tracks s) as (H1 & H2 & H3). unfold noting. apply tracks_eq; [rewrite H1; reflexivity|exact H2|lia].
Qed.

Lemma quoted_min q s : 1 <= snd (quoted_c q s).
Proof. unfold quoted_c, obind_c, char_c. cbn [fst snd]. destruct (p_char q s); cbn [fst snd tick]; lia. Qed.
Lemma quoted_string_tracks s : tracks 12 (silent (quoted_string s)) (quoted_string_c s) \/ exists a, fst (quoted_string_c s) = Some a.
Proof.
  unfold quoted_string_c, or_c. pose proof (quoted_min dquote s). pose proof (quoted_min squote s).
  destruct (fst (quoted_c dquote s)) as [a|] eqn:E1; [right; exists a; exact E1|].
  destruct (fst (quoted_c squote s)) as [a|] eqn:E2; [right; exists a; exact E2|]. left.
  split; [cbn [silent fst tick]; rewrite <- erase_quoted_string; unfold quoted_string_c, or_c; rewrite E1; reflexivity|].
  split; [constructor|]. cbn [silent snd tick List.length]. lia.
Qed.
Lemma quoted_string_min s : 1 <= snd (quoted_string_c s).
Proof.
  unfold quoted_string_c, or_c. pose proof (quoted_min dquote s). destruct (fst (quoted_c dquote s)); cbn [snd tick]; lia.
Qed.
Lemma quoted_tracks s : tracks 6 (silent (quoted_string s)) (quoted_string_c s).
Proof. split; [symmetry; apply erase_quoted_string|]. split; [constructor|]. pose proof (quoted_string_min s). cbn [silent snd List.length]. lia. Qed.

(** An attempt at a string that fails looks at the text twice. *)
Lemma terminal_tracks s : tracks 10 (terminal_l s) (terminal_c s).
Proof.
  unfold terminal_l, terminal_c. apply tracks_within. destruct (quoted_string_tracks s) as [H|[[a r] E]].
  - apply tracks_obind; [exact H|]. intros [a r] _. eapply tracks_less; [apply then_ws_tracks|lia].
  - pose proof (quoted_tracks s) as (H1 & H2 & H3). unfold obind_l, obind_c. rewrite H1, E.
    apply (tracks_less (6 + 16)); [apply tracks_after; [constructor|exact H3|apply then_ws_tracks]|lia].
Qed.

Section Format.
Variable alphabetic : char -> bool.
Variable F : format.

Lemma name_tracks s : tracks 6 (silent (name alphabetic F s)) (name_c alphabetic F s).
Proof.
  split; [symmetry; apply erase_name|]. split; [constructor|]. cbn [silent snd List.length].
  assert (1 <= snd (name_c alphabetic F s)); [|lia]. unfold name_c. destruct (f_delimiter F) as [[a b]|].
  - unfold obind_c, char_c. cbn [fst snd]. destruct (p_char a s) as [r|]; cbn [fst snd tick]; lia.
  - destruct s as [|c s]; cbn [snd]; [lia|]. destruct (alphabetic c); cbn [snd]; lia.
Qed.
Lemma nonterminal_tracks s : tracks 4 (nonterminal_l alphabetic F s) (nonterminal_c alphabetic F s).
Proof.
  apply tracks_within. apply tracks_obind; [apply name_tracks|]. intros [n r] _. eapply tracks_less; [apply then_ws_tracks|lia].
Qed.
Lemma after_lhs_tracks s : tracks 0 (after_lhs_l F s) (after_lhs_c F s).
Proof.
  apply tracks_obind; [eapply tracks_less; [apply tracks_silent|lia]|]. intros r _. eapply tracks_less; [apply some_ws_tracks|lia].
Qed.
Lemma prod_lhs_tracks s : tracks 2 (prod_lhs_l alphabetic F s) (prod_lhs_c alphabetic F s).
Proof.
  apply tracks_within. apply tracks_obind; [apply nonterminal_tracks|]. intros [n r] _.
  apply tracks_obind; [apply after_lhs_tracks|]. intros r' _. apply (tracks_silent _ 0).
Qed.
Lemma term_tracks s : tracks 8 (parse_term_l alphabetic F s) (parse_term_c alphabetic F s).
Proof. apply tracks_within, tracks_or; [apply terminal_tracks|]. eapply tracks_less; [apply nonterminal_tracks|lia]. Qed.
Lemma read_next_tracks s : tracks 6 (read_next_l F s) (expression_next_c F s).
Proof.
  apply tracks_obind; [apply (tracks_silent _ 1)|]. intros r _. unfold tick. cbn [fst snd]. replace (snd (ws_c r) + 0) with (0 + snd (ws_c r)) by lia.
  eapply tracks_less; [apply some_ws_tracks|lia].
Qed.
Lemma expression_next_tracks s : tracks 4 (expression_next_l F s) (expression_next_c F s).
Proof. apply tracks_within, read_next_tracks. Qed.
Lemma not_before_tracks {A} k (x : noted (pres A)) y : tracks k x y -> tracks k (not_before_separator_l F x) (not_before_separator_c F y).
Proof.
  intros (H1 & H2 & H3). split; [rewrite erase_not_before; cbn; rewrite H1; reflexivity|]. split; [exact H2|].
  cbn [not_before_separator_l noting snd]. unfold not_before_separator_c, pbind_c. destruct (fst y) as [[[a s]|]| |]; cbn [snd tick]; lia.
Qed.

Lemma many1_loop_tracks {A} (p : str -> noted (pres A)) q (H : forall s, tracks 0 (p s) (q s)) fuel : forall acc s,
  tracks 0 (many1_loop_l fuel p acc s) (many1_loop_c fuel q acc s).
Proof.
  induction fuel as [|fuel IH]; intros acc s; cbn [many1_loop_l many1_loop_c]; [apply (tracks_silent _ 0)|].
  destruct (H s) as (H1 & H2 & H3). rewrite H1. destruct (fst (q s)) as [[[a s']|]| |]; [|apply tracks_eq; auto..].
  destruct (byte_len s' =? byte_len s); [apply tracks_eq; auto|]. apply (tracks_after 0 0); auto.
Qed.
Lemma many1_tracks {A} k (p : str -> noted (pres A)) q (H : forall s, tracks k (p s) (q s)) fuel s :
  tracks k (many1_l fuel p s) (many1_c fuel q s).
Proof.
  apply tracks_pbind; [apply H|]. intros [a r]. apply many1_loop_tracks. intro r'. eapply tracks_less; [apply H|lia].
Qed.
Lemma xt_list_tracks {A} k (p : str -> noted (pres A)) q d e (H : forall s, tracks k (p s) (q s)) (Hd : forall s, tracks 0 (d s) (e s)) fuel :
  forall acc s, tracks (match fuel with 0 => 0 | _ => k end) (xt_list_l fuel p d acc s) (xt_list_c fuel q e acc s).
Proof.
  induction fuel as [|fuel IH]; intros acc s; cbn [xt_list_l xt_list_c]; [apply (tracks_silent _ 0)|].
  apply tracks_pbind; [apply H|]. intros [a s']. destruct (Hd s') as (H1 & H2 & H3). rewrite H1.
  destruct (fst (e s')); [|apply tracks_eq; auto]. apply (tracks_after 0 0); auto. eapply tracks_less; [apply IH|lia].
Qed.

Lemma expression_tracks fuel s : tracks 6 (parse_expression_l alphabetic F fuel s) (parse_expression_c alphabetic F fuel s).
Proof.
  apply tracks_within, many1_tracks. intro r. apply not_before_tracks, (tracks_noting _ Ok), term_tracks.
Qed.
Lemma prod_rhs_tracks fuel s : 0 < fuel -> tracks 4 (prod_rhs_l alphabetic F fuel s) (prod_rhs_c alphabetic F fuel s).
Proof.
  intro Hf. apply tracks_within. destruct fuel as [|fuel]; [lia|].
  apply (xt_list_tracks 6 _ _ _ _ (expression_tracks (S fuel))). intro r. eapply tracks_less; [apply expression_next_tracks|lia].
Qed.
Lemma production_end_tracks s : tracks 0 (production_end_l alphabetic F s) (production_end_c alphabetic F s).
Proof.
  unfold production_end_l, production_end_c. destruct s as [|c s]; [eapply tracks_less; [apply tracks_silent|lia]|].
  destruct (f_start F) as [st|].
  - destruct (ws_tracks (c :: s)) as (H1 & H2 & H3). apply tracks_eq; [rewrite H1; reflexivity|exact H2|lia].
  - destruct (prod_lhs_tracks (c :: s)) as (H1 & H2 & H3). apply tracks_eq; [rewrite H1; reflexivity|exact H2|lia].
Qed.
Lemma production_tracks fuel s : 0 < fuel -> tracks 0 (parse_production_l alphabetic F fuel s) (parse_production_c alphabetic F fuel s).
Proof.
  intro Hf. apply tracks_within. apply tracks_pbind; [apply (tracks_noting _ Ok), prod_lhs_tracks|]. intros [l r].
  apply tracks_pbind; [eapply tracks_less; [apply prod_rhs_tracks; exact Hf|lia]|]. intros [es r'].
  destruct (production_end_tracks r') as (H1 & H2 & H3). apply tracks_eq; [rewrite H1; reflexivity|exact H2|exact H3].
Qed.
Lemma ws_first_tracks {A} (p : str -> noted A) q s : (forall r, tracks 0 (p r) (q r)) ->
  tracks 16 (after (snd (ws_l s)) (p (fst (ws_l s)))) (tick (snd (ws_c s)) (q (fst (ws_c s)))).
Proof.
  intro H. destruct (ws_tracks s) as (H1 & H2 & H3). apply (tracks_after 16 0); [exact H2|exact H3|]. rewrite H1. apply H.
Qed.
Lemma plain_grammar_tracks fuel s : 0 < fuel -> tracks 14 (plain_grammar_l alphabetic F fuel s) (plain_grammar_c alphabetic F fuel s).
Proof.
  intro Hf. apply tracks_within.
  apply (ws_first_tracks (fun r => pbind_l (parse_production_l alphabetic F fuel r) _) (fun r => pbind_c (parse_production_c alphabetic F fuel r) _)).
  intro r. apply tracks_pbind; [apply production_tracks; exact Hf|]. intros [first r']. apply tracks_pbind.
  - apply many1_tracks. intro r2. eapply tracks_less; [apply (ws_first_tracks (parse_production_l alphabetic F fuel))|lia].
    intro r3. apply production_tracks. exact Hf.
  - intros [rest r2]. apply (tracks_silent _ 0).
Qed.

Lemma bracketed_tracks a b p q s : (forall r, tracks 0 (p r) (q r)) -> tracks 6 (bracketed_l a b p s) (bracketed_c a b q s).
Proof.
  intro H. apply tracks_pbind; [apply (tracks_silent _ 1)|]. intros [_ r]. apply tracks_pbind; [apply H|]. intros [es r2].
  apply tracks_pbind; [eapply tracks_less; [apply (tracks_silent _ 1)|lia]|]. intros [_ r3].
  destruct (ws_tracks r3) as (H1 & H2 & H3). apply tracks_eq; [cbn [then_ws noting fst]; rewrite H1; reflexivity|exact H2|cbn [then_ws noting snd]; lia].
Qed.
Lemma rhs_of_tracks fuel p q s : (forall r, tracks 0 (p r) (q r)) -> tracks 0 (rhs_of_l F fuel p s) (rhs_of_c F fuel q s).
Proof.
  intro H. eapply tracks_less; [apply (xt_list_tracks 0)|lia].
  - intro r. apply many1_tracks. intro r'. apply not_before_tracks, H.
  - intro r. eapply tracks_less; [apply read_next_tracks|lia].
Qed.
Lemma read_terminal_tracks s : let y := terminal_c s in tracks 0 (read_terminal_l s) (option_map (fun x => (Simple (fst x), snd x)) (fst y), snd y).
Proof.
  unfold read_terminal_l, terminal_c, obind_l, obind_c. pose proof (quoted_tracks s) as (H1 & H2 & H3). rewrite H1. cbn zeta.
  destruct (fst (quoted_string_c s)) as [[a r]|]; cbn [fst snd tick option_map].
  - destruct (ws_tracks r) as (W1 & W2 & W3). apply tracks_eq; [cbn [then_ws noting fst]; rewrite W1; reflexivity|exact W2|].
    cbn [then_ws noting snd silent app] in *. lia.
  - apply tracks_eq; [reflexivity|constructor|]. cbn [silent snd List.length]. lia.
Qed.
Lemma read_nonterminal_tracks s : let y := nonterminal_c alphabetic F s in
  tracks 0 (read_nonterminal_l alphabetic F s) (option_map (fun x => (Simple (fst x), snd x)) (fst y), snd y).
Proof.
  unfold read_nonterminal_l, nonterminal_c, obind_l, obind_c. pose proof (name_tracks s) as (H1 & H2 & H3). rewrite H1. cbn zeta.
  destruct (fst (name_c alphabetic F s)) as [[a r]|]; cbn [fst snd tick option_map].
  - destruct (ws_tracks r) as (W1 & W2 & W3). apply tracks_eq; [cbn [then_ws noting fst]; rewrite W1; reflexivity|exact W2|].
    cbn [then_ws noting snd silent app] in *. lia.
  - apply tracks_eq; [reflexivity|constructor|]. cbn [silent snd List.length]. lia.
Qed.
Lemma read_term_tracks fuel : forall s, tracks 0 (read_term_l alphabetic F fuel s) (read_term_c alphabetic F fuel s).
Proof.
  induction fuel as [|fuel IH]; intro s; cbn [read_term_l read_term_c]; [apply (tracks_silent _ 0)|].
  destruct (read_terminal_tracks s) as (H1 & H2 & H3). destruct (read_terminal_l s) as [o l]. cbn [fst snd] in *. subst o.
  destruct (fst (terminal_c s)) as [[t r]|]; cbn [option_map fst snd]; [apply tracks_eq; auto|].
  apply (tracks_after 0 0); [exact H2|exact H3|]. clear H2 H3 l.
  destruct (read_nonterminal_tracks s) as (H1 & H2 & H3). destruct (read_nonterminal_l alphabetic F s) as [o l]. cbn [fst snd] in *. subst o.
  destruct (fst (nonterminal_c alphabetic F s)) as [[t r]|]; cbn [option_map fst snd]; [apply tracks_eq; auto|].
  apply (tracks_after 0 0); [exact H2|exact H3|]. clear H2 H3 l.
  assert (Hb : forall a b, tracks 6 (bracketed_l a b (rhs_of_l F fuel (read_term_l alphabetic F fuel)) s) (bracketed_c a b (rhs_of_c F fuel (read_term_c alphabetic F fuel)) s)).
  { intros a b. apply bracketed_tracks. intro r. apply rhs_of_tracks. exact IH. }
  destruct (Hb c_open c_close) as (H1 & H2 & H3).
  destruct (bracketed_l c_open c_close _ s) as [o l]. cbn [fst snd] in *. subst o.
  destruct (fst (bracketed_c c_open c_close _ s)) as [[[es r]|]| |]; [apply tracks_eq; auto; lia| |apply tracks_eq; auto; lia..].
  apply (tracks_after 0 0); [exact H2|lia|]. apply tracks_pbind; [eapply tracks_less; [apply Hb|lia]|]. intros [es r]. apply (tracks_silent _ 0).
Qed.
Lemma read_prod_lhs_tracks s : tracks 0 (read_prod_lhs_l alphabetic F s) (read_prod_lhs_c alphabetic F s).
Proof.
  apply tracks_obind; [eapply tracks_less; [apply name_tracks|lia]|]. intros [n r] _.
  eapply tracks_less; [apply (ws_first_tracks (fun r => obind_l (after_lhs_l F r) _) (fun r => obind_c (after_lhs_c F r) _))|lia].
  intro r'. apply tracks_obind; [apply after_lhs_tracks|]. intros r2 _. apply (tracks_silent _ 0).
Qed.
Lemma read_production_tracks fuel s : tracks 0 (read_production_l alphabetic F fuel s) (read_production_c alphabetic F fuel s).
Proof.
  apply tracks_pbind; [apply (tracks_noting _ Ok), read_prod_lhs_tracks|]. intros [l r].
  apply tracks_pbind; [apply rhs_of_tracks, read_term_tracks|]. intros [es r'].
  destruct r' as [|c r']; [eapply tracks_less; [apply (tracks_silent _ 1)|lia]|].
  destruct (read_prod_lhs_tracks (c :: r')) as (H1 & H2 & H3). apply tracks_eq; [rewrite H1; reflexivity|exact H2|lia].
Qed.
Lemma read_grammar_tracks fuel s : tracks 16 (read_grammar_l alphabetic F fuel s) (read_grammar_c alphabetic F fuel s).
Proof.
  apply (ws_first_tracks (fun r => many1_l fuel _ r) (fun r => many1_c fuel _ r)). intro r. apply many1_tracks. intro r'.
  eapply tracks_less; [apply (ws_first_tracks (read_production_l alphabetic F fuel))|lia]. intro r2. apply read_production_tracks.
Qed.

Lemma fuel_positive s : 0 < fuel_for s.
Proof. unfold fuel_for. lia. Qed.

Lemma grammar_complete_tracks s : let x := grammar_complete_l alphabetic F s in let y := grammar_complete_c alphabetic F s in
  fst x = finish (fst y) /\ nested (snd x) /\ List.length (snd x) <= 6 * snd y.
Proof.
  cbn zeta. unfold grammar_complete_l, grammar_complete_c. cbn zeta.
  destruct (read_grammar_tracks (fuel_for s) s) as (R1 & R2 & R3).
  destruct (plain_grammar_tracks (fuel_for s) s (fuel_positive s)) as (P1 & P2 & P3).
  cbn [within fst snd tick]. rewrite span_length. destruct (grammar_has_extended_syntax s).
  - cbn [noting fst snd]. rewrite R1. split; [|split; [apply nested_in; exact R2|lia]].
    destruct (all_consuming (fst (read_grammar_c alphabetic F (fuel_for s) s))) as [[g|]| |]; reflexivity.
  - rewrite P1. destruct (all_consuming (fst (plain_grammar_c alphabetic F (fuel_for s) s))) as [[g|]| |]; cbn [noting fst snd after tick];
      [split; [reflexivity|split; [apply nested_in; exact P2|lia]]| |split; [reflexivity|split; [apply nested_in; exact P2|lia]]..].
    rewrite R1. split; [|split; [apply nested_in, nested_app; assumption|rewrite app_length; lia]].
    destruct (all_consuming (fst (read_grammar_c alphabetic F (fuel_for s) s))) as [[g|]| |]; reflexivity.
Qed.
End Format.

(** ** Entry points *)

Section Entry.
Variable alphabetic : char -> bool.

Lemma format_l s : is_format_standard_bnf_l s = (is_format_standard_bnf s, blank "whitespace_plus_comments").
Proof. reflexivity. Qed.

Lemma from_str_same s : fst (grammar_from_str_l alphabetic s) = grammar_from_str alphabetic s.
Proof.
  unfold grammar_from_str_l. rewrite format_l. cbn [fst snd after noting]. unfold grammar_from_str.
  destruct (is_format_standard_bnf s); rewrite (proj1 (grammar_complete_tracks alphabetic _ s)), erase_grammar_complete; reflexivity.
Qed.
Lemma no_abnf_same s : fst (grammar_from_str_no_abnf_l alphabetic s) = grammar_from_str_no_abnf alphabetic s.
Proof.
  unfold grammar_from_str_no_abnf_l. cbn [fst noting]. rewrite (proj1 (grammar_complete_tracks alphabetic _ s)), erase_grammar_complete. reflexivity.
Qed.
Lemma parse_from_same F s : fst (grammar_parse_from_l alphabetic F s) = grammar_parse_from alphabetic F s.
Proof.
  unfold grammar_parse_from_l. cbn [fst noting]. rewrite (proj1 (grammar_complete_tracks alphabetic _ s)), erase_grammar_complete. reflexivity.
Qed.
Lemma term_same s : fst (term_from_str_l alphabetic s) = term_from_str alphabetic s.
Proof. unfold term_from_str_l. cbn [fst noting]. rewrite (proj1 (term_tracks alphabetic BNF s)), erase_parse_term. reflexivity. Qed.
Lemma expression_same s : fst (expression_from_str_l alphabetic s) = expression_from_str alphabetic s.
Proof. unfold expression_from_str_l. cbn [fst noting]. rewrite (proj1 (expression_tracks alphabetic BNF _ s)), erase_parse_expression. reflexivity. Qed.
Lemma production_same s : fst (production_from_str_l alphabetic s) = production_from_str alphabetic s.
Proof.
  unfold production_from_str_l. cbn [fst noting]. rewrite (proj1 (production_tracks alphabetic BNF _ s (fuel_positive s))), erase_parse_production. reflexivity.
Qed.
Lemma build_same ho g : fst (build_parser_l ho g) = build_parser ho g.
Proof. unfold build_parser_l, build_parser. cbn [fst within]. destruct (starting_term g); reflexivity. Qed.
End Entry.
