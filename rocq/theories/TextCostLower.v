(** Every character of an accepted text is looked at: lower bounds for the counts of TextCost.v. *)
From Verif Require Import TextCost.

(** What a parser takes off the text is no more than what it looks at. *)
Definition covers {A} (rest : A -> str) (s : str) (x : counted (option A)) : Prop :=
  forall a, fst x = Some a -> length s <= length (rest a) + snd x.
Definition pcovers {A} (s : str) (x : counted (pres A)) : Prop :=
  forall a s', fst x = Ok (Some (a, s')) -> length s <= length s' + snd x.

Lemma covers_bind {A B} (r1 : A -> str) (r2 : B -> str) s x f :
  covers r1 s x -> (forall a, covers r2 (r1 a) (f a)) -> covers r2 s (obind_c x f).
Proof.
  intros H1 H2 b. unfold obind_c. destruct x as [[a|] n]; cbn [fst snd tick]; [|discriminate]. intro E. specialize (H1 a eq_refl). cbn [snd] in H1.
  specialize (H2 a b E). lia.
Qed.
Lemma covers_tick {A} (r : A -> str) n s s' x : length s <= length s' + n -> covers r s' x -> covers r s (tick n x).
Proof. intros H1 H2 a E. cbn [fst snd tick] in *. specialize (H2 a E). lia. Qed.
Lemma covers_or {A} (r : A -> str) s x y : covers r s x -> covers r s y -> covers r s (or_c x y).
Proof.
  intros H1 H2. unfold or_c. destruct x as [[a|] n]; cbn [fst snd]; [exact H1|]. apply (covers_tick r n s s); [lia|assumption].
Qed.
Lemma covers_some {A} (r : A -> str) a n : covers r (r a) (Some a, n).
Proof. intros b [= <-]. cbn. lia. Qed.
Lemma pcovers_bind {A B} s (x : counted (pres A)) (f : A * str -> counted (pres B)) :
  pcovers s x -> (forall a s', pcovers s' (f (a, s'))) -> pcovers s (pbind_c x f).
Proof.
  intros H1 H2 b s2. unfold pbind_c. destruct x as [[[[a s1]|]| |] n]; cbn [fst snd tick]; try discriminate. intro E.
  specialize (H1 a s1 eq_refl). cbn [snd] in H1. specialize (H2 a s1 b s2 E). lia.
Qed.
Lemma pcovers_tick {A} n s s' (x : counted (pres A)) : length s <= length s' + n -> pcovers s' x -> pcovers s (tick n x).
Proof. intros H1 H2 a r E. cbn [fst snd tick] in *. specialize (H2 a r E). lia. Qed.
Lemma pcovers_ok {A} s (x : counted (option (A * str))) : covers snd s x -> pcovers s (ok_c x).
Proof. intros H a r E. cbn [fst snd ok_c] in *. injection E as E. exact (H (a, r) E). Qed.

Lemma char_covers c s : covers id s (char_c c s).
Proof. intros a. unfold char_c, p_char, id. cbn [fst snd]. destruct s as [|d s]; [discriminate|]. destruct (N.eqb d c) eqn:E || destruct (N.eqb c d); intros [= <-]; cbn; lia. Qed.
Lemma tag_covers t s : covers id s (tag_c t s).
Proof.
  intros a. unfold tag_c, id. cbn [fst snd]. revert s. induction t as [|x t IH]; intros s E; cbn [p_tag] in E; [injection E as <-; lia|].
  destruct s as [|y s]; [discriminate|]. destruct (N.eqb x y); [|discriminate]. apply IH in E. cbn [length]. lia.
Qed.
Lemma take_till_length f s : length s = length (fst (take_till f s)) + length (snd (take_till f s)).
Proof.
  induction s as [|c s IH]; [reflexivity|]. cbn [take_till]. destruct (f c); [reflexivity|].
  destruct (take_till f s) as [a b]. cbn [fst snd length] in *. lia.
Qed.
Lemma take_until_covers q s : covers snd s (take_until_c q s).
Proof.
  intros [a b]. unfold take_until_c. cbn [fst snd]. intro E. rewrite E. revert a b E. induction s as [|c s IH]; intros a b E; [discriminate|].
  cbn [take_until] in E. destruct (N.eqb c q); [injection E as <- <-; cbn; lia|]. destruct (take_until q s) as [[a1 b1]|]; [|discriminate].
  injection E as <- <-. specialize (IH a1 b1 eq_refl). cbn [length] in *. lia.
Qed.
Lemma skip_covers s : forall b, length s <= length (skip b s) + skip_count b s.
Proof.
  induction s as [|c s IH]; intros [|]; cbn [skip skip_count length]; try lia.
  - destruct (N.eqb c c_cr || N.eqb c c_lf); cbn [negb]; [specialize (IH false)|specialize (IH true)]; lia.
  - destruct (is_whitespace c); [specialize (IH false); lia|]. destruct (N.eqb c c_semi); [specialize (IH true); lia|]. cbn [length]. lia.
Qed.
Lemma ws_covers s : length s <= length (fst (ws_c s)) + snd (ws_c s).
Proof. apply skip_covers. Qed.

Lemma quoted_covers q s : covers snd s (quoted_c q s).
Proof.
  unfold quoted_c. eapply covers_bind; [apply char_covers|]. intro s1. eapply covers_bind; [apply take_until_covers|]. intros [a s2].
  eapply covers_bind; [apply char_covers|]. intro s3. apply (covers_some snd (a, s3)).
Qed.
Lemma terminal_covers s : covers snd s (terminal_c s).
Proof.
  unfold terminal_c. eapply covers_bind; [apply covers_or; apply quoted_covers|]. intros [a s1]. eapply covers_tick; [apply ws_covers|].
  apply (covers_some snd (Terminal a, fst (ws_c s1))).
Qed.

Section Lower.
Variable alphabetic : char -> bool.
Variable F : format.

Lemma name_covers s : covers snd s (name_c alphabetic F s).
Proof.
  unfold name_c. destruct (f_delimiter F) as [[start end_]|].
  - eapply covers_bind; [apply char_covers|]. intro s1. apply (covers_tick _ _ _ (snd (take_till (fun c => N.eqb c end_) s1))).
    + cbn [fst snd take_till_c]. pose proof (take_till_length (fun c => N.eqb c end_) s1). unfold id, str, char in *. lia.
    + eapply covers_bind; [apply char_covers|]. intro s2. apply (covers_some snd (_, s2)).
  - destruct s as [|c s]; [intros a; discriminate|]. destruct (alphabetic c); [|intros a; discriminate]. intros a E. cbn [fst snd take_till_c] in *.
    pose proof (take_till_length (fun c0 => is_whitespace c0 || N.eqb c0 c_close || N.eqb c0 c_rbrack) (c :: s)) as H.
    remember (take_till (fun c0 => is_whitespace c0 || N.eqb c0 c_close || N.eqb c0 c_rbrack) (c :: s)) as x. assert (a = x) as -> by congruence.
    unfold str, char in *. lia.
Qed.
Lemma nonterminal_covers s : covers snd s (nonterminal_c alphabetic F s).
Proof.
  unfold nonterminal_c. eapply covers_bind; [apply name_covers|]. intros [n s1]. eapply covers_tick; [apply ws_covers|].
  apply (covers_some snd (Nonterminal n, fst (ws_c s1))).
Qed.
Lemma after_lhs_covers s : covers id s (after_lhs_c F s).
Proof.
  unfold after_lhs_c. eapply covers_bind; [apply tag_covers|]. intros s1 a E.
  assert (Hl : length s1 <= S (length (match p_char (f_alternative F) s1 with Some s => s | None => s1 end))).
  { pose proof (char_covers (f_alternative F) s1) as Hc. unfold covers, char_c in Hc. cbn [fst snd] in Hc. destruct (p_char (f_alternative F) s1) as [s2|]; [specialize (Hc s2 eq_refl); unfold id in Hc; lia|lia]. }
  cbv zeta in E |- *. remember (match p_char (f_alternative F) s1 with Some s => s | None => s1 end) as s2.
  pose proof (ws_covers s2) as H. remember (ws_c s2) as w. cbn [fst snd] in E |- *. assert (a = fst w) as -> by congruence. unfold id, str, char in *. rewrite <- Heqs2 in Hl. lia.
Qed.
Lemma prod_lhs_covers s : covers snd s (prod_lhs_c alphabetic F s).
Proof.
  unfold prod_lhs_c. eapply covers_bind; [apply nonterminal_covers|]. intros [n s1]. eapply covers_bind; [apply after_lhs_covers|].
  intro s2. apply (covers_some snd (n, s2)).
Qed.
Lemma parse_term_covers s : covers snd s (parse_term_c alphabetic F s).
Proof. apply covers_or; [apply terminal_covers|apply nonterminal_covers]. Qed.
Lemma expression_next_covers s : covers id s (expression_next_c F s).
Proof.
  unfold expression_next_c. eapply covers_bind; [apply char_covers|]. intro s1. eapply covers_tick; [apply ws_covers|]. apply (covers_some id).
Qed.
Lemma not_before_separator_covers {A} s (x : counted (pres A)) : pcovers s x -> pcovers s (not_before_separator_c F x).
Proof.
  intro H. unfold not_before_separator_c. apply pcovers_bind; [exact H|]. intros a s1 b s2. destruct (p_tag (f_separator F) s1); cbn [fst snd]; [discriminate|].
  intros [= <- <-]. lia.
Qed.

Lemma many1_loop_covers {A} (p : str -> counted (pres A)) : (forall s, pcovers s (p s)) -> forall fuel acc s, pcovers s (many1_loop_c fuel p acc s).
Proof.
  intro Hp. induction fuel as [|fuel IH]; intros acc s; cbn [many1_loop_c]; [intros a r; discriminate|].
  specialize (Hp s). destruct (p s) as [[[[a s1]|]| |] n]; cbn [fst snd] in *.
  - destruct (Nat.eqb (byte_len s1) (byte_len s)); [intros b r; discriminate|]. eapply pcovers_tick; [exact (Hp a s1 eq_refl)|apply IH].
  - intros b r E. cbn [fst snd] in *. injection E as <- <-. lia.
  - intros b r; discriminate.
  - intros b r; discriminate.
Qed.
Lemma many1_covers {A} (p : str -> counted (pres A)) : (forall s, pcovers s (p s)) -> forall fuel s, pcovers s (many1_c fuel p s).
Proof. intros Hp fuel s. unfold many1_c. apply pcovers_bind; [apply Hp|]. intros a s1. apply many1_loop_covers, Hp. Qed.
Lemma xt_list_covers {A} (p : str -> counted (pres A)) d : (forall s, pcovers s (p s)) -> (forall s, covers id s (d s)) ->
  forall fuel acc s, pcovers s (xt_list_c fuel p d acc s).
Proof.
  intros Hp Hd. induction fuel as [|fuel IH]; intros acc s; cbn [xt_list_c]; [intros a r; discriminate|].
  apply pcovers_bind; [apply Hp|]. intros a s1. specialize (Hd s1). destruct (d s1) as [[s2|] n]; cbn [fst snd].
  - eapply pcovers_tick; [exact (Hd s2 eq_refl)|apply IH].
  - intros b r E. cbn [fst snd] in *. injection E as <- <-. lia.
Qed.

Lemma parse_expression_covers fuel s : pcovers s (parse_expression_c alphabetic F fuel s).
Proof. apply many1_covers. intro r. apply not_before_separator_covers, pcovers_ok, parse_term_covers. Qed.
Lemma parse_production_covers fuel s : pcovers s (parse_production_c alphabetic F fuel s).
Proof.
  unfold parse_production_c. apply pcovers_bind; [apply pcovers_ok, prod_lhs_covers|]. intros l s1.
  apply pcovers_bind; [apply xt_list_covers; [apply parse_expression_covers|apply expression_next_covers]|]. intros rhs s2 a r E. cbn [fst snd] in *.
  destruct (fst (production_end_c alphabetic F s2)); [|discriminate]. injection E as <- <-. lia.
Qed.
Lemma plain_grammar_covers fuel s : pcovers s (plain_grammar_c alphabetic F fuel s).
Proof.
  unfold plain_grammar_c. eapply pcovers_tick; [apply ws_covers|]. apply pcovers_bind; [apply parse_production_covers|]. intros p s1.
  apply pcovers_bind; [apply many1_covers; intro r; eapply pcovers_tick; [apply ws_covers|apply parse_production_covers]|].
  intros ps s2 a r E. cbn [fst snd] in *. injection E as <- <-. lia.
Qed.

Lemma p_char_covers a s : pcovers s (Ok (option_map (pair tt) (p_char a s)), 1).
Proof.
  intros u r E. cbn [fst snd] in *. pose proof (char_covers a s) as H. unfold covers, char_c in H. cbn [fst snd] in H.
  destruct (p_char a s) as [s1|]; [|discriminate]. cbn [option_map] in E. injection E as <- <-. exact (H s1 eq_refl).
Qed.
Lemma bracketed_covers a b inner s : (forall r, pcovers r (inner r)) -> pcovers s (bracketed_c a b inner s).
Proof.
  intro H. unfold bracketed_c. apply pcovers_bind; [apply p_char_covers|]. intros _ s1. apply pcovers_bind; [apply H|]. intros es s2.
  apply pcovers_bind; [apply p_char_covers|]. intros _ s3 x r E. cbn [fst snd] in E |- *. injection E as <- <-. apply ws_covers.
Qed.
Lemma rhs_of_covers p fuel s : (forall r, pcovers r (p r)) -> pcovers s (rhs_of_c F fuel p s).
Proof.
  intro H. apply xt_list_covers; [|apply expression_next_covers]. intro r. apply many1_covers. intro r'. apply not_before_separator_covers, H.
Qed.
Lemma read_term_covers fuel : forall s, pcovers s (read_term_c alphabetic F fuel s).
Proof.
  induction fuel as [|fuel IH]; intro s; cbn [read_term_c]; [intros a r; discriminate|].
  pose proof (terminal_covers s) as Ht. destruct (terminal_c s) as [[[t s1]|] n]; cbn [fst snd].
  { intros a r E. cbn [fst snd] in *. injection E as <- <-. exact (Ht (t, s1) eq_refl). }
  eapply pcovers_tick; [|]. { instantiate (1 := s). lia. }
  pose proof (nonterminal_covers s) as Hn. destruct (nonterminal_c alphabetic F s) as [[[t s1]|] m]; cbn [fst snd].
  { intros a r E. cbn [fst snd] in *. injection E as <- <-. exact (Hn (t, s1) eq_refl). }
  eapply pcovers_tick; [|]. { instantiate (1 := s). lia. }
  assert (Hg : forall a b, pcovers s (bracketed_c a b (rhs_of_c F fuel (read_term_c alphabetic F fuel)) s)) by (intros; apply bracketed_covers; intro; apply rhs_of_covers, IH).
  pose proof (Hg c_open c_close) as Ho. destruct (bracketed_c c_open c_close (rhs_of_c F fuel (read_term_c alphabetic F fuel)) s) as [[[[es s1]|]| |] k]; cbn [fst snd].
  - intros a r E. cbn [fst snd] in *. injection E as <- <-. exact (Ho es s1 eq_refl).
  - eapply pcovers_tick; [|]. { instantiate (1 := s). lia. }
    apply pcovers_bind; [apply Hg|]. intros es s1 a r E. cbn [fst snd] in *. injection E as <- <-. lia.
  - intros a r; discriminate.
  - intros a r; discriminate.
Qed.
Lemma read_prod_lhs_covers s : covers snd s (read_prod_lhs_c alphabetic F s).
Proof.
  unfold read_prod_lhs_c. eapply covers_bind; [apply name_covers|]. intros [n s1]. eapply covers_tick; [apply ws_covers|].
  eapply covers_bind; [apply after_lhs_covers|]. intro s2. apply (covers_some snd (n, s2)).
Qed.
Lemma read_production_covers fuel s : pcovers s (read_production_c alphabetic F fuel s).
Proof.
  unfold read_production_c. apply pcovers_bind; [apply pcovers_ok, read_prod_lhs_covers|]. intros l s1.
  apply pcovers_bind; [apply rhs_of_covers, read_term_covers|]. intros rhs s2 a r. destruct s2 as [|c s2]; cbn [fst snd].
  - intros [= <- <-]. cbn. lia.
  - destruct (fst (read_prod_lhs_c alphabetic F (c :: s2))); [|discriminate]. intros [= <- <-]. lia.
Qed.
Lemma read_grammar_covers fuel s : pcovers s (read_grammar_c alphabetic F fuel s).
Proof.
  unfold read_grammar_c. eapply pcovers_tick; [apply ws_covers|]. apply many1_covers. intro r. eapply pcovers_tick; [apply ws_covers|apply read_production_covers].
Qed.
End Lower.

Lemma all_consuming_covers {A} s (x : counted (pres A)) a : pcovers s x -> all_consuming (fst x) = Ok (Some a) -> length s <= snd x.
Proof.
  intros H E. unfold all_consuming in E. destruct x as [[[[b [|c r]]|]| |] n]; cbn [fst snd] in *; try discriminate. specialize (H b [] eq_refl). cbn in H. exact H.
Qed.

Lemma grammar_complete_lower alphabetic F s g : fst (grammar_complete_c alphabetic F s) = Ok (Some g) ->
  4 * length s <= snd (grammar_complete_c alphabetic F s).
Proof.
  unfold grammar_complete_c, extended_count. cbn [tick fst snd].
  assert (He : forall x : counted (res (option (grammar + parsed_grammar))),
    x = (match all_consuming (fst (read_grammar_c alphabetic F (fuel_for s) s)) with
         | Ok (Some g) => Ok (Some (inr g)) | Ok None => Ok None | Panic => Panic | OutOfFuel => OutOfFuel end,
         1 + snd (read_grammar_c alphabetic F (fuel_for s) s)) -> fst x = Ok (Some g) -> length s <= snd x).
  { intros x -> E. cbn [fst snd] in *. destruct (all_consuming (fst (read_grammar_c alphabetic F (fuel_for s) s))) as [[pg|]| |] eqn:E1; try discriminate.
    apply (all_consuming_covers s) in E1; [lia|apply read_grammar_covers]. }
  destruct (grammar_has_extended_syntax s).
  - intro E. apply (He _ eq_refl) in E. cbn [fst snd] in *. lia.
  - destruct (all_consuming (fst (plain_grammar_c alphabetic F (fuel_for s) s))) as [[pg|]| |] eqn:E1; cbn [fst snd tick].
    + intros _. apply (all_consuming_covers s) in E1; [lia|apply plain_grammar_covers].
    + intro E. apply (He _ eq_refl) in E. cbn [fst snd] in *. lia.
    + discriminate.
    + discriminate.
Qed.

Lemma lower_bounds : forall alphabetic s,
  (forall t, fst (term_from_str_c alphabetic s) = Ok (Some t) -> length s < snd (term_from_str_c alphabetic s)) /\
  (forall e, fst (expression_from_str_c alphabetic s) = Ok (Some e) -> length s < snd (expression_from_str_c alphabetic s)) /\
  (forall p, fst (production_from_str_c alphabetic s) = Ok (Some p) -> length s < snd (production_from_str_c alphabetic s)) /\
  (forall F g, fst (grammar_complete_c alphabetic F s) = Ok (Some g) -> 4 * length s <= snd (grammar_complete_c alphabetic F s)) /\
  (forall g, fst (grammar_from_str_c alphabetic s) = Ok (Some g) -> 4 * length s < snd (grammar_from_str_c alphabetic s)).
Proof.
  intros alphabetic s. split; [|split; [|split; [|split]]].
  - intros t E. unfold term_from_str_c in *. cbn [fst snd] in *. apply (all_consuming_covers s (ok_c (parse_term_c alphabetic BNF s))) in E; [exact (le_n_S _ _ E)|]. apply pcovers_ok, parse_term_covers.
  - intros e E. unfold expression_from_str_c in *. cbn [fst snd] in *. apply (all_consuming_covers s) in E; [lia|]. apply parse_expression_covers.
  - intros p E. unfold production_from_str_c in *. cbn [fst snd] in *. apply (all_consuming_covers s) in E; [lia|]. apply parse_production_covers.
  - intros F g. apply grammar_complete_lower.
  - intro g. unfold grammar_from_str_c. cbn [tick fst snd]. destruct (is_format_standard_bnf s); intro E; apply grammar_complete_lower in E; lia.
Qed.

(** Quotes and angle brackets that are not closed: the rest of the text is searched. *)
Lemma take_until_none q x : ~ In q x -> take_until q x = None.
Proof.
  induction x as [|c x IH]; intro H; [reflexivity|]. cbn [take_until]. destruct (N.eqb c q) eqn:E.
  - apply N.eqb_eq in E. exfalso. apply H. left. assumption.
  - rewrite IH; [reflexivity|]. intro Hx. apply H. right. assumption.
Qed.
Lemma take_till_none f x : (forall c, In c x -> f c = false) -> take_till f x = (x, []).
Proof.
  induction x as [|c x IH]; intro H; [reflexivity|]. cbn [take_till]. rewrite (H c) by (left; reflexivity).
  rewrite IH; [reflexivity|]. intros d Hd. apply H. right. assumption.
Qed.

Lemma unclosed : forall alphabetic x,
  (forall q, q = squote \/ q = dquote -> ~ In q x -> term_from_str_c alphabetic (q :: x) = (Ok None, length x + 4)) /\
  (~ In c_gt x -> term_from_str_c alphabetic (c_lt :: x) = (Ok None, length x + 6)).
Proof.
  intros alphabetic x. split.
  - intros q Hq H. pose proof (take_until_none q x H) as E. unfold term_from_str_c, parse_term_c, terminal_c, quoted_string_c, quoted_c, take_until_c.
    destruct Hq as [-> | ->]; cbn; rewrite E; cbn; f_equal; lia.
  - intro H. assert (E : take_till (fun c => N.eqb c c_gt) x = (x, [])).
    { apply take_till_none. intros c Hc. apply N.eqb_neq. congruence. }
    unfold term_from_str_c, parse_term_c, nonterminal_c, name_c, take_till_c. cbn. fold c_gt. rewrite E. cbn. f_equal. lia.
Qed.
