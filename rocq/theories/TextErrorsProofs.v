(** The errors of the text parsers: agreement with Text.v, position and kind. *)
From Verif Require Export TextErrors.
From Coq Require String.
Import String.StringSyntax.

(** ** Forgetting the content of errors *)

Definition forget {A} (x : parsed A) : option A := match x with Yields a => Some a | Fails _ => None end.
Definition forget_res {A} (x : res (parsed A)) : res (option A) :=
  match x with Ok y => Ok (forget y) | Panic => Panic | OutOfFuel => OutOfFuel end.

Lemma forget_or_fail {A} (o : option A) s k : forget (or_fail o s k) = o.
Proof. destruct o; reflexivity. Qed.
Lemma forget_bind {A B} (x : parsed A) (f : A -> parsed B) : forget (ebind x f) = obind (forget x) (fun a => forget (f a)).
Proof. destruct x; reflexivity. Qed.
Lemma forget_resbind {A B} (x : eres A) (f : A * str -> eres B) : forget_res (eresbind x f) = pbind (forget_res x) (fun a => forget_res (f a)).
Proof. destruct x as [[e|y]| |]; reflexivity. Qed.
Lemma obind_ext {A B} (x : option A) (f g : A -> option B) : (forall a, f a = g a) -> obind x f = obind x g.
Proof. intro H. destruct x; cbn; auto. Qed.
Lemma pbind_ext {A B} (x : pres A) (f g : A * str -> pres B) : (forall a, f a = g a) -> pbind x f = pbind x g.
Proof. intro H. destruct x as [[y|]| |]; cbn; auto. Qed.

Lemma forget_many1_loop {A} fuel (p : str -> eres A) p' : (forall s, forget_res (p s) = p' s) ->
  forall acc s, forget_res (e_many1_loop fuel p acc s) = many1_loop fuel p' acc s.
Proof.
  intro H. induction fuel as [|fuel IH]; intros acc s; [reflexivity|]. cbn [e_many1_loop many1_loop]. rewrite <- H.
  destruct (p s) as [[e|[a s']]| |]; try reflexivity. cbn [forget_res forget].
  destruct (Nat.eqb _ _); [reflexivity|apply IH].
Qed.
Lemma forget_many1 {A} fuel (p : str -> eres A) p' : (forall s, forget_res (p s) = p' s) ->
  forall s, forget_res (e_many1 fuel p s) = many1 fuel p' s.
Proof.
  intros H s. unfold e_many1, many1. rewrite forget_resbind, H. apply pbind_ext. intros [a r].
  apply forget_many1_loop. assumption.
Qed.
Lemma forget_xt_list {A} fuel (p : str -> eres A) p' d d' : (forall s, forget_res (p s) = p' s) -> (forall s, forget (d s) = d' s) ->
  forall acc s, forget_res (e_xt_list fuel p d acc s) = xt_list fuel p' d' acc s.
Proof.
  intros H Hd. induction fuel as [|fuel IH]; intros acc s; [reflexivity|]. cbn [e_xt_list xt_list].
  rewrite forget_resbind, H. apply pbind_ext. intros [a r]. rewrite <- Hd. destruct (d r); cbn [forget]; [reflexivity|apply IH].
Qed.
Lemma forget_all_consuming {A} (x : eres A) : forget_res (e_all_consuming x) = all_consuming (forget_res x).
Proof. destruct x as [[e|[a [|c r]]]| |]; reflexivity. Qed.

Lemma forget_char c s : forget (e_char c s) = p_char c s.
Proof. apply forget_or_fail. Qed.
Lemma forget_quoted q s : forget (e_quoted q s) = quoted q s.
Proof.
  unfold e_quoted, quoted. rewrite forget_bind, forget_char. apply obind_ext. intro s1.
  rewrite forget_bind. unfold e_take_until. rewrite forget_or_fail. apply obind_ext. intros [a s2].
  rewrite forget_bind, forget_char. reflexivity.
Qed.
Lemma forget_terminal s : forget (e_terminal s) = terminal s.
Proof.
  unfold e_terminal, terminal. rewrite forget_bind.
  assert (E : forget (match e_quoted dquote s with Yields x => Yields x | Fails _ => e_quoted squote s end) = quoted_string s).
  { unfold quoted_string. rewrite <- !forget_quoted. destruct (e_quoted dquote s); reflexivity. }
  rewrite E. apply obind_ext. intros [a r]. reflexivity.
Qed.

Section Any.
Variable alphabetic : char -> bool.
Variable F : format.

Lemma forget_name s : forget (e_name alphabetic F s) = name alphabetic F s.
Proof.
  unfold e_name. destruct (f_delimiter F) as [[a b]|] eqn:E; [|apply forget_or_fail].
  unfold name. rewrite E, forget_bind, forget_char. apply obind_ext. intro s1.
  destruct (take_till _ s1) as [n s2]. rewrite forget_bind, forget_char. reflexivity.
Qed.
Lemma forget_nonterminal s : forget (e_nonterminal alphabetic F s) = nonterminal alphabetic F s.
Proof. unfold e_nonterminal, nonterminal. rewrite forget_bind, forget_name. apply obind_ext. intros [n r]. reflexivity. Qed.
Lemma forget_after_lhs s : forget (e_after_lhs F s) = after_lhs F s.
Proof. unfold e_after_lhs, after_lhs, e_tag. rewrite forget_bind, forget_or_fail. reflexivity. Qed.
Lemma forget_prod_lhs s : forget (e_prod_lhs alphabetic F s) = prod_lhs alphabetic F s.
Proof.
  unfold e_prod_lhs, prod_lhs. rewrite forget_bind, forget_nonterminal. apply obind_ext. intros [n r].
  rewrite forget_bind, forget_after_lhs. reflexivity.
Qed.
Lemma forget_read_prod_lhs s : forget (e_read_prod_lhs alphabetic F s) = read_prod_lhs alphabetic F s.
Proof.
  unfold e_read_prod_lhs, read_prod_lhs. rewrite forget_bind, forget_name. apply obind_ext. intros [n r].
  rewrite forget_bind, forget_after_lhs. reflexivity.
Qed.
Lemma forget_term s : forget (e_term alphabetic F s) = parse_term alphabetic F s.
Proof.
  unfold e_term, parse_term. rewrite <- forget_terminal, <- forget_nonterminal. destruct (e_terminal s); reflexivity.
Qed.
Lemma forget_expression_next s : forget (e_expression_next F s) = expression_next F s.
Proof. unfold e_expression_next, expression_next. rewrite forget_bind, forget_char. reflexivity. Qed.
Lemma forget_nbs {A} (x : eres A) : forget_res (e_not_before_separator F x) = not_before_separator F (forget_res x).
Proof.
  unfold e_not_before_separator, not_before_separator. rewrite forget_resbind. apply pbind_ext. intros [a r].
  destruct (p_tag _ r); reflexivity.
Qed.
Lemma forget_expression fuel s : forget_res (e_expression alphabetic F fuel s) = parse_expression alphabetic F fuel s.
Proof. apply forget_many1. intro r. rewrite forget_nbs. cbn [forget_res]. rewrite forget_term. reflexivity. Qed.
Lemma forget_prod_rhs fuel s : forget_res (e_prod_rhs alphabetic F fuel s) = prod_rhs alphabetic F fuel s.
Proof. apply forget_xt_list; [apply forget_expression|apply forget_expression_next]. Qed.
Lemma forget_production_end s :
  match e_production_end alphabetic F s with Yields _ => production_end alphabetic F s = true | Fails _ => production_end alphabetic F s = false end.
Proof.
  unfold e_production_end, production_end. destruct s as [|c s]; [reflexivity|]. destruct (f_start F) as [a|].
  - rewrite <- forget_char. destruct (e_char a _); reflexivity.
  - rewrite <- forget_prod_lhs. destruct (e_prod_lhs _ _ _); reflexivity.
Qed.
Lemma forget_production fuel s : forget_res (e_production alphabetic F fuel s) = parse_production alphabetic F fuel s.
Proof.
  unfold e_production, parse_production. rewrite forget_resbind. cbn [forget_res]. rewrite forget_prod_lhs.
  apply pbind_ext. intros [lhs r]. rewrite forget_resbind, forget_prod_rhs. apply pbind_ext. intros [rhs r'].
  pose proof (forget_production_end r') as H. destruct (e_production_end _ _ r'); rewrite H; reflexivity.
Qed.

Lemma forget_rhs_of fuel p p' : (forall s, forget_res (p s) = p' s) -> forall s, forget_res (e_rhs_of F fuel p s) = rhs_of F fuel p' s.
Proof.
  intros H s. apply forget_xt_list; [|apply forget_expression_next]. intro r. apply forget_many1. intro r'.
  rewrite forget_nbs, H. reflexivity.
Qed.
Lemma forget_bracketed a b p p' : (forall s, forget_res (p s) = p' s) -> forall s, forget_res (e_bracketed a b p s) = bracketed a b p' s.
Proof.
  assert (Hc : forall c s, forget_res (Ok (let! s := e_char c s in Yields (tt, s))) = Ok (option_map (pair tt) (p_char c s))).
  { intros c s. cbn [forget_res]. rewrite forget_bind, forget_char. destruct (p_char c s); reflexivity. }
  intros H s. unfold e_bracketed, bracketed. rewrite forget_resbind, Hc. apply pbind_ext. intros [[] r].
  rewrite forget_resbind, H. apply pbind_ext. intros [es r']. rewrite forget_resbind, Hc. apply pbind_ext. intros [[] r'']. reflexivity.
Qed.
Lemma forget_read_term fuel : forall s, forget_res (e_read_term alphabetic F fuel s) = read_term alphabetic F fuel s.
Proof.
  induction fuel as [|fuel IH]; intro s; [reflexivity|]. cbn [e_read_term read_term].
  rewrite <- forget_terminal. destruct (e_terminal s) as [e1|[t r]]; [|reflexivity]. cbn [forget].
  rewrite <- forget_nonterminal. destruct (e_nonterminal _ _ s) as [e2|[t r]]; [|reflexivity]. cbn [forget].
  pose proof (forget_rhs_of fuel _ _ IH) as Hr.
  rewrite <- (forget_bracketed c_open c_close _ _ Hr).
  destruct (e_bracketed c_open c_close _ s) as [[e3|[es r]]| |]; try reflexivity. cbn [forget_res forget].
  rewrite forget_resbind, (forget_bracketed c_lbrack c_rbrack _ _ Hr). apply pbind_ext. intros [es r]. reflexivity.
Qed.
Lemma forget_read_production fuel s : forget_res (e_read_production alphabetic F fuel s) = read_production alphabetic F fuel s.
Proof.
  unfold e_read_production, read_production. rewrite forget_resbind. cbn [forget_res]. rewrite forget_read_prod_lhs.
  apply pbind_ext. intros [lhs r]. rewrite forget_resbind, (forget_rhs_of _ _ _ (forget_read_term fuel)). apply pbind_ext. intros [rhs r'].
  destruct r' as [|c r']; [reflexivity|]. rewrite <- forget_read_prod_lhs. destruct (e_read_prod_lhs _ _ _); reflexivity.
Qed.
Lemma forget_read_grammar fuel s : forget_res (e_read_grammar alphabetic F fuel s) = read_grammar alphabetic F fuel s.
Proof. apply forget_many1. intro r. apply forget_read_production. Qed.
Lemma forget_parsed_grammar_complete s : forget_res (e_parsed_grammar_complete alphabetic F s) = parsed_grammar_complete alphabetic F s.
Proof. unfold e_parsed_grammar_complete. rewrite forget_all_consuming, forget_read_grammar. reflexivity. Qed.
Lemma forget_grammar_complete s : forget_res (e_grammar_complete alphabetic F s) = grammar_complete alphabetic F s.
Proof.
  unfold e_grammar_complete, grammar_complete. rewrite <- forget_parsed_grammar_complete.
  assert (E : forget_res (let* o := e_parsed_grammar_complete alphabetic F s in
      match o with Yields pg => let* g := normalize_parsed_grammar pg in Ok (Yields g) | Fails e => Ok (Fails e) end) =
    let* o := forget_res (e_parsed_grammar_complete alphabetic F s) in
      match o with Some pg => let* g := normalize_parsed_grammar pg in Ok (Some g) | None => Ok None end).
  { destruct (e_parsed_grammar_complete alphabetic F s) as [[e|pg]| |]; try reflexivity. cbn.
    destruct (normalize_parsed_grammar pg); reflexivity. }
  destruct (grammar_has_extended_syntax s); [exact E|].
  destruct (all_consuming _) as [[g|]| |]; try reflexivity. exact E.
Qed.
End Any.

(** ** Position and kind *)

Lemma forget_yields {A} (x : res (parsed A)) y a : forget_res x = y -> x = Ok (Yields a) -> y = Ok (Some a).
Proof. intros <- ->. reflexivity. Qed.
Lemma forget_yields1 {A} (x : parsed A) y a : forget x = y -> x = Yields a -> y = Some a.
Proof. intros <- ->. reflexivity. Qed.
Lemma forget_fails {A} (x : res (parsed A)) : forget_res x = Ok None <-> exists e, x = Ok (Fails e).
Proof. destruct x as [[e|a]| |]; cbn; split; intro H; try discriminate; eauto; destruct H; discriminate. Qed.

Section Notation.
Variable alphabetic : char -> bool.
Hypothesis Halpha : alphabetic_ok alphabetic.
Variable Nt : notation.
Notation F := (format_of Nt).
Notation ws := whitespace_plus_comments.

(** What an error inside grammar text says about the place [r]: the bracket of a name or of an
    optional is missing there, or the sign between the sides of a rule is missing, or that sign
    follows where it cannot, or no name begins there. *)
Definition says (k : kind) (r : str) : Prop :=
  match k with
  | KChar => exists c, In c (match Nt with Bnf => [c_lt; c_gt] | Abnf => [] end ++ [c_lbrack; c_rbrack]) /\ forall r', r <> c :: r'
  | KTag => forall r', r <> f_separator F ++ r'
  | KNot => exists r', r = f_separator F ++ r'
  | KSatisfy => Nt = Abnf /\ forall c r', r = c :: r' -> alphabetic c = false
  | _ => False
  end.
Definition placed {A} (s : str) (x : parsed A) : Prop :=
  match x with Fails e => suffix (e_input e) s /\ says (e_code e) (e_input e) | Yields _ => True end.
Definition rplaced {A} (s : str) (x : res (parsed A)) : Prop := match x with Ok y => placed s y | _ => True end.

Lemma placed_suffix {A} s r (x : parsed A) : suffix r s -> placed r x -> placed s x.
Proof. intros Hs. destruct x as [e|a]; cbn; [|auto]. intros [H1 H2]. split; [eapply suffix_trans; eauto|assumption]. Qed.
Lemma rplaced_suffix {A} s r (x : res (parsed A)) : suffix r s -> rplaced r x -> rplaced s x.
Proof. intros Hs. destruct x as [y| |]; cbn; auto. apply placed_suffix. assumption. Qed.
Lemma placed_bind {A B} s (x : parsed A) (f : A -> parsed B) : placed s x -> (forall a, x = Yields a -> placed s (f a)) -> placed s (ebind x f).
Proof. destruct x as [e|a]; cbn; auto. Qed.
Lemma rplaced_bind {A B} s (x : eres A) (f : A * str -> eres B) :
  rplaced s x -> (forall a, x = Ok (Yields a) -> rplaced s (f a)) -> rplaced s (eresbind x f).
Proof. destruct x as [[e|a]| |]; cbn; auto. Qed.
Lemma char_placed c s : In c (match Nt with Bnf => [c_lt; c_gt] | Abnf => [] end ++ [c_lbrack; c_rbrack]) -> placed s (e_char c s).
Proof.
  intro Hc. unfold e_char. destruct (p_char c s) as [r|] eqn:E; cbn; [exact I|]. split; [apply suffix_refl|]. exists c. split; [assumption|].
  intros r' ->. cbn in E. rewrite N.eqb_refl in E. discriminate.
Qed.
Lemma tag_none t s : p_tag t s = None <-> forall r, s <> t ++ r.
Proof.
  split.
  - intros H r ->. revert H. induction t as [|c t IH]; cbn; [discriminate|]. rewrite N.eqb_refl. exact IH.
  - intro H. destruct (p_tag t s) as [r|] eqn:E; [|reflexivity]. exfalso. apply (H r). clear H. revert s E.
    induction t as [|c t IH]; intros s E; cbn in *; [congruence|]. destruct s as [|d s]; [discriminate|].
    destruct (N.eqb_spec c d) as [->|]; [|discriminate]. rewrite (IH _ E). reflexivity.
Qed.
Lemma tag_some t s r : p_tag t s = Some r -> s = t ++ r.
Proof.
  revert s. induction t as [|c t IH]; intros s E; cbn in *; [congruence|]. destruct s as [|d s]; [discriminate|].
  destruct (N.eqb_spec c d) as [->|]; [|discriminate]. rewrite (IH _ E). reflexivity.
Qed.
Lemma char_yields c s r : e_char c s = Yields r -> s = c :: r.
Proof. intro H. apply p_char_suffix. apply (forget_yields1 _ _ _ (forget_char c s) H). Qed.

Lemma name_placed s : placed s (e_name alphabetic F s).
Proof.
  unfold e_name. destruct Nt eqn:EN; cbn [format_of f_delimiter BNF ABNF].
  - apply placed_bind; [apply char_placed; rewrite EN; cbn; auto|]. intros s1 E. apply char_yields in E. subst s.
    pose proof (take_till_app (fun c => N.eqb c c_gt) s1) as E2. destruct (take_till _ s1) as [n s2]. cbn [fst snd] in E2.
    apply placed_bind; [|intros; exact I]. apply (placed_suffix _ s2); [|apply char_placed; rewrite EN; cbn; auto]. subst s1. exists (c_lt :: n). reflexivity.
  - destruct (name alphabetic ABNF s) eqn:E; cbn; [exact I|]. split; [apply suffix_refl|]. split; [assumption|].
    intros c r' ->. cbn in E. destruct (alphabetic c); [|reflexivity]. destruct (take_till _ r'); discriminate.
Qed.
Lemma name_strict s n r : name alphabetic F s = Some (n, r) -> suffix r s /\ length r < length s.
Proof.
  intro H. pose proof (name_good alphabetic F s) as Hg. rewrite H in Hg. cbn in Hg. destruct Hg as [Hg _]. split; [assumption|].
  apply name_inv in H; [|assumption]. destruct H as (text & -> & Ht & _). rewrite app_length.
  pose proof (text_nonempty alphabetic Halpha Nt _ _ Ht). destruct text; [contradiction|]. cbn. lia.
Qed.
Lemma nonterminal_strict s n r : nonterminal alphabetic F s = Some (n, r) -> suffix r s /\ length r < length s.
Proof.
  unfold nonterminal. destruct (name alphabetic F s) as [[m s1]|] eqn:E; [|discriminate]. cbn. intro H; injection H as <- <-.
  apply name_strict in E. destruct E as [H1 H2]. pose proof (ws_suffix s1) as H3. pose proof (suffix_length _ _ H3).
  split; [eapply suffix_trans; eauto|lia].
Qed.
Lemma nonterminal_placed s : placed s (e_nonterminal alphabetic F s).
Proof. unfold e_nonterminal. apply placed_bind; [apply name_placed|]. intros [n r] _. exact I. Qed.
Lemma after_lhs_placed s : placed s (e_after_lhs F s).
Proof.
  unfold e_after_lhs. apply placed_bind; [|intros; exact I]. unfold e_tag. destruct (p_tag _ s) eqn:E; cbn [or_fail placed e_input e_code says]; [exact I|].
  split; [apply suffix_refl|]. apply tag_none. assumption.
Qed.
Lemma prod_lhs_placed s : placed s (e_prod_lhs alphabetic F s).
Proof.
  unfold e_prod_lhs. apply placed_bind; [apply nonterminal_placed|]. intros [n r] E.
  apply (forget_yields1 _ _ _ (forget_nonterminal _ _ _)), nonterminal_strict in E.
  apply (placed_suffix _ r); [apply E|]. apply placed_bind; [apply after_lhs_placed|intros; exact I].
Qed.
Lemma read_prod_lhs_placed s : placed s (e_read_prod_lhs alphabetic F s).
Proof.
  unfold e_read_prod_lhs. apply placed_bind; [apply name_placed|]. intros [n r] E.
  apply (forget_yields1 _ _ _ (forget_name _ _ _)), name_strict in E.
  apply (placed_suffix _ (ws r)); [eapply suffix_trans; [apply ws_suffix|apply E]|]. apply placed_bind; [apply after_lhs_placed|intros; exact I].
Qed.
Lemma read_prod_lhs_strict s n r : read_prod_lhs alphabetic F s = Some (n, r) -> suffix r s /\ length r < length s.
Proof.
  unfold read_prod_lhs. destruct (name alphabetic F s) as [[m s1]|] eqn:E; [|discriminate]. cbn [obind].
  pose proof (after_lhs_good F (ws s1)) as Hg. destruct (after_lhs F (ws s1)) as [s2|]; [|discriminate]. cbn [obind ogood] in *.
  intro H; injection H as <- <-. apply name_strict in E. destruct E as [H1 H2], Hg as [H3 _].
  pose proof (ws_suffix s1) as H4. assert (H5 : suffix s2 s1) by (eapply suffix_trans; eauto).
  pose proof (suffix_length _ _ H5). split; [eapply suffix_trans; eauto|lia].
Qed.
Lemma term_placed s : placed s (e_term alphabetic F s).
Proof. unfold e_term. destruct (e_terminal s); [apply nonterminal_placed|exact I]. Qed.
Lemma nbs_placed {A} s (x : eres A) : rplaced s x -> (forall a r, x = Ok (Yields (a, r)) -> suffix r s) ->
  rplaced s (e_not_before_separator F x).
Proof.
  intros Hx Hr. unfold e_not_before_separator. apply rplaced_bind; [assumption|]. intros [a r] E. specialize (Hr a r E).
  destruct (p_tag _ r) eqn:E'; cbn [rplaced placed e_input e_code says]; [|exact I]. split; [assumption|]. eexists. apply tag_some. exact E'.
Qed.

(** A parser that consumes something whenever it succeeds. *)
Definition consumes {A} (p : str -> eres A) : Prop :=
  forall s a r, p s = Ok (Yields (a, r)) -> suffix r s /\ length r < length s.
Lemma shorter_bytes r s : suffix r s -> length r < length s -> Nat.eqb (byte_len r) (byte_len s) = false.
Proof. intros [p ->] H. apply Nat.eqb_neq, proper_bytes. intros ->. cbn in H. lia. Qed.

Lemma many1_loop_no_error {A} (p : str -> eres A) : consumes p ->
  forall fuel acc s, rplaced s (e_many1_loop fuel p acc s) /\
    forall l r, e_many1_loop fuel p acc s = Ok (Yields (l, r)) -> suffix r s.
Proof.
  intro Hp. induction fuel as [|fuel IH]; intros acc s; cbn [e_many1_loop]; [split; [exact I|discriminate]|].
  destruct (p s) as [[e|[a r]]| |] eqn:E; try (split; [exact I|discriminate]).
  - split; [exact I|]. intros l r H; injection H as _ <-. apply suffix_refl.
  - destruct (Hp _ _ _ E) as [Hs Hl]. rewrite (shorter_bytes _ _ Hs Hl). destruct (IH (acc ++ [a]) r) as [H1 H2].
    split; [apply (rplaced_suffix _ r); assumption|]. intros l r' H. eapply suffix_trans; [eapply H2; exact H|assumption].
Qed.
Lemma many1_placed {A} (p : str -> eres A) fuel s : consumes p -> rplaced s (p s) -> rplaced s (e_many1 fuel p s).
Proof.
  intros Hp H. unfold e_many1. apply rplaced_bind; [assumption|]. intros [a r] E. apply Hp in E.
  apply (rplaced_suffix _ r); [apply E|]. apply many1_loop_no_error. assumption.
Qed.
Lemma many1_consumes {A} (p : str -> eres A) fuel : consumes p -> consumes (e_many1 fuel p).
Proof.
  intros Hp s l r H. unfold e_many1 in H. destruct (p s) as [[e|[a r1]]| |] eqn:E; try discriminate. cbn [eresbind] in H.
  apply Hp in E. destruct E as [H1 H2]. apply (many1_loop_no_error p Hp) in H. pose proof (suffix_length _ _ H).
  split; [eapply suffix_trans; eauto|lia].
Qed.
Lemma nbs_consumes {A} (p : str -> eres A) : consumes p -> consumes (fun s => e_not_before_separator F (p s)).
Proof.
  intros Hp s a r H. unfold e_not_before_separator in H. destruct (p s) as [[e|[a1 r1]]| |] eqn:E; try discriminate.
  cbn [eresbind] in H. destruct (p_tag _ r1); [discriminate|]. injection H as <- <-. eapply Hp. exact E.
Qed.
Lemma next_yields s r : e_expression_next F s = Yields r -> suffix r s /\ length r < length s.
Proof.
  intro H. apply (forget_yields1 _ _ _ (forget_expression_next _ _)) in H. pose proof (expression_next_good F s) as Hg.
  rewrite H in Hg. cbn in Hg. destruct Hg as [H1 H2]. auto.
Qed.
Lemma xt_list_placed {A} (p : str -> eres A) : consumes p -> (forall s, rplaced s (p s)) ->
  forall fuel acc s, rplaced s (e_xt_list fuel p (e_expression_next F) acc s) /\
    forall l r, e_xt_list fuel p (e_expression_next F) acc s = Ok (Yields (l, r)) -> suffix r s /\ length r < length s.
Proof.
  intros Hc Hp. induction fuel as [|fuel IH]; intros acc s; cbn [e_xt_list]; [split; [exact I|discriminate]|].
  split.
  - apply rplaced_bind; [apply Hp|]. intros [a r] E. apply Hc in E. apply (rplaced_suffix _ r); [apply E|].
    destruct (e_expression_next F r) as [e|r'] eqn:E2; [exact I|]. apply next_yields in E2.
    apply (rplaced_suffix _ r'); [apply E2|]. apply IH.
  - intros l r H. destruct (p s) as [[e|[a r1]]| |] eqn:E; try discriminate. cbn [eresbind] in H. apply Hc in E. destruct E as [H1 H2].
    destruct (e_expression_next F r1) as [e|r'] eqn:E2; [injection H as _ <-; auto|]. apply next_yields in E2. destruct E2 as [H3 H4].
    apply IH in H. destruct H as [H5 H6]. split; [|lia]. eapply suffix_trans; [exact H5|]. eapply suffix_trans; eauto.
Qed.
Lemma term_consumes : consumes (fun s => Ok (e_term alphabetic F s)).
Proof.
  intros s a r H. apply (forget_yields _ (Ok (parse_term alphabetic F s))) in H; [|cbn [forget_res]; rewrite forget_term; reflexivity].
  injection H as H. unfold parse_term in H. pose proof (terminal_good s) as Hg. destruct (terminal s) as [[t r']|].
  - injection H as <- <-. cbn in Hg. destruct Hg as [H1 H2]. auto.
  - eapply nonterminal_strict. exact H.
Qed.
Lemma expression_placed fuel s : rplaced s (e_expression alphabetic F fuel s).
Proof.
  apply many1_placed; [apply (nbs_consumes (fun s => Ok (e_term alphabetic F s))), term_consumes|].
  apply nbs_placed; [apply term_placed|]. intros a r H. eapply term_consumes. exact H.
Qed.
Lemma expression_consumes fuel : consumes (e_expression alphabetic F fuel).
Proof. apply many1_consumes. apply (nbs_consumes (fun s => Ok (e_term alphabetic F s))), term_consumes. Qed.
Lemma prod_rhs_placed fuel s : rplaced s (e_prod_rhs alphabetic F fuel s) /\
  forall l r, e_prod_rhs alphabetic F fuel s = Ok (Yields (l, r)) -> suffix r s /\ length r < length s.
Proof. apply xt_list_placed; [apply expression_consumes|apply expression_placed]. Qed.
Lemma production_end_placed s : placed s (e_production_end alphabetic F s).
Proof.
  unfold e_production_end. destruct s as [|c s]; [exact I|]. destruct (f_start F) as [a|] eqn:E.
  - apply (placed_suffix _ (ws (c :: s))); [apply ws_suffix|]. apply placed_bind; [apply char_placed|intros; exact I].
    destruct Nt; [injection E as <-; left; reflexivity|discriminate].
  - apply placed_bind; [apply prod_lhs_placed|intros; exact I].
Qed.
Lemma production_placed fuel s : rplaced s (e_production alphabetic F fuel s).
Proof.
  unfold e_production. apply rplaced_bind; [apply prod_lhs_placed|]. intros [lhs r] E.
  assert (Hr : suffix r s).
  { apply (forget_yields _ (Ok (prod_lhs alphabetic F s))) in E; [|cbn [forget_res]; rewrite forget_prod_lhs; reflexivity].
    pose proof (prod_lhs_good alphabetic F s) as Hg. injection E as E. rewrite E in Hg. apply Hg. }
  apply (rplaced_suffix _ r); [assumption|]. destruct (prod_rhs_placed fuel r) as [H1 H2].
  apply rplaced_bind; [assumption|]. intros [rhs r'] E'. apply H2 in E'. apply (rplaced_suffix _ r'); [apply E'|].
  apply rplaced_bind; [|intros; exact I]. cbn [rplaced]. apply placed_bind; [apply production_end_placed|intros; exact I].
Qed.

Lemma rhs_of_placed p fuel s : consumes p -> (forall s, rplaced s (p s)) ->
  rplaced s (e_rhs_of F fuel p s) /\
  forall l r, e_rhs_of F fuel p s = Ok (Yields (l, r)) -> suffix r s /\ length r < length s.
Proof.
  intros Hc Hp. apply xt_list_placed.
  - apply many1_consumes, nbs_consumes, Hc.
  - intro r. apply many1_placed; [apply nbs_consumes, Hc|]. apply nbs_placed; [apply Hp|]. intros a r' E. eapply Hc. exact E.
Qed.
Lemma bracketed_placed a b inner s :
  (forall s, rplaced s (inner s)) -> (forall s l r, inner s = Ok (Yields (l, r)) -> suffix r s) ->
  ((forall c, c = a \/ c = b -> In c [c_lbrack; c_rbrack]) -> rplaced s (e_bracketed a b inner s)) /\
  forall l r, e_bracketed a b inner s = Ok (Yields (l, r)) -> suffix r s /\ length r < length s.
Proof.
  intros Hi Hs. unfold e_bracketed. split.
  - intro Hc. apply rplaced_bind; [cbn [rplaced]; apply placed_bind; [apply char_placed, in_or_app; right; apply Hc; auto|intros; exact I]|].
    intros [u r] E. destruct (e_char a s) as [e|s1] eqn:E1; [discriminate|]. injection E as _ <-. apply char_yields in E1. subst s.
    apply (rplaced_suffix _ s1); [apply suffix_cons|]. apply rplaced_bind; [apply Hi|]. intros [es r'] E. apply Hs in E.
    apply (rplaced_suffix _ r'); [assumption|].
    apply rplaced_bind; [cbn [rplaced]; apply placed_bind; [apply char_placed, in_or_app; right; apply Hc; auto|intros; exact I]|]. intros [u' r''] _. exact I.
  - intros l r H. destruct (e_char a s) as [e|s1] eqn:E1; [discriminate|]. cbn [ebind eresbind] in H. apply char_yields in E1. subst s.
    destruct (inner s1) as [[e|[es s2]]| |] eqn:E2; try discriminate. cbn [eresbind] in H. apply Hs in E2.
    destruct (e_char b s2) as [e|s3] eqn:E3; [discriminate|]. cbn [ebind eresbind] in H. apply char_yields in E3. subst s2.
    injection H as _ <-. pose proof (ws_suffix s3) as H1.
    assert (H2 : suffix (ws s3) s1). { eapply suffix_trans; [exact H1|]. eapply suffix_trans; [apply suffix_cons|exact E2]. }
    split; [eapply suffix_trans; [exact H2|apply suffix_cons]|]. apply suffix_length in H2. cbn. lia.
Qed.
Lemma read_term_placed fuel : (forall s, rplaced s (e_read_term alphabetic F fuel s)) /\ consumes (e_read_term alphabetic F fuel).
Proof.
  induction fuel as [|fuel [IH1 IH2]]; [split; [intro; exact I|discriminate]|].
  assert (Hb : forall a b s, _) by (intros a b s; exact (bracketed_placed a b (e_rhs_of F fuel (e_read_term alphabetic F fuel)) s
    (fun s => proj1 (rhs_of_placed _ fuel s IH2 IH1)) (fun s l r H => proj1 (proj2 (rhs_of_placed _ fuel s IH2 IH1) l r H)))).
  split.
  - intro s. cbn [e_read_term]. destruct (e_terminal s) as [e|[t r]]; [|exact I].
    destruct (e_nonterminal _ _ s) as [e'|[t r]]; [|exact I].
    destruct (e_bracketed c_open c_close _ s) as [[e3|[es r]]| |]; try exact I.
    apply rplaced_bind; [apply Hb; intros c [->| ->]; cbn; auto|]. intros [es r] _. exact I.
  - intros s t r H. cbn [e_read_term] in H. destruct (e_terminal s) as [e|[t' r']] eqn:E1.
    2:{ injection H as _ <-. apply (forget_yields1 _ _ _ (forget_terminal s)) in E1. pose proof (terminal_good s) as Hg. rewrite E1 in Hg.
        cbn in Hg. destruct Hg; auto. }
    destruct (e_nonterminal _ _ s) as [e'|[t' r']] eqn:E2.
    2:{ injection H as _ <-. apply (forget_yields1 _ _ _ (forget_nonterminal _ _ s)) in E2. eapply nonterminal_strict. exact E2. }
    destruct (e_bracketed c_open c_close _ s) as [[e3|[es r']]| |] eqn:E3; try discriminate.
    + destruct (e_bracketed c_lbrack c_rbrack _ s) as [[e4|[es r']]| |] eqn:E4; try discriminate. cbn [eresbind] in H.
      injection H as _ <-. eapply Hb. exact E4.
    + injection H as _ <-. eapply Hb. exact E3.
Qed.
Lemma read_production_placed fuel : (forall s, rplaced s (e_read_production alphabetic F fuel s)) /\ consumes (e_read_production alphabetic F fuel).
Proof.
  pose proof (fun s => rhs_of_placed _ fuel s (proj2 (read_term_placed fuel)) (proj1 (read_term_placed fuel))) as Hr.
  assert (Hl : forall s x r, Ok (e_read_prod_lhs alphabetic F s) = Ok (Yields (x, r)) -> suffix r s /\ length r < length s).
  { intros s x r E. injection E as E. apply (forget_yields1 _ _ _ (forget_read_prod_lhs _ _ _)) in E. eapply read_prod_lhs_strict. exact E. }
  unfold e_read_production. split.
  - intro s. apply rplaced_bind; [apply read_prod_lhs_placed|]. intros [lhs r] E. apply Hl in E.
    apply (rplaced_suffix _ r); [apply E|]. apply rplaced_bind; [apply Hr|]. intros [rhs r'] E'. apply Hr in E'.
    apply (rplaced_suffix _ r'); [apply E'|]. apply rplaced_bind; [|intros; exact I]. cbn [rplaced]. destruct r' as [|c r']; [exact I|].
    apply placed_bind; [apply read_prod_lhs_placed|intros; exact I].
  - intros s p r H. destruct (e_read_prod_lhs alphabetic F s) as [e|[lhs r1]] eqn:E1; [discriminate|].
    cbn [eresbind] in H. apply (f_equal Ok) in E1. apply Hl in E1. destruct E1 as [H1 H2].
    destruct (e_rhs_of F fuel _ r1) as [[e|[rhs r2]]| |] eqn:E2; try discriminate. cbn [eresbind] in H. apply Hr in E2. destruct E2 as [H3 H4].
    assert (E : r = r2).
    { destruct r2 as [|c r2]; cbn [eresbind] in H; [congruence|]. destruct (e_read_prod_lhs _ _ _); cbn [ebind eresbind] in H; congruence. }
    subst r. split; [eapply suffix_trans; eauto|lia].
Qed.

Lemma ws_consumes {A} (p : str -> eres A) : consumes p -> consumes (fun s => p (ws s)).
Proof.
  intros Hp s a r H. apply Hp in H. destruct H as [H1 H2]. pose proof (ws_suffix s) as H3. pose proof (suffix_length _ _ H3).
  split; [eapply suffix_trans; eauto|lia].
Qed.
Lemma read_grammar_placed fuel s : rplaced s (e_read_grammar alphabetic F fuel s).
Proof.
  unfold e_read_grammar. apply (rplaced_suffix _ (ws s)); [apply ws_suffix|].
  destruct (read_production_placed fuel) as [H1 H2]. apply many1_placed; [apply ws_consumes, H2|].
  apply (rplaced_suffix _ (ws (ws s))); [apply ws_suffix|]. apply H1.
Qed.
Lemma read_grammar_consumes fuel s l r : e_read_grammar alphabetic F fuel s = Ok (Yields (l, r)) -> suffix r s.
Proof.
  intro H. unfold e_read_grammar in H. apply (many1_consumes (fun s => e_read_production alphabetic F fuel (ws s))) in H.
  - eapply suffix_trans; [apply H|apply ws_suffix].
  - apply ws_consumes, read_production_placed.
Qed.

(** With [all_consuming] around it. *)
Definition placed_eof {A} (s : str) (x : res (parsed A)) : Prop :=
  match x with
  | Ok (Yields _) => True
  | Ok (Fails e) => suffix (e_input e) s /\ (says (e_code e) (e_input e) \/ e_code e = KEof /\ e_input e <> [])
  | _ => False
  end.
Lemma all_consuming_placed {A} s (x : eres A) : rplaced s x -> (forall a r, x = Ok (Yields (a, r)) -> suffix r s) ->
  (exists o, all_consuming (forget_res x) = Ok o) -> placed_eof s (e_all_consuming x).
Proof.
  intros Hx Hr [o Ho]. destruct x as [[e|[a [|c r]]]| |]; cbn in *; try discriminate; auto.
  - destruct Hx; auto.
  - split; [eapply Hr; reflexivity|]. right. split; [reflexivity|discriminate].
Qed.
Lemma grammar_complete_placed s : placed_eof s (e_grammar_complete alphabetic F s).
Proof.
  unfold e_grammar_complete.
  assert (H : placed_eof s (let* o := e_parsed_grammar_complete alphabetic F s in
      match o with Yields pg => let* g := normalize_parsed_grammar pg in Ok (Yields g) | Fails e => Ok (Fails e) end)).
  { assert (H : placed_eof s (e_parsed_grammar_complete alphabetic F s)).
    { apply all_consuming_placed; [apply read_grammar_placed|apply read_grammar_consumes|].
      rewrite forget_read_grammar. apply (parsed_grammar_complete_total alphabetic F s). }
    destruct (e_parsed_grammar_complete alphabetic F s) as [[e|pg]| |]; try exact H. cbn. destruct (normalize_total pg) as [g ->]. exact I. }
  destruct (grammar_has_extended_syntax s); [exact H|].
  destruct (plain_grammar_total alphabetic F s) as [[g|] ->]; [exact I|exact H].
Qed.
End Notation.
