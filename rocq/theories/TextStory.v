(** The log of reading a text that is accepted. *)
From Verif Require Export TextTracingProofs TextTracingSpec.
From Verif Require Import TextSpec TextProofs TextCostProofs NormalizeSpec.
From Coq Require Import String.
Open Scope list_scope.

Lemma pbind_l_some {A B} (x : noted (pres A)) (k : A * str -> noted (pres B)) z : fst (pbind_l x k) = Ok (Some z) ->
  exists a s, fst x = Ok (Some (a, s)) /\ fst (k (a, s)) = Ok (Some z) /\ snd (pbind_l x k) = snd x ++ snd (k (a, s)).
Proof.
  unfold pbind_l. destruct (fst x) as [[[a s]|]| |] eqn:E; try discriminate. intro H. exists a, s. repeat split. exact H.
Qed.

(** ** What loops report *)

Inductive looped {A} (p : str -> noted (pres A)) : str -> list A -> str -> log -> Prop :=
| looped_end s : fst (p s) = Ok None -> looped p s [] s (snd (p s))
| looped_next s a s' l r lg : fst (p s) = Ok (Some (a, s')) -> looped p s' l r lg -> looped p s (a :: l) r (snd (p s) ++ lg).
Inductive listed {A} (p : str -> noted (pres A)) (d : str -> noted (option str)) : str -> list A -> str -> log -> Prop :=
| listed_last s a s1 : fst (p s) = Ok (Some (a, s1)) -> fst (d s1) = None -> listed p d s [a] s1 (snd (p s) ++ snd (d s1))
| listed_next s a s1 s2 l r lg : fst (p s) = Ok (Some (a, s1)) -> fst (d s1) = Some s2 -> listed p d s2 l r lg ->
    listed p d s (a :: l) r (snd (p s) ++ snd (d s1) ++ lg).

Lemma many1_loop_looped {A} (p : str -> noted (pres A)) fuel : forall acc s l r,
  fst (many1_loop_l fuel p acc s) = Ok (Some (l, r)) -> exists l', l = acc ++ l' /\ looped p s l' r (snd (many1_loop_l fuel p acc s)).
Proof.
  induction fuel as [|fuel IH]; intros acc s l r H; [discriminate|]. cbn [many1_loop_l] in *.
  destruct (fst (p s)) as [[[a s']|]| |] eqn:E; try discriminate.
  - destruct (byte_len s' =? byte_len s); [discriminate|]. cbn [after fst snd] in *. apply IH in H. destruct H as (l' & -> & H).
    exists (a :: l'). split; [rewrite <- app_assoc; reflexivity|]. eapply looped_next; eassumption.
  - cbn [fst snd] in *. injection H as <- <-. exists []. split; [rewrite app_nil_r; reflexivity|]. constructor. exact E.
Qed.
Lemma many1_looped {A} (p : str -> noted (pres A)) fuel s l r :
  fst (many1_l fuel p s) = Ok (Some (l, r)) -> l <> [] /\ looped p s l r (snd (many1_l fuel p s)).
Proof.
  unfold many1_l, pbind_l. destruct (fst (p s)) as [[[a s']|]| |] eqn:E; try discriminate. cbn [after fst snd]. intro H.
  apply many1_loop_looped in H. destruct H as (l' & -> & H). split; [discriminate|]. eapply looped_next; eassumption.
Qed.
Lemma xt_list_listed {A} (p : str -> noted (pres A)) d fuel : forall acc s l r,
  fst (xt_list_l fuel p d acc s) = Ok (Some (l, r)) -> exists l', l = acc ++ l' /\ listed p d s l' r (snd (xt_list_l fuel p d acc s)).
Proof.
  induction fuel as [|fuel IH]; intros acc s l r H; [discriminate|]. cbn [xt_list_l] in *. unfold pbind_l in *.
  destruct (fst (p s)) as [[[a s1]|]| |] eqn:E; try discriminate. cbn [after fst snd] in *.
  destruct (fst (d s1)) as [s2|] eqn:E2; cbn [after fst snd] in *.
  - apply IH in H. destruct H as (l' & -> & H). exists (a :: l'). split; [rewrite <- app_assoc; reflexivity|].
    eapply listed_next; eassumption.
  - injection H as <- <-. exists [a]. split; [reflexivity|]. apply listed_last; assumption.
Qed.

Section Story.
Variable alphabetic : char -> bool.
Hypothesis Halpha : alphabetic_ok alphabetic.
Variable Nt : notation.
Notation F := (format_of Nt).

Lemma term_l_same s : fst (parse_term_l alphabetic F s) = parse_term alphabetic F s.
Proof. rewrite (proj1 (term_tracks alphabetic F s)). apply erase_parse_term. Qed.
Lemma prod_lhs_l_same s : fst (prod_lhs_l alphabetic F s) = prod_lhs alphabetic F s.
Proof. rewrite (proj1 (prod_lhs_tracks alphabetic F s)). apply erase_prod_lhs. Qed.
Lemma expression_next_l_same s : fst (expression_next_l F s) = expression_next F s.
Proof. rewrite (proj1 (expression_next_tracks F s)). apply erase_expression_next. Qed.

(** ** Single attempts *)
Lemma terminal_log s : snd (terminal_l s) = match terminal s with Some _ => string_found | None => no_string end.
Proof. unfold terminal_l, terminal. destruct (quoted_string s) as [[a r]|]; reflexivity. Qed.
Lemma terminal_l_same s : fst (terminal_l s) = terminal s.
Proof. rewrite (proj1 (terminal_tracks s)). apply erase_terminal. Qed.
Lemma nonterminal_log s : snd (nonterminal_l alphabetic F s) = match nonterminal alphabetic F s with Some _ => name_found | None => no_name end.
Proof. unfold nonterminal_l, nonterminal. cbn [within snd]. unfold obind_l, silent. cbn [fst snd]. destruct (name alphabetic F s) as [[a r]|]; reflexivity. Qed.
Lemma nonterminal_l_same s : fst (nonterminal_l alphabetic F s) = nonterminal alphabetic F s.
Proof. rewrite (proj1 (nonterminal_tracks alphabetic F s)). apply erase_nonterminal. Qed.
Lemma terminal_shape s t r : terminal s = Some (t, r) -> (exists a, t = Terminal a) /\ whitespace_plus_comments r = r.
Proof.
  unfold terminal. destruct (quoted_string s) as [[a r']|]; cbn [obind]; [|discriminate]. intro H. injection H as <- <-. split; [eauto|apply ws_clean].
Qed.
Lemma nonterminal_shape s t r : nonterminal alphabetic F s = Some (t, r) -> (exists a, t = Nonterminal a) /\ whitespace_plus_comments r = r.
Proof.
  unfold nonterminal. destruct (name alphabetic F s) as [[a r']|]; cbn [obind]; [|discriminate]. intro H. injection H as <- <-. split; [eauto|apply ws_clean].
Qed.
Lemma term_log s : snd (parse_term_l alphabetic F s) = match parse_term alphabetic F s with Some (t, _) => term_found t | None => no_term false end.
Proof.
  unfold parse_term_l, parse_term. cbn [within snd]. unfold or_l. rewrite terminal_l_same. pose proof (terminal_log s) as E.
  destruct (terminal s) as [[t r]|] eqn:Et.
  - rewrite E. destruct (terminal_shape _ _ _ Et) as [[a ->] _]. reflexivity.
  - cbn [after snd]. rewrite E, nonterminal_log. destruct (nonterminal alphabetic F s) as [[t r]|] eqn:En; [|reflexivity].
    destruct (nonterminal_shape _ _ _ En) as [[a ->] _]. reflexivity.
Qed.
Lemma term_clean s t r : parse_term alphabetic F s = Some (t, r) -> whitespace_plus_comments r = r.
Proof.
  unfold parse_term. destruct (terminal s) as [[t' r']|] eqn:E.
  - intro H. injection H as <- <-. apply (terminal_shape _ _ _ E).
  - intro H. apply (nonterminal_shape _ _ _ H).
Qed.
Lemma lhs_log s x : prod_lhs alphabetic F s = Some x -> snd (prod_lhs_l alphabetic F s) = lhs_found.
Proof.
  unfold prod_lhs, prod_lhs_l. cbn [within snd]. unfold obind_l at 1. rewrite nonterminal_l_same, nonterminal_log.
  destruct (nonterminal alphabetic F s) as [[nt r]|]; cbn [obind]; [|discriminate]. cbn [after snd].
  unfold after_lhs, after_lhs_l. destruct (p_tag (f_separator F) r) as [r1|]; cbn [obind]; [|discriminate]. intros _. reflexivity.
Qed.
Lemma no_lhs_log : snd (prod_lhs_l alphabetic F []) = no_lhs.
Proof. destruct Nt; reflexivity. Qed.

(** ** What follows an alternative *)
Inductive follows : str -> bool -> Prop :=
| follows_end : follows [] false
| follows_alt r r' : p_char (f_alternative F) r = Some r' -> follows r false
| follows_rule r x : prod_lhs alphabetic F r = Some x -> follows r true.

Lemma no_quote c r : N.eqb c dquote = false -> N.eqb c squote = false -> quoted_string (c :: r) = None.
Proof. intros H1 H2. unfold quoted_string, quoted. cbn [p_char]. rewrite H1, H2. reflexivity. Qed.
Lemma alt_no_name r r' : p_char (f_alternative F) r = Some r' -> quoted_string r = None /\ name alphabetic F r = None.
Proof.
  destruct r as [|c r]; [discriminate|]. cbn [p_char]. destruct (N.eqb_spec c (f_alternative F)) as [->|]; [|discriminate]. intros _.
  destruct Nt; split; try reflexivity.
  unfold name. cbn [format_of ABNF f_delimiter f_alternative]. destruct (alphabetic c_slash) eqn:E; [|reflexivity].
  destruct (not_alpha alphabetic Halpha _ E) as (_ & _ & _ & _ & _ & _ & _ & H & _). discriminate H.
Qed.
Lemma name_no_quote r x : name alphabetic F r = Some x -> quoted_string r = None.
Proof.
  destruct r as [|c r]; [destruct Nt; discriminate|]. intro H.
  assert (N.eqb c dquote = false /\ N.eqb c squote = false) as [H1 H2]; [|apply no_quote; assumption].
  unfold name in H. destruct Nt; cbn [format_of BNF ABNF f_delimiter] in H.
  - unfold obind in H at 1. cbn [p_char] in H. destruct (N.eqb_spec c c_lt) as [->|]; [split; reflexivity|discriminate H].
  - destruct (alphabetic c) eqn:E; [|discriminate H]. destruct (not_alpha alphabetic Halpha _ E) as (_ & H1 & H2 & _). auto.
Qed.
Lemma alt_no_term r r' : p_char (f_alternative F) r = Some r' -> parse_term alphabetic F r = None.
Proof. intro H. destruct (alt_no_name _ _ H) as [H1 H2]. unfold parse_term, terminal, nonterminal. rewrite H1, H2. reflexivity. Qed.
Lemma rule_term r x : prod_lhs alphabetic F r = Some x -> exists n r1 r2, parse_term alphabetic F r = Some (Nonterminal n, r1) /\ p_tag (f_separator F) r1 = Some r2.
Proof.
  unfold prod_lhs, parse_term, terminal, nonterminal. destruct (name alphabetic F r) as [[n r0]|] eqn:E; cbn [obind]; [|discriminate].
  rewrite (name_no_quote _ _ E). cbn [obind]. unfold after_lhs.
  destruct (p_tag (f_separator F) (whitespace_plus_comments r0)) as [r2|] eqn:E2; cbn [obind]; [|discriminate]. intros _. eauto.
Qed.

Notation try_term s := (not_before_separator_l F (noting Ok (parse_term_l alphabetic F s))).
Notation attempt := (fun s => try_term s).
Lemma attempt_log s : snd (try_term s) = match parse_term alphabetic F s with Some (t, _) => term_found t | None => no_term false end.
Proof. exact (term_log s). Qed.
Lemma attempt_same s : fst (try_term s) = not_before_separator F (Ok (parse_term alphabetic F s)).
Proof. unfold not_before_separator_l, noting. cbn [fst snd]. rewrite term_l_same. reflexivity. Qed.
Lemma attempt_some s t r : fst (try_term s) = Ok (Some (t, r)) -> snd (try_term s) = term_found t /\ whitespace_plus_comments r = r.
Proof.
  rewrite attempt_same, attempt_log. unfold not_before_separator. destruct (parse_term alphabetic F s) as [[t' r']|] eqn:E; cbn [pbind]; [|discriminate].
  destruct (p_tag (f_separator F) r'); [discriminate|]. intro H. injection H as <- <-. split; [reflexivity|]. eapply term_clean; exact E.
Qed.
Lemma attempt_follows r b : follows r b -> snd (try_term r) = no_term b.
Proof.
  rewrite attempt_log. intros [|r0 r' H|r0 x H].
  - destruct Nt; reflexivity.
  - rewrite (alt_no_term _ _ H). reflexivity.
  - destruct (rule_term _ _ H) as (n & r1 & r2 & -> & _). reflexivity.
Qed.

Lemma expression_clean fuel s e r : fst (parse_expression_l alphabetic F fuel s) = Ok (Some (e, r)) -> whitespace_plus_comments r = r.
Proof.
  unfold parse_expression_l. cbn [within fst snd]. intros H. apply many1_looped in H. destruct H as [Hne H].
  revert Hne. induction H as [s Hs|s t s' e r lg Hs Hl IH]; intro Hne; [contradiction Hne; reflexivity|].
  inversion Hl; subst; [apply (attempt_some _ _ _ Hs)|]. apply IH. discriminate.
Qed.
Lemma expression_log fuel s e r b : fst (parse_expression_l alphabetic F fuel s) = Ok (Some (e, r)) -> follows r b ->
  snd (parse_expression_l alphabetic F fuel s) = alternative_found b e.
Proof.
  unfold parse_expression_l. cbn [within fst snd]. intros H Hf. apply many1_looped in H. destruct H as [Hne H].
  assert (Hl : forall s e lg, looped attempt s e r lg -> lg = flat_map term_found e ++ no_term b).
  { clear s e H Hne. intros s e lg H. induction H as [s Hs|s t s' e r lg Hs Hl IH].
    - apply (attempt_follows _ _ Hf).
    - rewrite (IH Hf), (proj1 (attempt_some _ _ _ Hs)). rewrite app_assoc. reflexivity. }
  rewrite (Hl _ _ _ H). reflexivity.
Qed.

Lemma next_none s : fst (expression_next_l F s) = None -> snd (expression_next_l F s) = blank "expression_next" /\ p_char (f_alternative F) s = None.
Proof.
  unfold expression_next_l, read_next_l, obind_l, silent. cbn [within fst snd]. destruct (p_char (f_alternative F) s); [discriminate|]. intros _. split; reflexivity.
Qed.
Lemma next_some s r : fst (expression_next_l F s) = Some r -> snd (expression_next_l F s) = span "expression_next" skipped /\
  exists r', p_char (f_alternative F) s = Some r'.
Proof.
  unfold expression_next_l, read_next_l, obind_l, silent. cbn [within fst snd]. destruct (p_char (f_alternative F) s) as [r'|]; [|discriminate].
  intros _. split; [reflexivity|eauto].
Qed.

(** The end of a right-hand side: the end of the text or a rule. *)
Definition rule_or_end (r : str) (b : bool) : Prop := (r = [] /\ b = false) \/ ((exists x, prod_lhs alphabetic F r = Some x) /\ b = true).
Lemma rule_or_end_follows r b : rule_or_end r b -> follows r b.
Proof. intros [[-> ->]|[[x H] ->]]; [apply follows_end|eapply follows_rule; exact H]. Qed.

Lemma rhs_clean fuel s es r : fst (prod_rhs_l alphabetic F fuel s) = Ok (Some (es, r)) -> whitespace_plus_comments r = r.
Proof.
  unfold prod_rhs_l. cbn [within fst snd]. intros H. apply xt_list_listed in H. destruct H as (es' & _ & H).
  induction H as [s e s1 H1 H2|]; [|assumption]. eapply expression_clean. exact H1.
Qed.
Lemma rhs_log fuel s es r b : fst (prod_rhs_l alphabetic F fuel s) = Ok (Some (es, r)) -> rule_or_end r b ->
  snd (prod_rhs_l alphabetic F fuel s) = span "prod_rhs" (alternatives_found b es).
Proof.
  unfold prod_rhs_l. cbn [within fst snd]. intros H Hr. apply xt_list_listed in H. destruct H as (es' & E & H). cbn [app] in E. subst es'.
  assert (Hl : forall s es lg, listed (parse_expression_l alphabetic F fuel) (expression_next_l F) s es r lg ->
    es <> [] /\ lg = alternatives_found b es).
  { clear s es H. intros s es lg H. induction H as [s e s1 H1 H2|s e s1 s2 es r lg H1 H2 H3 IH].
    - split; [discriminate|]. rewrite (expression_log _ _ _ _ _ H1 (rule_or_end_follows _ _ Hr)), (proj1 (next_none _ H2)). reflexivity.
    - destruct (IH Hr) as (Hne & ->). split; [discriminate|].
      destruct (next_some _ _ H2) as [E [r' H]]. rewrite (expression_log _ _ _ _ _ H1 (follows_alt _ _ H)), E.
      destruct es as [|e' es]; [contradiction Hne; reflexivity|]. reflexivity. }
  rewrite (proj2 (Hl _ _ _ H)). reflexivity.
Qed.

Lemma production_log fuel s p r : fst (parse_production_l alphabetic F fuel s) = Ok (Some (p, r)) ->
  (forall b, rule_or_end r b -> snd (parse_production_l alphabetic F fuel s) = rule_found Nt b p) /\
  whitespace_plus_comments r = r /\ exists x, prod_lhs alphabetic F s = Some x.
Proof.
  unfold parse_production_l. cbn [within fst snd]. intro H.
  apply pbind_l_some in H. destruct H as (nt & s1 & H1 & H & ->). apply pbind_l_some in H. destruct H as (es & s2 & H2 & H & ->).
  cbn [noting fst snd] in H, H1 |- *. rewrite prod_lhs_l_same in H1. injection H1 as H1.
  destruct (fst (production_end_l alphabetic F s2)); [|discriminate]. injection H as <- <-.
  split; [|split; [eapply rhs_clean; exact H2|eauto]]. intros b Hb.
  rewrite (rhs_log _ _ _ _ _ H2 Hb), (lhs_log _ _ H1). unfold rule_found. cbn [p_rhs]. do 3 f_equal.
  destruct Hb as [[-> ->]|[[x Hx] ->]]; [reflexivity|]. unfold production_end_l.
  destruct s2 as [|c s2]; [destruct Nt; discriminate Hx|]. pose proof (lhs_log _ _ Hx) as HL. destruct Nt; [reflexivity|exact HL].
Qed.

(** ** The fast parser *)
Notation next_rule fuel := (fun s => after (snd (ws_l s)) (parse_production_l alphabetic F fuel (fst (ws_l s)))).
Lemma no_production_log fuel : snd (parse_production_l alphabetic F fuel []) = span "production" no_lhs.
Proof. unfold parse_production_l. cbn [within snd]. destruct Nt; reflexivity. Qed.

Lemma rules_log fuel s ps lg : looped (next_rule fuel) s ps [] lg -> lg = rules_found Nt ps /\
  (ps <> [] -> exists x, prod_lhs alphabetic F (whitespace_plus_comments s) = Some x) /\ (ps = [] -> s = []).
Proof.
  intro H. remember [] as r eqn:Er in H. revert Er. induction H as [s Hs|s p s' ps r lg Hs Hl IH]; intro Er.
  - subst s. split; [|split; [intro Hx; contradiction Hx; reflexivity|reflexivity]]. cbn [after snd ws_l within silent fst].
    change (whitespace_plus_comments []) with (@nil char). rewrite no_production_log. reflexivity.
  - destruct (IH Er) as (-> & Hn & He). destruct (production_log _ _ _ _ Hs) as [Hb [Hc [x Hx]]].
    split; [|split; [intros _; exists x; exact Hx|discriminate]].
    assert (Hr : rule_or_end s' (match ps with [] => false | _ => true end)).
    { destruct ps as [|p' ps]; [left; auto|right]. split; [|reflexivity]. destruct Hn as [y Hy]; [discriminate|]. exists y. rewrite Hc in Hy. exact Hy. }
    cbn [after snd]. rewrite (Hb _ Hr). cbn [rules_found]. rewrite <- app_assoc. reflexivity.
Qed.

Lemma plain_log_two fuel s g : fst (plain_grammar_l alphabetic F fuel s) = Ok (Some (g, [])) ->
  2 <= List.length g /\ snd (plain_grammar_l alphabetic F fuel s) = plain_log Nt g.
Proof.
  unfold plain_grammar_l. cbn [within after fst snd]. intro H.
  apply (pbind_l_some (B := list production)) in H. destruct H as (p & s1 & H1 & H & ->).
  apply (pbind_l_some (B := list production)) in H. destruct H as (ps & s2 & H2 & H & ->).
  cbn [silent fst snd] in H |- *. injection H as <- ->. apply many1_looped in H2. destruct H2 as [Hne H].
  split; [destruct ps; [contradiction Hne; reflexivity|cbn; lia]|].
  pose proof (looped_next (next_rule fuel) s p s1 ps [] _ H1 H) as Hall. apply rules_log in Hall. destruct Hall as [Hall _].
  cbn [after snd silent] in Hall |- *. unfold plain_log. rewrite <- Hall, ?app_nil_r, <- ?app_assoc. reflexivity.
Qed.
(** A single rule is read before the first parser gives up. *)
Lemma plain_log_one fuel s p : fst (parse_production_l alphabetic F fuel (whitespace_plus_comments s)) = Ok (Some (p, [])) ->
  fst (plain_grammar_l alphabetic F fuel s) = Ok None /\ snd (plain_grammar_l alphabetic F fuel s) = plain_log Nt [p].
Proof.
  intro E1. pose proof (proj1 (production_log _ _ _ _ E1) false (or_introl (conj eq_refl eq_refl))) as L1.
  assert (E2 : fst (parse_production_l alphabetic F fuel []) = Ok None) by (unfold parse_production_l; destruct Nt; reflexivity).
  unfold plain_grammar_l. cbn [within after fst snd ws_l silent]. unfold pbind_l at 1 3. rewrite E1. cbn [after fst snd]. unfold many1_l.
  unfold pbind_l. cbn [after fst snd ws_l within silent]. change (whitespace_plus_comments []) with (@nil char). rewrite E2, L1, no_production_log.
  split; reflexivity.
Qed.

(** ** The second parser *)

Lemma layouts_app a b : layouts a ++ layouts b = layouts (a + b).
Proof. unfold layouts. rewrite <- concat_app, <- repeat_app. reflexivity. Qed.

Inductive stops : str -> nat -> Prop :=
| stops_end : stops [] 0
| stops_alt r r' : p_char (f_alternative F) r = Some r' -> stops r 0
| stops_close c r : c = c_close \/ c = c_rbrack -> stops (c :: r) 0
| stops_rule r x : fst (read_prod_lhs_l alphabetic F r) = Some x -> stops r 1.

Lemma close_no_name c r : c = c_close \/ c = c_rbrack -> quoted_string (c :: r) = None /\ name alphabetic F (c :: r) = None /\
  p_char c_open (c :: r) = None /\ p_char c_lbrack (c :: r) = None.
Proof.
  intro Hc. assert (name alphabetic F (c :: r) = None) as Hn; [|destruct Hc as [-> | ->]; repeat split; assumption].
  unfold name. destruct Nt; cbn [format_of BNF ABNF f_delimiter]; [destruct Hc as [-> | ->]; reflexivity|].
  destruct (alphabetic c) eqn:E; [|reflexivity]. destruct (not_alpha alphabetic Halpha _ E) as (_ & _ & _ & H).
  exfalso. repeat match goal with H : _ /\ _ |- _ => destruct H end. destruct Hc as [-> | ->]; discriminate.
Qed.
Lemma alt_no_bracket r r' : p_char (f_alternative F) r = Some r' -> p_char c_open r = None /\ p_char c_lbrack r = None.
Proof.
  destruct r as [|c r]; [discriminate|]. cbn [p_char]. destruct (N.eqb_spec c (f_alternative F)) as [->|]; [|discriminate]. intros _.
  destruct Nt; split; reflexivity.
Qed.

Lemma read_nothing fuel r : quoted_string r = None -> name alphabetic F r = None -> p_char c_open r = None -> p_char c_lbrack r = None ->
  snd (read_term_l alphabetic F (S fuel) r) = [].
Proof.
  intros H1 H2 H3 H4. cbn [read_term_l]. unfold read_terminal_l, read_nonterminal_l, obind_l, bracketed_l, pbind_l, silent. cbn [fst snd].
  rewrite H1, H2, H3, H4. reflexivity.
Qed.
Lemma read_name fuel r n r' : quoted_string r = None -> name alphabetic F r = Some (n, r') ->
  snd (read_term_l alphabetic F (S fuel) r) = layouts 1.
Proof.
  intros H1 H2. cbn [read_term_l]. unfold read_terminal_l, read_nonterminal_l, obind_l, silent. cbn [fst snd].
  rewrite H1, H2. reflexivity.
Qed.
Lemma read_lhs_name r x : fst (read_prod_lhs_l alphabetic F r) = Some x -> (exists y, name alphabetic F r = Some y) /\
  snd (read_prod_lhs_l alphabetic F r) = layouts 2.
Proof.
  unfold read_prod_lhs_l, obind_l, silent. cbn [fst snd]. destruct (name alphabetic F r) as [[n r']|]; [|discriminate]. cbn [after fst snd ws_l within silent].
  unfold after_lhs_l. unfold obind_l, silent. cbn [fst snd]. destruct (p_tag (f_separator F) (whitespace_plus_comments r')); [|discriminate]. intros _. split; [eauto|reflexivity].
Qed.
Lemma read_stop fuel r k : stops r k -> snd (read_term_l alphabetic F (S fuel) r) = layouts k.
Proof.
  intros [|r0 r' H|c r0 H|r0 x H].
  - apply read_nothing; destruct Nt; reflexivity.
  - destruct (alt_no_name _ _ H), (alt_no_bracket _ _ H). apply read_nothing; assumption.
  - destruct (close_no_name c r0 H) as (? & ? & ? & ?). apply read_nothing; assumption.
  - destruct (read_lhs_name _ _ H) as [[[n r'] Hn] _]. eapply read_name; [eapply name_no_quote; exact Hn|exact Hn].
Qed.

Section Inner.
Variable p : str -> noted (pres parsed_term).
Hypothesis found : forall s t r, fst (p s) = Ok (Some (t, r)) -> snd (p s) = layouts (term_layouts t).
Hypothesis stopped : forall r k, fst (p r) <> OutOfFuel -> stops r k -> snd (p r) = layouts k.

Lemma alternative_log fuel s e r k : fst (expression_of_l F fuel p s) = Ok (Some (e, r)) -> stops r k ->
  snd (expression_of_l F fuel p s) = layouts (list_sum (map term_layouts e) + k).
Proof.
  unfold expression_of_l. intros H Hk. apply many1_looped in H. destruct H as [_ H].
  assert (G : forall s e lg, looped (fun s => not_before_separator_l F (p s)) s e r lg -> lg = layouts (list_sum (map term_layouts e) + k)).
  { clear s e H. intros s e lg H. induction H as [s Hs|s t s' e r lg Hs Hl IH].
    - cbn [not_before_separator_l noting snd fst] in *. apply stopped; [|exact Hk]. intro E. rewrite E in Hs. discriminate.
    - rewrite (IH Hk). cbn [not_before_separator_l noting snd fst] in *.
      destruct (fst (p s)) as [[[t' r']|]| |] eqn:E; try discriminate. rewrite (found _ _ _ E), layouts_app. f_equal.
      unfold not_before_separator in Hs. cbn [pbind] in Hs. destruct (p_tag (f_separator F) r'); [discriminate|]. injection Hs as <- <-.
      unfold list_sum. cbn [map fold_right]. lia. }
  exact (G _ _ _ H).
Qed.
Lemma read_next_log s : snd (read_next_l F s) = match fst (read_next_l F s) with Some _ => layouts 1 | None => [] end.
Proof. unfold read_next_l, obind_l, silent. cbn [fst snd]. destruct (p_char (f_alternative F) s); reflexivity. Qed.
Lemma read_next_alt s s' : fst (read_next_l F s) = Some s' -> exists r, p_char (f_alternative F) s = Some r.
Proof. unfold read_next_l, obind_l, silent. cbn [fst snd]. destruct (p_char (f_alternative F) s); [eauto|discriminate]. Qed.
Lemma alternatives_log fuel s es r k : fst (rhs_of_l F fuel p s) = Ok (Some (es, r)) -> stops r k ->
  snd (rhs_of_l F fuel p s) = layouts (alternatives_layouts es + k).
Proof.
  unfold rhs_of_l. intros H Hk. apply xt_list_listed in H. destruct H as (es' & E & H). cbn [app] in E. subst es'.
  assert (G : forall s es lg, listed (expression_of_l F fuel p) (read_next_l F) s es r lg -> es <> [] /\ lg = layouts (alternatives_layouts es + k)).
  { clear s es H. intros s es lg H. induction H as [s e s1 H1 H2|s e s1 s2 es r lg H1 H2 H3 IH]; (split; [discriminate|]).
    - rewrite (alternative_log _ _ _ _ _ H1 Hk), read_next_log, H2, app_nil_r. f_equal. unfold alternatives_layouts, list_sum. cbn [map fold_right List.length]. lia.
    - destruct (IH Hk) as [Hne ->]. destruct (read_next_alt _ _ H2) as [r' Ha].
      rewrite (alternative_log _ _ _ _ _ H1 (stops_alt _ _ Ha)), read_next_log, H2.
      rewrite !layouts_app. f_equal. unfold alternatives_layouts, list_sum.
      destruct es; [contradiction Hne; reflexivity|]. cbn [map fold_right List.length]. lia. }
  exact (proj2 (G _ _ _ H)).
Qed.
End Inner.

Lemma read_term_log fuel : forall s t r, fst (read_term_l alphabetic F fuel s) = Ok (Some (t, r)) -> snd (read_term_l alphabetic F fuel s) = layouts (term_layouts t).
Proof.
  induction fuel as [|fuel IH]; intros s t r H; [discriminate|].
  assert (Hstop : forall r k, fst (read_term_l alphabetic F fuel r) <> OutOfFuel -> stops r k -> snd (read_term_l alphabetic F fuel r) = layouts k).
  { intros r0 k Hn Hk. destruct fuel; [contradiction Hn; reflexivity|]. apply read_stop. exact Hk. }
  assert (Hb : forall a b s es r, b = c_close \/ b = c_rbrack ->
    fst (bracketed_l a b (rhs_of_l F fuel (read_term_l alphabetic F fuel)) s) = Ok (Some (es, r)) ->
    snd (bracketed_l a b (rhs_of_l F fuel (read_term_l alphabetic F fuel)) s) = layouts (alternatives_layouts es + 1) /\ exists s', p_char a s = Some s').
  { clear - IH Hstop. intros a b s es r Hb H. unfold bracketed_l in *.
    apply pbind_l_some in H. destruct H as (u & s1 & H1 & H & ->). apply pbind_l_some in H. destruct H as (es' & s2 & H2 & H & ->).
    apply pbind_l_some in H. destruct H as (v & s3 & H3 & H & ->). cbn [silent noting then_ws fst snd after ws_l within] in *. injection H as <- <-.
    assert (stops s2 0) as Hs.
    { destruct s2 as [|c s2]; [discriminate|]. cbn [p_char] in H3. destruct (N.eqb_spec c b) as [->|]; [|discriminate]. apply stops_close. exact Hb. }
    rewrite (alternatives_log _ IH Hstop _ _ _ _ _ H2 Hs). split.
    - cbn [app]. change (span "whitespace_plus_comments" []) with (layouts 1). rewrite layouts_app. f_equal; lia.
    - destruct (p_char a s); [eauto|discriminate]. }
  cbn [read_term_l] in *.
  unfold read_terminal_l, read_nonterminal_l, obind_l, silent in *. cbn [fst snd] in *.
  destruct (quoted_string s) as [[x r1]|].
  { cbn in H. injection H as <- <-. reflexivity. }
  destruct (name alphabetic F s) as [[x r1]|].
  { cbn in H. injection H as <- <-. reflexivity. }
  cbn [after fst snd app] in *.
  match type of H with context [bracketed_l ?a ?b ?c ?d] => pose proof (Hb a b s) as Hb1; destruct (bracketed_l a b c d) as [[[[es r1]|]| |] l1] eqn:E1 end; try discriminate.
  - cbn [fst snd] in *. injection H as <- <-. destruct (Hb1 _ _ (or_introl eq_refl) eq_refl) as [-> _]. reflexivity.
  - cbn [after fst snd] in *. apply pbind_l_some in H. destruct H as (es & s1 & H1 & H & ->). cbn [fst snd] in *. injection H as <- <-.
    destruct (Hb _ _ _ _ _ (or_intror eq_refl) H1) as [-> [s' Hs]]. rewrite app_nil_r.
    assert (l1 = []) as ->; [|reflexivity]. destruct s as [|c s]; [discriminate|]. cbn [p_char] in Hs.
    destruct (N.eqb_spec c c_lbrack) as [->|]; [|discriminate]. unfold bracketed_l in E1. cbn in E1. injection E1 as <-. reflexivity.
Qed.

Lemma read_production_log fuel s p r : fst (read_production_l alphabetic F fuel s) = Ok (Some (p, r)) -> s <> [] /\
  snd (read_production_l alphabetic F fuel s) = layouts (2 + alternatives_layouts (pp_rhs p) + match r with [] => 0 | _ => 3 end).
Proof.
  unfold read_production_l. intro H.
  apply pbind_l_some in H. destruct H as (n & s1 & H1 & H & ->). apply pbind_l_some in H. destruct H as (es & s2 & H2 & H & ->).
  cbn [noting fst snd] in H1 |- *. injection H1 as H1. split; [intros ->; destruct Nt; discriminate H1|].
  rewrite (proj2 (read_lhs_name _ _ H1)).
  assert (Hstop : forall r k, fst (read_term_l alphabetic F fuel r) <> OutOfFuel -> stops r k -> snd (read_term_l alphabetic F fuel r) = layouts k).
  { intros r0 k Hn Hk. destruct fuel; [contradiction Hn; reflexivity|]. apply read_stop. exact Hk. }
  destruct s2 as [|c s2].
  - cbn [silent fst snd] in *. injection H as <- <-. cbn [pp_rhs].
    rewrite (alternatives_log _ (read_term_log fuel) Hstop _ _ _ _ _ H2 stops_end), app_nil_r, layouts_app. f_equal; lia.
  - cbn [noting fst snd] in *. destruct (fst (read_prod_lhs_l alphabetic F (c :: s2))) as [x|] eqn:E; [|discriminate]. injection H as <- <-. cbn [pp_rhs].
    rewrite (alternatives_log _ (read_term_log fuel) Hstop _ _ _ _ _ H2 (stops_rule _ _ E)), (proj2 (read_lhs_name _ _ E)), !layouts_app. f_equal; lia.
Qed.
Lemma read_nothing_log fuel : snd (read_production_l alphabetic F fuel []) = [].
Proof. destruct Nt; reflexivity. Qed.

Lemma second_log fuel s pg : fst (read_grammar_l alphabetic F fuel s) = Ok (Some (pg, [])) ->
  snd (read_grammar_l alphabetic F fuel s) = layouts (rules_layouts pg).
Proof.
  unfold read_grammar_l. cbn [after fst snd]. intro H. apply many1_looped in H. destruct H as [_ H].
  assert (G : forall s pg lg, looped (fun s => after (snd (ws_l s)) (read_production_l alphabetic F fuel (fst (ws_l s)))) s pg [] lg ->
    lg = layouts (list_sum (map (fun p => 3 + alternatives_layouts (pp_rhs p)) pg) + 3 * (List.length pg - 1) + 1) /\ (pg <> [] -> s <> []) /\ (pg = [] -> s = [])).
  { clear s pg H. intros s pg lg H. remember [] as r eqn:Er in H. revert Er. induction H as [s Hs|s p s' pg r lg Hs Hl IH]; intro Er.
    - subst s. split; [|split; [intro Hx; contradiction Hx; reflexivity|reflexivity]]. cbn [after snd ws_l within silent fst].
      change (whitespace_plus_comments []) with (@nil char). rewrite read_nothing_log. reflexivity.
    - destruct (IH Er) as (-> & Hn & He). cbn [after fst snd] in *. destruct (read_production_log _ _ _ _ Hs) as [Hne ->].
      split; [|split; [intros _ ->; apply Hne; reflexivity|discriminate]].
      change (snd (ws_l s)) with (layouts 1). rewrite !layouts_app. f_equal. unfold list_sum. cbn [map fold_right List.length].
      destruct pg as [|p' pg]; [rewrite He by reflexivity; cbn [map fold_right List.length]; lia|].
      destruct s'; [contradiction Hn; [discriminate|reflexivity]|]. cbn [map fold_right List.length]. lia. }
  rewrite (proj1 (G _ _ _ H)). change (snd (ws_l s)) with (layouts 1). rewrite layouts_app. f_equal. unfold rules_layouts. lia.
Qed.
End Story.
