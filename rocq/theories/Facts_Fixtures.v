(** Proofs of the property theorems about the grammar fixtures (C75). *)
From Verif Require Import EarleyMain ParseGrammarProofs GenProofs StrategyProofs Facts_Generation StrategyExact TextMain TextExamples Strategies ParseExamples Fixtures FixtureProofs.
From Coq Require String.
Import String.StringSyntax.

Lemma C75_fixtures_proof : grammar_from_str ascii_alpha fixture_bnf = Ok (ROk meta_grammar) /\
  grammar_from_str ascii_alpha fixture_abnf = Ok (ROk meta_grammar).
Proof. split; vm_compute; reflexivity. Qed.

Lemma C75_language_proof : forall w, generates meta_grammar (lit "syntax") w <-> exists g, simple_text g w.
Proof. intro w. split; [apply sentence_text|]. intros [g H]. exact (text_sentence g w H). Qed.

Lemma C75_accepted_proof : forall alphabetic w, alphabetic_ok alphabetic -> generates meta_grammar (lit "syntax") w ->
  exists g, simple_text g w /\ grammar_from_str alphabetic w = Ok (ROk g).
Proof.
  intros al w Hal H. apply sentence_text in H. destruct H as [g H]. exists g. split; [exact H|].
  exact (simple_text_read al g w Hal H).
Qed.

Lemma meta_valid : validate id_order meta_grammar = ROk tt.
Proof. vm_compute. reflexivity. Qed.
Lemma meta_defined x : refers meta_grammar x -> has_lhs meta_grammar x.
Proof. pose proof meta_valid as H. apply validate_spec in H. exact (proj2 H x). Qed.

Lemma C75_generated_proof : forall alphabetic S (choose : S -> nat -> production -> nat -> res (option expression * S)) accept fuel st w st',
  alphabetic_ok alphabetic -> lawful choose -> generate choose accept meta_grammar fuel st = Ok (ROk w, st') ->
  exists g, simple_text g w /\ grammar_from_str alphabetic w = Ok (ROk g).
Proof.
  intros al S choose accept fuel st w st' Hal Hl H. apply C75_accepted_proof; [exact Hal|].
  destruct (C16_generated_sentences_proof S choose accept meta_grammar fuel st w st' Hl H) as (n & p & rest & E & Hn & Hex).
  assert (Hs : Nonterminal n = nt "syntax") by (unfold meta_grammar in E; injection E as <- _; symmetry; exact Hn).
  injection Hs as ->.
  apply generates_parses. destruct (proj1 (expansion_derives _ _ meta_defined) _ _ Hex _ eq_refl) as (tr & Hd & Hr & Hy).
  - exists p. split; [rewrite E; left; reflexivity|exact Hn].
  - exists tr. split; [exact Hd|]. split; assumption.
Qed.

Lemma meta_distinct : distinct_lhs meta_grammar.
Proof.
  unfold distinct_lhs. assert (H : forall l : list term, (fix nodup l := match l with [] => true | x :: l => negb (existsb (term_eqb x) l) && nodup l end) l = true -> NoDup l).
  { induction l as [|x l IH]; intro H; [constructor|]. apply andb_prop in H. destruct H as [H1 H2]. constructor; [|exact (IH H2)].
    intro Hx. rewrite (proj2 (existsb_exists _ l)) in H1; [discriminate|]. exists x. split; [exact Hx|]. apply term_eqb_eq. reflexivity. }
  apply H. vm_compute. reflexivity.
Qed.
Lemma meta_no_lone p : In p meta_grammar -> p_rhs p <> [] /\ p_rhs p <> [[]].
Proof.
  unfold meta_grammar. cbn [In]. intro H. repeat (destruct H as [<-|H]; [split; discriminate|]). destruct H.
Qed.

Lemma C75_all_generated_proof : forall g w, simple_text g w ->
  exists script k, forall fuel, k <= fuel ->
    generate_random script_rng (fun _ _ => true) meta_grammar fuel script = Ok (ROk w, []).
Proof.
  intros g w H. eapply (C26_every_sentence_proof meta_grammar (lit "syntax")); [reflexivity|reflexivity|exact meta_distinct| |].
  - intros p Hp. exact (proj2 (meta_no_lone p Hp)).
  - exact (text_sentence g w H).
Qed.

Lemma tiny_text : simple_text [mkProd (nt "a") [[tm ""]]] (lit "<a>::=''" ++ [10%N]).
Proof.
  apply simple_final. apply (simple_production (lit "a") [[tm ""]] [] [] [] [] (lit "''")); try exact spaces_nil.
  - exists 97%N, []. split; [reflexivity|]. split; [vm_compute; tauto|]. intros x [].
  - constructor. constructor. apply (simple_single []). constructor.
Qed.

Lemma C75_no_error_proof : forall R (rng : rng_ops R) fuel x,
  (forall accept r st', generate (random_walk rng) accept meta_grammar fuel r <> Ok (RErr x, st')) /\
  (forall max accept r st', generate (depth_bounded rng max) accept meta_grammar fuel r <> Ok (RErr x, st')) /\
  (forall accept c st', generate (coverage_guided rng) accept meta_grammar fuel c <> Ok (RErr x, st')) /\
  (forall checks rec nonrec accept r st', generate (weighted rng checks rec nonrec) accept meta_grammar fuel r <> Ok (RErr x, st')).
Proof.
  eapply (strategies_no_error meta_grammar (lit "syntax") _ _ eq_refl eq_refl meta_no_lone).
  pose proof (text_sentence _ _ tiny_text) as H. apply generates_parses in H. destruct H as (t & Hd & Hr & _).
  exists t. split; assumption.
Qed.

Lemma C75_recognized_proof : forall w it, opens meta_grammar (nt "syntax") w it ->
  ((exists fuel t it', iter_next fuel it = Ok (Some t, it')) <-> exists g, simple_text g w).
Proof. intros w it H. rewrite <- C75_language_proof. exact (recognition meta_grammar (lit "syntax") w it H). Qed.

Lemma C75_displayed_proof : forall g, simple_grammar g -> generates meta_grammar (lit "syntax") (display_grammar g).
Proof. intros g H. exact (text_sentence g _ (simple_display g H)). Qed.

(** Strings of simple texts contain no newline. *)
Lemma simple_no_newline q s : q = squote \/ q = dquote -> simple_string q s -> ~ In 10%N s.
Proof.
  intros Hq. induction 1 as [|w s Hw _ IH]; [intros []|]. intro H. apply in_app_or in H. destruct H as [H|H]; [|exact (IH H)].
  destruct Hw as [(c & -> & Hc)|[Hw| ->]].
  - destruct H as [->|[]]. revert Hc. apply excludes. reflexivity.
  - assert (Hf : forallb (forallb (fun x => negb (N.eqb 10 x))) symbols = true) by reflexivity.
    rewrite forallb_forall in Hf. specialize (Hf w Hw). revert H. apply excludes. exact Hf.
  - destruct H as [H|[]]. destruct Hq as [->| ->]; discriminate.
Qed.
Lemma simple_list_no_newline e w s : simple_list e w -> In (Terminal s) e -> ~ In 10%N s.
Proof.
  assert (Ht : forall t w, simple_term t w -> t = Terminal s -> ~ In 10%N s).
  { intros t v [n H|s' H|s' H] E; [discriminate| |]; injection E as ->; eapply simple_no_newline; try exact H; auto. }
  induction 1 as [t w H|t w sp e v H _ _ IH]; intros [E|Hin]; try (destruct Hin; fail); eauto.
Qed.
Lemma simple_alts_no_newline es w e s : simple_alts es w -> In e es -> In (Terminal s) e -> ~ In 10%N s.
Proof.
  induction 1 as [e' w H|e' w s1 s2 es v H _ _ _ IH]; intros [->|Hin] Hs; auto; try (eapply simple_list_no_newline; eassumption);
    try (destruct Hin; fail).
Qed.
Lemma simple_text_no_newline g w p e s : simple_text g w -> In p g -> In e (p_rhs p) -> In (Terminal s) e -> ~ In 10%N s.
Proof.
  assert (Hr : forall p w, simple_rule p w -> In e (p_rhs p) -> In (Terminal s) e -> ~ In 10%N s).
  { intros p' v [n es s1 s2 s3 s4 u _ _ _ _ _ H] He Hs. exact (simple_alts_no_newline es u e s H He Hs). }
  induction 1 as [p' w H|p' w g v H _ IH]; intros [->|Hin] He Hs; try (destruct Hin; fail); eauto.
Qed.

Lemma C75_self_refuted_proof : exists g, grammar_from_str ascii_alpha fixture_bnf = Ok (ROk g) /\
  grammar_from_str ascii_alpha (display_grammar g) = Ok (ROk g) /\ ~ generates g (lit "syntax") (display_grammar g).
Proof.
  exists meta_grammar. split; [exact (proj1 C75_fixtures_proof)|].
  assert (Hread : grammar_from_str ascii_alpha (display_grammar meta_grammar) = Ok (ROk meta_grammar)) by (vm_compute; reflexivity).
  split; [exact Hread|]. intro H. apply (C75_accepted_proof ascii_alpha) in H; [|exact ascii_alpha_ok].
  destruct H as (g & Ht & E). rewrite Hread in E. injection E as <-.
  eapply (simple_text_no_newline meta_grammar _ (mkProd (nt "EOL") [[Terminal [10%N]]]) [Terminal [10%N]] [10%N] Ht);
    [|left; reflexivity|left; reflexivity|left; reflexivity].
  unfold meta_grammar. cbn [In]. tauto.
Qed.

(** Decision procedures for the examples. *)
Definition wordb (q : char) (w : str) : bool :=
  match w with [c] => existsb (N.eqb c) (letters ++ digits) | _ => false end || existsb (str_eqb w) symbols || str_eqb w [q].
Lemma words_simple q ws : forallb (wordb q) ws = true -> simple_string q (concat ws).
Proof.
  induction ws as [|w ws IH]; cbn [forallb concat]; [constructor|]. intro H. apply andb_prop in H. destruct H as [H H'].
  constructor; [|exact (IH H')]. apply orb_prop in H. destruct H as [H|H]; [apply orb_prop in H; destruct H as [H|H]|].
  - left. destruct w as [|c [|? ?]]; try discriminate. exists c. split; [reflexivity|].
    apply existsb_exists in H. destruct H as (x & Hx & E). apply N.eqb_eq in E. subst. exact Hx.
  - right. left. apply existsb_exists in H. destruct H as (x & Hx & E). apply str_eqb_eq in E. subst. exact Hx.
  - right. right. apply str_eqb_eq in H. exact H.
Qed.
Definition nameb (n : str) : bool :=
  match n with c :: r => existsb (N.eqb c) letters && forallb (fun x => existsb (N.eqb x) (letters ++ digits ++ lit "-")) r | [] => false end.
Lemma nameb_simple n : nameb n = true -> simple_name n.
Proof.
  assert (H0 : forall x l, existsb (N.eqb x) l = true -> In x l).
  { intros x l H. apply existsb_exists in H. destruct H as (y & Hy & E). apply N.eqb_eq in E. subst. exact Hy. }
  destruct n as [|c r]; [discriminate|]. intro H. apply andb_prop in H. destruct H as [H1 H2]. exists c, r.
  split; [reflexivity|]. split; [exact (H0 _ _ H1)|]. intros x Hx. rewrite forallb_forall in H2. exact (H0 _ _ (H2 x Hx)).
Qed.

Lemma simple_grammar_example :
  simple_grammar [mkProd (nt "list") [[tm "x'y"]; [tm "say ""; {{"; nt "list"]]; mkProd (nt "b-2") [[tm ""]]].
Proof.
  assert (H1 : simple_string squote (lit "x'y")) by exact (words_simple squote [lit "x"; lit "'"; lit "y"] eq_refl).
  assert (H2 : simple_string dquote (lit "say ""; {{"))
    by exact (words_simple dquote [lit "s"; lit "a"; lit "y"; lit " "; lit """"; lit ";"; lit " "; lit "{{"] eq_refl).
  assert (H3 : simple_name (lit "list")) by (apply nameb_simple; reflexivity).
  assert (H4 : simple_name (lit "b-2")) by (apply nameb_simple; reflexivity).
  split; [discriminate|]. intros p [<-|[<-|[]]]; cbn [p_lhs p_rhs].
  - split; [exists (lit "list"); split; [reflexivity|exact H3]|]. split; [discriminate|].
    intros e [<-|[<-|[]]]; (split; [discriminate|]).
    + intros t [<-|[]]. left. exact H1.
    + intros t [<-|[<-|[]]]; [right; exact H2|exact H3].
  - split; [exists (lit "b-2"); split; [reflexivity|exact H4]|]. split; [discriminate|].
    intros e [<-|[]]. split; [discriminate|]. intros t [<-|[]]. left. constructor.
Qed.
