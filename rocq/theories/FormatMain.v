(** Consequences for grammars in formats of the user's. *)
From Verif Require Import TextExamples ParseExamples.
From Verif Require Export TextMain.
From Verif Require Export FormatProofs.
From Coq Require String.
Import String.StringSyntax.

Section Format.
Variable alphabetic : char -> bool.
Variable F : format.
Hypothesis HF : readable alphabetic F.
Notation spells := (format_spells alphabetic F).

(** What the format allows as a term. *)
Definition allowed (t : term) : Prop :=
  match t with
  | Terminal s => ~ (In 39%N s /\ In 34%N s)
  | Nonterminal n => exists text, format_token alphabetic F (TokName n) text
  end.
Definition tok_allowed (tok : token) : Prop := exists text, format_token alphabetic F tok text.

Lemma spells_allowed toks s : spells toks s -> Forall tok_allowed toks.
Proof. induction 1; constructor; [eexists; eassumption|assumption]. Qed.

Inductive proper : parsed_term -> Prop :=
| proper_simple t : allowed t -> proper (Simple t)
| proper_group es : es <> [] -> (forall e, In e es -> e <> []) -> (forall e t, In e es -> In t e -> proper t) -> proper (Group es)
| proper_optional es : es <> [] -> (forall e, In e es -> e <> []) -> (forall e t, In e es -> In t e -> proper t) -> proper (Optional es).
Definition proper_alts (es : list (list parsed_term)) : Prop :=
  es <> [] /\ (forall e, In e es -> e <> []) /\ (forall e t, In e es -> In t e -> proper t).

Lemma toks_proper :
  (forall t ts, term_toks t ts -> Forall tok_allowed ts -> proper t) /\
  (forall e ts, terms_toks e ts -> Forall tok_allowed ts -> forall t, In t e -> proper t) /\
  (forall es ts, alts_toks es ts -> Forall tok_allowed ts -> proper_alts es).
Proof.
  apply toks_mutind.
  - intros q s H. constructor. inversion H as [|x l (text & Ht) _]; subst. cbn. apply format_token_inv in Ht.
    destruct Ht as (_ & Hq & Hn). intros [H1 H2]. cbn in Hq. destruct Hq as [<-|[<-|[]]]; contradiction.
  - intros n H. constructor. inversion H; subst. assumption.
  - intros es ts _ IH H. inversion H as [|x l _ H']; subst. apply Forall_app in H'. destruct H' as [H' _].
    destruct (IH H') as (A & B & C). constructor; assumption.
  - intros es ts _ IH H. inversion H as [|x l _ H']; subst. apply Forall_app in H'. destruct H' as [H' _].
    destruct (IH H') as (A & B & C). constructor; assumption.
  - intros _ t [].
  - intros t e ts ts' _ IH1 _ IH2 H. apply Forall_app in H. destruct H as [H1 H2]. intros u [<-|Hu]; auto.
  - intros e ts Hne _ IH H. specialize (IH H). split; [discriminate|]. split.
    + intros e' [<-|[]]. assumption.
    + intros e' t [<-|[]] Ht. auto.
  - intros e es ts ts' Hne _ IH1 _ IH2 H. apply Forall_app in H. destruct H as [H1 H2].
    inversion H2 as [|x l _ H3]; subst. specialize (IH1 H1). destruct (IH2 H3) as (A & B & C). split; [discriminate|]. split.
    + intros e' [<-|He']; auto.
    + intros e' t [<-|He'] Ht; eauto.
Qed.

Definition proper_grammar (pg : parsed_grammar) : Prop :=
  pg <> [] /\ forall p, In p pg -> allowed (Nonterminal (pp_lhs p)) /\ proper_alts (pp_rhs p).

Lemma grammar_text_proper pg s : format_text alphabetic F pg s -> proper_grammar pg.
Proof.
  intros (lay & rest & toks & -> & Hl & Hne & Hg & Hs). split; [assumption|]. apply spells_allowed in Hs.
  clear - Hg Hs. induction Hg as [|p ps ts ts' (inc & ts1 & Ha & ->) _ IH]; [intros q []|].
  apply Forall_app in Hs. destruct Hs as [Hs1 Hs2]. inversion Hs1 as [|x l H1 H2]; subst. inversion H2 as [|x l _ H3]; subst.
  intros q [<-|Hq]; [|auto]. split; [exact H1|]. apply (proj2 (proj2 toks_proper) _ _ Ha H3).
Qed.

Lemma proper_occurs t t' : proper t -> occurs t' t -> proper t'.
Proof. intros H Ho. induction Ho as [|es e t He Ht _ IH|es e t He Ht _ IH]; [assumption| |]; inversion H; subst; eauto. Qed.
Lemma proper_occurs_in pg t : proper_grammar pg -> occurs_in t pg -> proper t.
Proof.
  intros [_ H] (p & e & u & Hp & He & Hu & Ho). destruct (H p Hp) as (_ & _ & _ & H3). eapply proper_occurs; [|exact Ho]. eauto.
Qed.
Lemma proper_no_empty_group pg : proper_grammar pg -> no_empty_group pg.
Proof. intros H Ho. apply (proper_occurs_in _ _ H) in Ho. inversion Ho. contradiction. Qed.

(** Terms of a normalized grammar: from the source, the empty terminal, or generated names. *)
Definition lowered_ok (t : term) : Prop := allowed t \/ exists k, t = Nonterminal (anon_name k).

Lemma lowered_term_ok anon t t' : (forall q, In q anon -> exists k, p_lhs q = Nonterminal (anon_name k)) ->
  lowered anon t t' -> proper t -> lowered_ok t'.
Proof.
  intros Ha H Hp. destruct H as [t|es n rhs _ _ Hin|n Hin|es n rhs _ Hin].
  - inversion Hp; subst. left. assumption.
  - right. apply Ha in Hin. exact Hin.
  - right. apply Ha in Hin. exact Hin.
  - right. apply Ha in Hin. exact Hin.
Qed.

Definition rhs_ok (rhs : list expression) : Prop := rhs <> [] /\ forall e, In e rhs -> e <> [] /\ forall t, In t e -> lowered_ok t.

Lemma lowered_rhs_ok anon es rhs : (forall q, In q anon -> exists k, p_lhs q = Nonterminal (anon_name k)) ->
  lowered_alts anon es rhs -> proper_alts es -> rhs_ok rhs.
Proof.
  intros Ha Hl (H1 & H2 & H3). split.
  - intros ->. inversion Hl; subst. contradiction.
  - intros e' He'. destruct (lowered_alts_In_inv _ _ _ _ Hl He') as (e & He & Ht). split.
    + intros ->. inversion Ht; subst. apply (H2 [] He). reflexivity.
    + intros t' Ht'. apply lowered_terms_Forall2 in Ht. destruct (Forall2_In_inv _ _ _ _ Ht Ht') as (t & Hin & Hlt).
      eapply lowered_term_ok; eauto.
Qed.

Lemma normalize_ok pg g : proper_grammar pg -> normalize_parsed_grammar pg = Ok g ->
  g <> [] /\ forall p, In p g -> (exists n, p_lhs p = Nonterminal n /\ lowered_ok (Nonterminal n)) /\ rhs_ok (p_rhs p).
Proof.
  intros Hpg Hn. destruct (normalize_spec _ _ Hn) as (user & anon & -> & Hu & _ & _ & Ha & Hg).
  assert (Ha' : forall q, In q anon -> exists k, p_lhs q = Nonterminal (anon_name k)) by (intros q Hq; destruct (Ha q Hq) as (k & E & _); eauto).
  destruct Hpg as [Hne Hpg]. split.
  { destruct Hu; [contradiction|discriminate]. }
  intros p Hp. apply in_app_iff in Hp. destruct Hp as [Hp|Hp].
  - destruct (Forall2_In_inv _ _ _ _ Hu Hp) as (x & Hx & E & Hl). destruct (Hpg x Hx) as [A B]. split.
    + eexists. split; [exact E|]. left. exact A.
    + eapply lowered_rhs_ok; eassumption.
  - destruct (Ha' p Hp) as [k E]. split; [eexists; split; [exact E|right; eauto]|].
    destruct (Hg p Hp) as (t & Ho & Hr). pose proof (proper_occurs_in pg t (conj Hne Hpg) Ho) as Hpt.
    assert (He : lowered_ok (Terminal [])) by (left; intros [[] _]).
    destruct t as [t|es|es]; cbn in Hr; [contradiction| |]; inversion Hpt; subst.
    + destruct Hr as [[_ Hr]|[-> _]]; [|contradiction]. eapply lowered_rhs_ok; [exact Ha'|exact Hr|]. split; auto.
    + destruct Hr as (rhs' & Hr & ->). apply lowered_rhs_ok in Hr; [|assumption|split; auto]. destruct Hr as [H1' H2'].
      split; [destruct rhs'; discriminate|]. intros e He'. apply in_app_iff in He'. destruct He' as [He'|[<-|[]]]; [auto|].
      split; [discriminate|]. intros t [<-|[]]. assumption.
Qed.

Lemma parsed_well_formed s g : grammar_complete alphabetic F s = Ok (Some g) -> well_formed g /\ forall t, has_term g t -> lowered_ok t.
Proof.
  intro H. apply (grammar_complete_exact alphabetic F HF) in H. destruct H as (pg & Ht & Hn). apply grammar_text_proper in Ht.
  destruct (normalize_ok _ _ Ht Hn) as [H1 H2]. split.
  - split; [assumption|]. intros p Hp. destruct (H2 p Hp) as ((n & E & _) & H3 & H4). split; [eauto|]. split; [assumption|].
    intros e He. apply (H4 e He).
  - intros t (p & Hp & Hc). destruct (H2 p Hp) as ((n & E & Hn') & H3 & H4). destruct Hc as [->|(e & He & Hte)].
    + rewrite E. assumption.
    + apply (H4 e He). assumption.
Qed.

Lemma format_exact s g : grammar_parse_from alphabetic F s = Ok (ROk g) <->
  exists pg, format_text alphabetic F pg s /\ normalize_parsed_grammar pg = Ok g.
Proof.
  rewrite <- (grammar_complete_exact alphabetic F HF). unfold grammar_parse_from, to_result.
  destruct (grammar_complete alphabetic F s) as [[g'|]| |]; cbn; split; intro H; try discriminate; injection H as ->; reflexivity.
Qed.

Lemma format_unambiguous pg1 pg2 s : format_text alphabetic F pg1 s -> format_text alphabetic F pg2 s -> pg1 = pg2.
Proof.
  intros H1 H2. apply (grammar_exact alphabetic F HF) in H1, H2. congruence.
Qed.

Lemma format_text_parse pg s : format_text alphabetic F pg s ->
  grammar_parse_from alphabetic F s = to_result (let* g := normalize_parsed_grammar pg in Ok (Some g)).
Proof.
  intro H. apply (grammar_exact alphabetic F HF) in H. unfold grammar_parse_from.
  rewrite (grammar_complete_extended alphabetic F HF), H. reflexivity.
Qed.

Lemma format_well_formed s g : grammar_parse_from alphabetic F s = Ok (ROk g) ->
  well_formed g /\ forall x, has_term g (Terminal x) -> writable_term (Terminal x).
Proof.
  unfold grammar_parse_from, to_result. intro H. destruct (grammar_complete alphabetic F s) as [[g'|]| |] eqn:E; try discriminate.
  injection H as ->. apply parsed_well_formed in E. destruct E as [H1 H2]. split; [assumption|].
  intros x Hx. destruct (H2 _ Hx) as [H|[k H]]; [exact H|discriminate].
Qed.
End Format.

Lemma format_irrelevant alphabetic F1 F2 pg s1 s2 : readable alphabetic F1 -> readable alphabetic F2 ->
  format_text alphabetic F1 pg s1 -> format_text alphabetic F2 pg s2 ->
  grammar_parse_from alphabetic F1 s1 = grammar_parse_from alphabetic F2 s2.
Proof. intros H1 H2 T1 T2. rewrite (format_text_parse _ _ H1 _ _ T1), (format_text_parse _ _ H2 _ _ T2). reflexivity. Qed.

(** ** [production_start_char] *)

Lemma readable_start alphabetic F o : readable alphabetic F -> readable alphabetic (with_start F o).
Proof. intro H. exact H. Qed.

Lemma token_start alphabetic F o tok text : format_token alphabetic F tok text -> format_token alphabetic (with_start F o) tok text.
Proof.
  destruct 1; try (constructor; assumption).
  - apply (format_define alphabetic (with_start F o)).
  - apply (format_define_inc alphabetic (with_start F o)).
  - apply (format_alt alphabetic (with_start F o)).
Qed.
Lemma text_start alphabetic F o pg s : format_text alphabetic F pg s -> format_text alphabetic (with_start F o) pg s.
Proof.
  intros (lay & rest & toks & -> & Hl & Hne & Hg & Hs). exists lay, rest, toks. split; [reflexivity|]. split; [assumption|].
  split; [assumption|]. split; [assumption|]. clear - Hs. induction Hs; constructor; auto. apply token_start. assumption.
Qed.

Lemma answer_cases alphabetic F s : exists x, grammar_parse_from alphabetic F s = Ok x /\ (exists g, x = ROk g) \/
  grammar_parse_from alphabetic F s = Ok (RErr parse_error).
Proof.
  unfold grammar_parse_from. destruct (grammar_complete_total alphabetic F s) as [[g|] ->]; cbn; [exists (ROk g)|exists (RErr parse_error)]; eauto.
Qed.

Lemma start_not_observable alphabetic F o s : readable alphabetic F ->
  grammar_parse_from alphabetic (with_start F o) s = grammar_parse_from alphabetic F s.
Proof.
  intro HF. pose proof (readable_start _ _ o HF) as HG.
  assert (Hiff : forall g, grammar_parse_from alphabetic (with_start F o) s = Ok (ROk g) <-> grammar_parse_from alphabetic F s = Ok (ROk g)).
  { intro g. rewrite (format_exact _ _ HF), (format_exact _ _ HG). split; intros (pg & H1 & H2); exists pg; (split; [|assumption]).
    - apply (text_start _ _ (f_start F)) in H1. destruct F; exact H1.
    - apply text_start. assumption. }
  destruct (answer_cases alphabetic F s) as [x [[E [g ->]]|E]].
  - rewrite E. apply Hiff. assumption.
  - destruct (answer_cases alphabetic (with_start F o) s) as [y [[E' [g ->]]|E']]; [|congruence].
    apply Hiff in E'. congruence.
Qed.

(** ** The two built-in formats *)

Lemma builtin_separable alphabetic N : alphabetic_ok alphabetic -> separable alphabetic (format_of N).
Proof.
  intro Ha. assert (Hn : forall c, N.ltb c 65 = true -> alphabetic c = false).
  { intros c H. destruct (alphabetic c) eqn:E; [|reflexivity]. destruct (Ha c E) as [_ Hl]. apply N.ltb_lt in H. lia. }
  assert (Hu : forall c, is_whitespace c = false -> existsb (N.eqb c) (lit ";'""()[]") = false -> unused c).
  { intros c H1 H2. split; [assumption|]. intro Hi. assert (existsb (N.eqb c) (lit ";'""()[]") = true); [|congruence].
    apply existsb_exists. exists c. split; [assumption|apply N.eqb_refl]. }
  destruct N; (eexists _, _; split; [reflexivity|]; split; [apply Hu; reflexivity|]; split; [apply Hu; reflexivity|]; split; [discriminate|]).
  - cbn. split; [apply Hu; reflexivity|]. split; discriminate.
  - cbn. split; apply Hn; reflexivity.
Qed.

Lemma builtin_token alphabetic N tok text : format_token alphabetic (format_of N) tok text <-> token_text alphabetic N tok text.
Proof.
  split.
  - intro H. remember (format_of N) as F eqn:EF.
    destruct H; subst; destruct N; cbn in *; try discriminate; try (constructor; assumption).
    injection H as <- <-. constructor. assumption.
  - destruct 1.
    + apply (format_delimited alphabetic BNF c_lt c_gt); auto.
    + apply (format_bare alphabetic ABNF); auto.
    + apply format_string; assumption.
    + apply (format_define alphabetic BNF).
    + apply (format_define_inc alphabetic BNF).
    + apply (format_define alphabetic ABNF).
    + apply (format_define_inc alphabetic ABNF).
    + apply (format_alt alphabetic BNF).
    + apply (format_alt alphabetic ABNF).
    + apply format_open.
    + apply format_close.
    + apply format_open_opt.
    + apply format_close_opt.
Qed.
Lemma builtin_spells alphabetic N toks s : format_spells alphabetic (format_of N) toks s <-> spells alphabetic N toks s.
Proof.
  assert (Hd : f_delimiter (format_of N) = None <-> N = Abnf) by (destruct N; split; (reflexivity || discriminate)).
  split; induction 1; constructor; auto; try (apply builtin_token; assumption); intros n E; apply H2; apply Hd; assumption.
Qed.
Lemma builtin_text alphabetic N pg s : format_text alphabetic (format_of N) pg s <-> grammar_text alphabetic N pg s.
Proof.
  split; intros (lay & rest & toks & H1 & H2 & H3 & H4 & H5); exists lay, rest, toks; repeat (split; [assumption|]); apply builtin_spells; assumption.
Qed.

(** ** An empty production separator *)

Lemma p_tag_nil s : p_tag [] s = Some s.
Proof. destruct s; reflexivity. Qed.
Lemma nbs_nil {A} F (x : pres A) : f_separator F = [] -> x = Panic \/ x = OutOfFuel \/ not_before_separator F x = Ok None.
Proof.
  intro H. unfold not_before_separator. destruct x as [[[a r]|]| |]; cbn; auto. rewrite H, p_tag_nil. auto.
Qed.

Definition stuck {A} (x : pres A) : Prop := x = Panic \/ x = OutOfFuel \/ x = Ok None.
Lemma stuck_nbs {A} F (x : pres A) : f_separator F = [] -> stuck (not_before_separator F x).
Proof. intro H. destruct (nbs_nil F x H) as [->|[->|E]]; unfold stuck; auto. Qed.
Lemma stuck_many1 {A} fuel (p : str -> pres A) s : stuck (p s) -> stuck (many1 fuel p s).
Proof. unfold many1. intros [->|[->| ->]]; unfold stuck; auto. Qed.
Lemma stuck_list {A} fuel (p : str -> pres A) sep acc s : stuck (p s) -> stuck (xt_list fuel p sep acc s).
Proof. destruct fuel as [|fuel]; cbn; [unfold stuck; auto|]. intros [->|[->| ->]]; unfold stuck; auto. Qed.

Lemma stuck_production alphabetic F fuel s : f_separator F = [] -> stuck (parse_production alphabetic F fuel s).
Proof.
  intro H. unfold parse_production. destruct (prod_lhs alphabetic F s) as [[t r]|]; cbn [pbind]; [|unfold stuck; auto].
  assert (Hs : stuck (prod_rhs alphabetic F fuel r)).
  { unfold prod_rhs. apply stuck_list. unfold parse_expression. apply stuck_many1, stuck_nbs. assumption. }
  destruct Hs as [->|[->| ->]]; unfold stuck; auto.
Qed.
Lemma stuck_read_production alphabetic F fuel s : f_separator F = [] -> stuck (read_production alphabetic F fuel s).
Proof.
  intro H. unfold read_production. destruct (read_prod_lhs alphabetic F s) as [[t r]|]; cbn [pbind]; [|unfold stuck; auto].
  assert (Hs : stuck (rhs_of F fuel (read_term alphabetic F fuel) r)).
  { unfold rhs_of. apply stuck_list. unfold expression_of. apply stuck_many1, stuck_nbs. assumption. }
  destruct Hs as [->|[->| ->]]; unfold stuck; auto.
Qed.
Lemma empty_separator alphabetic F s : f_separator F = [] -> grammar_parse_from alphabetic F s = Ok (RErr parse_error).
Proof.
  intro H. unfold grammar_parse_from, grammar_complete.
  assert (E1 : stuck (plain_grammar alphabetic F (fuel_for s) s)).
  { unfold plain_grammar. destruct (stuck_production alphabetic F (fuel_for s) (whitespace_plus_comments s) H) as [->|[->| ->]]; unfold stuck; auto. }
  assert (E2 : stuck (read_grammar alphabetic F (fuel_for s) s)).
  { unfold read_grammar. apply stuck_many1. apply stuck_read_production. assumption. }
  destruct (parsed_grammar_complete_total alphabetic F s) as [o Eo]. destruct (plain_grammar_total alphabetic F s) as [o' Eo'].
  assert (o = None). { revert Eo. unfold parsed_grammar_complete. destruct E2 as [->|[->| ->]]; cbn; congruence. }
  assert (o' = None). { revert Eo'. destruct E1 as [->|[->| ->]]; cbn; congruence. }
  subst. rewrite Eo, Eo'. destruct (grammar_has_extended_syntax s); reflexivity.
Qed.

(** ** Formats that cannot be told apart, and a format that can *)

Definition one_production (name : str) (rhs : list (list parsed_term)) : parsed_grammar := [mkParsed name rhs].

(** Building the text of tokens one after another. *)
Lemma write_token alphabetic F tok text lay rest toks : format_token alphabetic F tok text -> layout lay ->
  (tok = TokOpen \/ tok = TokOpenOpt -> lay = []) ->
  (forall n, f_delimiter F = None -> tok = TokName n -> lay ++ rest = [] \/ exists c r, lay ++ rest = c :: r /\ ends_name c) ->
  format_spells alphabetic F toks rest -> forall s, s = text ++ lay ++ rest -> format_spells alphabetic F (tok :: toks) s.
Proof. intros H1 H2 H3 H4 H5 s ->. constructor; assumption. Qed.

(** The alternative separator is the production separator. *)
Definition equal_separators : format := mkFormat (Some (c_lt, c_gt)) (lit "=") 61%N None.
(** Names in double quotes. *)
Definition quoted_names : format := mkFormat (Some (dquote, dquote)) (lit "=") c_bar None.
(** A bracket as an alternative separator, and another to open a name. *)
Definition bracket_format (o : option char) : format := mkFormat (Some (c_close, 125%N)) (lit "=") c_open o.
Definition bracket_text : str := lines [lit "; '"; lit ")a} = ""x"" (""y"""; lit ")b} = ""z"""].
(** Names in braces, [:=], alternatives with a slash. *)
Definition brace_format : format := mkFormat (Some (123%N, 125%N)) (lit ":=") c_slash (Some 35%N).
Definition brace_text : str := lines [lit "{an ""a""} := ('x' {b}) / [{b}] ; '"; lit "{b}:='y'/{an ""a""}'z'"].
Definition brace_parsed : parsed_grammar :=
  [mkParsed (lit "an ""a""") [[Group [[Simple (Terminal (lit "x")); Simple (Nonterminal (lit "b"))]]];
                              [Optional [[Simple (Nonterminal (lit "b"))]]]];
   mkParsed (lit "b") [[Simple (Terminal (lit "y"))]; [Simple (Nonterminal (lit "an ""a""")); Simple (Terminal (lit "z"))]]].
(** Names without delimiters, an arrow. *)
Definition arrow_format : format := mkFormat None (lit "-> ") c_bar (Some 35%N).
Definition arrow_text : str := lines [lit "a -> b 'x' | c->d"; lit "c->d -> 'y'"].

Lemma unused_check c : is_whitespace c = false -> existsb (N.eqb c) (lit ";'""()[]") = false -> unused c.
Proof.
  intros H1 H2. split; [assumption|]. intro Hi. assert (existsb (N.eqb c) (lit ";'""()[]") = true); [|congruence].
  apply existsb_exists. exists c. split; [assumption|apply N.eqb_refl].
Qed.

Lemma equal_separators_text alphabetic : format_text alphabetic equal_separators
  (one_production (lit "a") [[Simple (Terminal (lit "x"))]; [Simple (Terminal (lit "y"))]]) (lit "<a>='x'='y'").
Proof.
  exists [], (lit "<a>='x'='y'"), [TokName (lit "a"); TokDefine false; TokString squote (lit "x"); TokAlt; TokString squote (lit "y")].
  split; [reflexivity|]. split; [constructor|]. split; [discriminate|]. split.
  - apply (toks_production _ [] [_; _; _; _; _] []); [|constructor]. exists false, [TokString squote (lit "x"); TokAlt; TokString squote (lit "y")].
    split; [|reflexivity].
    apply (toks_alt _ _ [TokString squote (lit "x")] [TokString squote (lit "y")]); [discriminate| |apply toks_one; [discriminate|]];
      apply (toks_more _ _ [_] []); constructor.
  - eapply (write_token _ _ _ _ []); [apply (format_delimited alphabetic equal_separators c_lt c_gt); [reflexivity|intros [E|[]]; discriminate]|constructor|reflexivity|discriminate| |reflexivity].
    eapply (write_token _ _ _ _ []); [apply format_define|constructor|reflexivity|discriminate| |reflexivity].
    eapply (write_token _ _ _ _ []); [apply format_string; [left; reflexivity|intros [E|[]]; discriminate]|constructor|reflexivity|discriminate| |reflexivity].
    eapply (write_token _ _ _ _ []); [apply format_alt|constructor|reflexivity|discriminate| |reflexivity].
    eapply (write_token _ _ _ _ []); [apply format_string; [left; reflexivity|intros [E|[]]; discriminate]|constructor|reflexivity|discriminate| |reflexivity].
    constructor. left; reflexivity.
Qed.

Lemma equal_separators_fail alphabetic : exists F pg s g, f_separator F = [f_alternative F] /\
  format_text alphabetic F pg s /\ normalize_parsed_grammar pg = Ok g /\ grammar_parse_from alphabetic F s = Ok (RErr parse_error).
Proof.
  exists equal_separators. eexists _, _, _. split; [reflexivity|]. split; [apply equal_separators_text|]. split; vm_compute; reflexivity.
Qed.

Lemma quoted_names_text alphabetic (t : term) : t = Terminal (lit "b") \/ t = Nonterminal (lit "b") ->
  format_text alphabetic quoted_names (one_production (lit "a") [[Simple t]]) (lit """a""=""b""").
Proof.
  intro Ht. assert (Htok : exists tok, term_toks (Simple t) [tok] /\ format_token alphabetic quoted_names tok (lit """b""") /\ tok <> TokOpen /\ tok <> TokOpenOpt).
  { destruct Ht as [->| ->].
    - exists (TokString dquote (lit "b")). split; [constructor|]. split; [|split; discriminate].
      apply format_string; [right; left; reflexivity|intros [E|[]]; discriminate].
    - exists (TokName (lit "b")). split; [constructor|]. split; [|split; discriminate].
      apply (format_delimited alphabetic quoted_names dquote dquote); [reflexivity|intros [E|[]]; discriminate]. }
  destruct Htok as (tok & H1 & H2 & H3 & H4).
  exists [], (lit """a""=""b"""), [TokName (lit "a"); TokDefine false; tok].
  split; [reflexivity|]. split; [constructor|]. split; [discriminate|]. split.
  - apply (toks_production _ [] [_; _; _] []); [|constructor]. exists false, [tok]. split; [|reflexivity].
    apply toks_one; [discriminate|]. apply (toks_more _ _ [_] []); [assumption|constructor].
  - eapply (write_token _ _ _ _ []); [apply (format_delimited alphabetic quoted_names dquote dquote); [reflexivity|intros [E|[]]; discriminate]|constructor|reflexivity|discriminate| |reflexivity].
    eapply (write_token _ _ _ _ []); [apply format_define|constructor|reflexivity|discriminate| |reflexivity].
    eapply (write_token _ _ _ _ []); [exact H2|constructor|reflexivity|discriminate| |reflexivity].
    constructor. left; reflexivity.
Qed.
Lemma quoted_names_ambiguous alphabetic : exists F a pg1 pg2 s, f_delimiter F = Some (dquote, a) /\
  format_text alphabetic F pg1 s /\ format_text alphabetic F pg2 s /\ pg1 <> pg2.
Proof.
  exists quoted_names, dquote. eexists _, _, _. split; [reflexivity|].
  split; [apply (quoted_names_text alphabetic (Terminal (lit "b"))); auto|].
  split; [apply (quoted_names_text alphabetic (Nonterminal (lit "b"))); auto|discriminate].
Qed.

Lemma start_observable alphabetic : exists F o s g,
  grammar_parse_from alphabetic F s = Ok (ROk g) /\ grammar_parse_from alphabetic (with_start F o) s = Ok (RErr parse_error).
Proof.
  exists (bracket_format None), (Some 35%N), bracket_text. eexists. split; vm_compute; reflexivity.
Qed.

Lemma brace_example : separable ascii_alpha brace_format /\ format_text ascii_alpha brace_format brace_parsed brace_text /\
  separable ascii_alpha arrow_format /\ exists g, grammar_parse_from ascii_alpha arrow_format arrow_text = Ok (ROk g) /\
    map p_lhs g = [Nonterminal (lit "a"); Nonterminal (lit "c->d")].
Proof.
  assert (H : separable ascii_alpha brace_format).
  { exists 58%N, [61%N]. split; [reflexivity|]. split; [apply unused_check; reflexivity|]. split; [apply unused_check; reflexivity|].
    split; [discriminate|]. cbn. split; [apply unused_check; reflexivity|]. split; discriminate. }
  split; [exact H|]. split.
  { apply (grammar_exact ascii_alpha brace_format (conj ascii_alpha_ok H)). vm_compute. reflexivity. }
  split.
  - exists 45%N, (lit "> "). split; [reflexivity|]. split; [apply unused_check; reflexivity|]. split; [apply unused_check; reflexivity|].
    split; [discriminate|]. split; reflexivity.
  - eexists. split; vm_compute; reflexivity.
Qed.

(** ** The statements with the two hypotheses apart *)

Section User.
Variable alphabetic : char -> bool.

Lemma user_exact F s g : alphabetic_ok alphabetic -> separable alphabetic F ->
  (grammar_parse_from alphabetic F s = Ok (ROk g) <->
   exists pg, format_text alphabetic F pg s /\ normalize_parsed_grammar pg = Ok g).
Proof. intros H1 H2. exact (format_exact alphabetic F (conj H1 H2) s g). Qed.
Lemma user_unambiguous F pg1 pg2 s : alphabetic_ok alphabetic -> separable alphabetic F ->
  format_text alphabetic F pg1 s -> format_text alphabetic F pg2 s -> pg1 = pg2.
Proof. intros H1 H2. exact (format_unambiguous alphabetic F (conj H1 H2) pg1 pg2 s). Qed.
Lemma user_irrelevant F1 F2 pg s1 s2 : alphabetic_ok alphabetic -> separable alphabetic F1 -> separable alphabetic F2 ->
  format_text alphabetic F1 pg s1 -> format_text alphabetic F2 pg s2 ->
  grammar_parse_from alphabetic F1 s1 = grammar_parse_from alphabetic F2 s2.
Proof. intros H1 H2 H3. exact (format_irrelevant alphabetic F1 F2 pg s1 s2 (conj H1 H2) (conj H1 H3)). Qed.
Lemma user_path F s : alphabetic_ok alphabetic -> separable alphabetic F ->
  grammar_complete alphabetic F s =
  match parsed_grammar_complete alphabetic F s with
  | Ok (Some pg) => let* g := normalize_parsed_grammar pg in Ok (Some g)
  | Ok None => Ok None
  | Panic => Panic
  | OutOfFuel => OutOfFuel
  end.
Proof. intros H1 H2. exact (grammar_complete_extended alphabetic F (conj H1 H2) s). Qed.
Lemma user_start F o s : alphabetic_ok alphabetic -> separable alphabetic F ->
  grammar_parse_from alphabetic (with_start F o) s = grammar_parse_from alphabetic F s.
Proof. intros H1 H2. exact (start_not_observable alphabetic F o s (conj H1 H2)). Qed.
Lemma user_well_formed F s g : alphabetic_ok alphabetic -> separable alphabetic F ->
  grammar_parse_from alphabetic F s = Ok (ROk g) ->
  well_formed g /\ forall x, has_term g (Terminal x) -> writable_term (Terminal x).
Proof. intros H1 H2. exact (format_well_formed alphabetic F (conj H1 H2) s g). Qed.
Lemma user_builtin N : alphabetic_ok alphabetic -> separable alphabetic (format_of N) /\
  forall pg s, format_text alphabetic (format_of N) pg s <-> grammar_text alphabetic N pg s.
Proof. intro H. split; [exact (builtin_separable alphabetic N H)|exact (builtin_text alphabetic N)]. Qed.
End User.
