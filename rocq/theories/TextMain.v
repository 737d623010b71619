(** Main facts about reading and writing grammar text. *)
From Verif Require Export TextComplete NormalizeProofs.
From Coq Require String.
Import String.StringSyntax.

Section Alpha.
Variable alphabetic : char -> bool.
Hypothesis Halpha : alphabetic_ok alphabetic.

(** ** Texts of terms, expressions, productions and grammars *)

Section Notation.
Variable Nt : notation.
Notation F := (format_of Nt).
Notation spells := (spells alphabetic Nt).

Lemma all_consuming_some {A} (x : pres A) a : all_consuming x = Ok (Some a) <-> x = Ok (Some (a, [])).
Proof.
  split; [|intros ->; reflexivity]. destruct x as [[[b [|c r]]|]| |]; cbn; intro H; try discriminate. injection H as ->. reflexivity.
Qed.

(** A sound and complete parser accepts exactly the spellings. *)
Lemma exact {A} (item : A -> list token -> Prop) follow bound (p : str -> pres A) s a :
  sound alphabetic Nt item p -> complete alphabetic Nt item follow bound p -> follow [] -> length s < bound ->
  (all_consuming (p s) = Ok (Some a) <-> exists toks, item a toks /\ spells toks s).
Proof.
  intros Hs Hc Hf Hb. rewrite all_consuming_some. split.
  - intro H. apply Hs in H. destruct H as (toks & H1 & H2 & H3). exists toks. split; [assumption|].
    rewrite <- (app_nil_r toks). apply H3. constructor. left; reflexivity.
  - intros (toks & H1 & H2). destruct (Hc a toks [] s H1 Hf Hb) as (r & -> & H3 & H4 & _).
    + rewrite app_nil_r. assumption.
    + rewrite (spells_clean_nil _ _ r H3 H4). reflexivity.
Qed.

Lemma term_exact s t : all_consuming (Ok (parse_term alphabetic F s)) = Ok (Some t) <-> term_text alphabetic Nt t s.
Proof.
  apply (exact simple_toks (fun _ => True) (fuel_for s) (fun s => Ok (parse_term alphabetic F s))).
  - apply parse_term_sound. assumption.
  - apply parse_term_complete. assumption.
  - exact I.
  - apply fuel_enough.
Qed.

Lemma expression_exact s e : all_consuming (parse_expression alphabetic F (fuel_for s) s) = Ok (Some e) <-> expression_text alphabetic Nt e s.
Proof.
  rewrite (exact (nonempty simple_toks) ends_alt (fuel_for s) (parse_expression alphabetic F (fuel_for s))).
  - unfold expression_text. split; intros (toks & H).
    + destruct H as [[H1 H2] H3]. exists toks. split; [assumption|]. split; [|assumption]. apply terms_items, (items_map Simple term_toks). assumption.
    + destruct H as (H1 & H2 & H3). exists toks. split; [split; [assumption|]|assumption]. apply (items_map Simple term_toks), terms_items. assumption.
  - apply (many1_sound alphabetic Nt simple_toks). apply nbs_sound, parse_term_sound. assumption.
  - apply parse_expression_complete. assumption.
  - exact I.
  - apply fuel_enough.
Qed.

Lemma plain_toks_spec p toks : plain_toks p toks <-> exists n, p_lhs p = Nonterminal n /\ production_toks (mkParsed n (map (map Simple) (p_rhs p))) toks.
Proof.
  unfold plain_toks, embed. split.
  - intros (p' & H & Hp). destruct (p_lhs p) as [x|n]; [discriminate|]. injection H as <-. eauto.
  - intros (n & -> & H). eauto.
Qed.

Lemma production_exact s p : all_consuming (parse_production alphabetic F (fuel_for s) s) = Ok (Some p) <-> production_text alphabetic Nt p s.
Proof.
  rewrite (exact plain_toks production_follows (fuel_for s) (parse_production alphabetic F (fuel_for s))).
  - unfold production_text. split.
    + intros (toks & H & Hs). apply plain_toks_spec in H. destruct H as (n & H1 & H2). exists n, toks. auto.
    + intros (n & toks & H1 & H2 & H3). exists toks. split; [apply plain_toks_spec; eauto|assumption].
  - apply parse_production_sound. assumption.
  - apply parse_production_complete. assumption.
  - left. reflexivity.
  - apply fuel_enough.
Qed.

Lemma grammar_exact s pg : parsed_grammar_complete alphabetic F s = Ok (Some pg) <-> grammar_text alphabetic Nt pg s.
Proof. split; [apply read_grammar_sound|apply read_grammar_complete]; assumption. Qed.

(** ** The fast path *)

Lemma ws_idem s : whitespace_plus_comments (whitespace_plus_comments s) = whitespace_plus_comments s.
Proof. apply skip_clean. Qed.

Lemma plain_grammar_sound s g : all_consuming (plain_grammar alphabetic F (fuel_for s) s) = Ok (Some g) ->
  exists pg, Forall2 (fun p p' => plain p = Some p') g pg /\ grammar_text alphabetic Nt pg s.
Proof.
  rewrite all_consuming_some. unfold plain_grammar. intro H.
  set (fuel := fuel_for s) in H. set (p := fun s0 : str => parse_production alphabetic F fuel (whitespace_plus_comments s0)) in H.
  assert (Hp : forall s a r, p s = Ok (Some (a, r)) -> exists toks, plain_toks a toks /\ clean r /\
      forall toks', spells toks' r -> spells (toks ++ toks') (whitespace_plus_comments s)).
  { intros s0 a r H0. apply (parse_production_sound alphabetic Halpha Nt) in H0. exact H0. }
  assert (Hl : forall f acc s l, clean s -> many1_loop f p acc s = Ok (Some (l, [])) ->
            exists l' toks, l = acc ++ l' /\ items plain_toks l' toks /\ spells toks s).
  { induction f as [|f IH]; intros acc s0 l Hc H0; [discriminate|]. cbn [many1_loop] in H0.
    destruct (p s0) as [[[a s1]|]| |] eqn:E; try discriminate.
    - destruct (Nat.eqb _ _); [discriminate|]. destruct (Hp _ _ _ E) as (toks1 & H1 & H2 & H3).
      apply IH in H0; [|assumption]. destruct H0 as (l' & toks & -> & H4 & H5).
      exists (a :: l'), (toks1 ++ toks). split; [rewrite <- app_assoc; reflexivity|]. split; [constructor; assumption|].
      rewrite <- Hc. auto.
    - injection H0 as <- ->. exists [], []. split; [symmetry; apply app_nil_r|]. split; [constructor|]. constructor. left; reflexivity. }
  change (parse_production alphabetic F fuel (whitespace_plus_comments s)) with (p s) in H.
  destruct (p s) as [[[p1 s1]|]| |] eqn:E1; try discriminate. cbn [pbind] in H.
  unfold many1 in H. destruct (p s1) as [[[p2 s2]|]| |] eqn:E2; try discriminate. cbn [pbind] in H.
  destruct (many1_loop fuel p [p2] s2) as [[[l r]|]| |] eqn:E3; try discriminate. cbn [pbind] in H. injection H as <- ->.
  destruct (Hp _ _ _ E1) as (toks1 & T1 & C1 & S1). destruct (Hp _ _ _ E2) as (toks2 & T2 & C2 & S2).
  apply Hl in E3; [|assumption]. destruct E3 as (l' & toks3 & -> & T3 & S3).
  apply S2 in S3. rewrite C1 in S3. apply S1 in S3. apply spells_unskip in S3; [|assumption].
  destruct S3 as (lay & rest & -> & Hlay & Hsp).
  assert (Hi : items plain_toks ([p1] ++ [p2] ++ l') (toks1 ++ toks2 ++ toks3)) by (repeat (constructor; [assumption|]); assumption).
  assert (Hpg : forall g toks, items plain_toks g toks -> exists pg, Forall2 (fun p p' => plain p = Some p') g pg /\ productions_toks pg toks).
  { clear. induction 1 as [|p g ts ts' (p' & E & H) _ (pg & IH1 & IH2)]; [exists []; split; constructor|].
    exists (p' :: pg). split; constructor; auto. }
  destruct (Hpg _ _ Hi) as (pg & H1 & H2). exists pg. split; [exact H1|].
  exists lay, rest, (toks1 ++ toks2 ++ toks3). split; [reflexivity|]. split; [assumption|]. split; [|auto].
  intros ->. inversion H1.
Qed.

(** Whichever path is chosen, the result is that of the extended path. *)
Lemma grammar_complete_extended s : grammar_complete alphabetic F s =
  match parsed_grammar_complete alphabetic F s with
  | Ok (Some pg) => let* g := normalize_parsed_grammar pg in Ok (Some g)
  | Ok None => Ok None
  | Panic => Panic
  | OutOfFuel => OutOfFuel
  end.
Proof.
  unfold grammar_complete.
  destruct (parsed_grammar_complete_total alphabetic F s) as [o Eo]. rewrite Eo. cbn [rbind].
  destruct (grammar_has_extended_syntax s); [destruct o; reflexivity|].
  destruct (plain_grammar_total alphabetic F s) as [[g|] E]; rewrite E; [|destruct o; reflexivity].
  apply plain_grammar_sound in E. destruct E as (pg & H1 & H2). apply grammar_exact in H2. rewrite Eo in H2. injection H2 as ->.
  rewrite (normalize_plain _ _ H1). reflexivity.
Qed.

Lemma grammar_complete_exact s g : grammar_complete alphabetic F s = Ok (Some g) <->
  exists pg, grammar_text alphabetic Nt pg s /\ normalize_parsed_grammar pg = Ok g.
Proof.
  rewrite grammar_complete_extended. split.
  - destruct (parsed_grammar_complete alphabetic F s) as [[pg|]| |] eqn:E; try discriminate.
    destruct (normalize_parsed_grammar pg) as [g'| |] eqn:E2; try discriminate. cbn. intro H; injection H as ->.
    exists pg. split; [apply grammar_exact; assumption|assumption].
  - intros (pg & H1 & H2). apply grammar_exact in H1. rewrite H1, H2. reflexivity.
Qed.

(** ** Well-formedness *)

(** What the notation allows as a term. *)
Definition allowed (t : term) : Prop :=
  match t with
  | Terminal s => ~ (In 39%N s /\ In 34%N s)
  | Nonterminal n => exists text, token_text alphabetic Nt (TokName n) text
  end.
Definition tok_allowed (tok : token) : Prop := exists text, token_text alphabetic Nt tok text.

Lemma spells_allowed toks s : spells toks s -> Forall tok_allowed toks.
Proof. induction 1; constructor; [eexists; eassumption|assumption]. Qed.

Inductive proper : parsed_term -> Prop :=
| proper_simple t : allowed t -> proper (Simple t)
| proper_group es : es <> [] -> (forall e, In e es -> e <> []) -> (forall e t, In e es -> In t e -> proper t) -> proper (Group es)
| proper_optional es : es <> [] -> (forall e, In e es -> e <> []) -> (forall e t, In e es -> In t e -> proper t) -> proper (Optional es).
Definition proper_alts (es : list (list parsed_term)) : Prop :=
  es <> [] /\ (forall e, In e es -> e <> []) /\ (forall e t, In e es -> In t e -> proper t).

Scheme term_toks_mind := Induction for term_toks Sort Prop
  with terms_toks_mind := Induction for terms_toks Sort Prop
  with alts_toks_mind := Induction for alts_toks Sort Prop.
Combined Scheme toks_mutind from term_toks_mind, terms_toks_mind, alts_toks_mind.

Lemma toks_proper :
  (forall t ts, term_toks t ts -> Forall tok_allowed ts -> proper t) /\
  (forall e ts, terms_toks e ts -> Forall tok_allowed ts -> forall t, In t e -> proper t) /\
  (forall es ts, alts_toks es ts -> Forall tok_allowed ts -> proper_alts es).
Proof.
  apply toks_mutind.
  - intros q s H. constructor. inversion H as [|x l (text & Ht) _]; subst. cbn. apply token_text_inv in Ht.
    destruct Ht as (_ & Hq & Hn). intros [H1 H2]. cbn in Hq. destruct Hq as [<-|[<-|[]]]; contradiction.
  - intros n H. constructor. inversion H; subst. assumption.
  - intros es ts _ IH H. inversion H as [|x l _ H']; subst. apply Forall_app in H'. destruct H' as [H' _].
    destruct (IH H') as (A & B & C). constructor; assumption.
  - intros es ts _ IH H. inversion H as [|x l _ H']; subst. apply Forall_app in H'. destruct H' as [H' _].
    destruct (IH H') as (A & B & C). constructor; assumption.
  - intros _ t [].
  - intros t e ts ts' _ IH1 _ IH2 H. apply Forall_app in H. destruct H as [H1 H2]. intros u [<-|Hu]; auto.
  - intros e ts Hne _ IH H. specialize (IH H). split; [discriminate|]. split.
    + intros e' [<-|[]]. assumption.
    + intros e' t [<-|[]] Ht. auto.
  - intros e es ts ts' Hne _ IH1 _ IH2 H. apply Forall_app in H. destruct H as [H1 H2].
    inversion H2 as [|x l _ H3]; subst. specialize (IH1 H1). destruct (IH2 H3) as (A & B & C). split; [discriminate|]. split.
    + intros e' [<-|He']; auto.
    + intros e' t [<-|He'] Ht; eauto.
Qed.

Definition proper_grammar (pg : parsed_grammar) : Prop :=
  pg <> [] /\ forall p, In p pg -> allowed (Nonterminal (pp_lhs p)) /\ proper_alts (pp_rhs p).

Lemma grammar_text_proper pg s : grammar_text alphabetic Nt pg s -> proper_grammar pg.
Proof.
  intros (lay & rest & toks & -> & Hl & Hne & Hg & Hs). split; [assumption|]. apply spells_allowed in Hs.
  clear - Hg Hs. induction Hg as [|p ps ts ts' (inc & ts1 & Ha & ->) _ IH]; [intros q []|].
  apply Forall_app in Hs. destruct Hs as [Hs1 Hs2]. inversion Hs1 as [|x l H1 H2]; subst. inversion H2 as [|x l _ H3]; subst.
  intros q [<-|Hq]; [|auto]. split; [exact H1|]. apply (proj2 (proj2 toks_proper) _ _ Ha H3).
Qed.

Lemma proper_occurs t t' : proper t -> occurs t' t -> proper t'.
Proof. intros H Ho. induction Ho as [|es e t He Ht _ IH|es e t He Ht _ IH]; [assumption| |]; inversion H; subst; eauto. Qed.
Lemma proper_occurs_in pg t : proper_grammar pg -> occurs_in t pg -> proper t.
Proof.
  intros [_ H] (p & e & u & Hp & He & Hu & Ho). destruct (H p Hp) as (_ & _ & _ & H3). eapply proper_occurs; [|exact Ho]. eauto.
Qed.
Lemma proper_no_empty_group pg : proper_grammar pg -> no_empty_group pg.
Proof. intros H Ho. apply (proper_occurs_in _ _ H) in Ho. inversion Ho. contradiction. Qed.

(** Terms of a normalized grammar: from the source, the empty terminal, or generated names. *)
Definition lowered_ok (t : term) : Prop := allowed t \/ exists k, t = Nonterminal (anon_name k).

Lemma lowered_term_ok anon t t' : (forall q, In q anon -> exists k, p_lhs q = Nonterminal (anon_name k)) ->
  lowered anon t t' -> proper t -> lowered_ok t'.
Proof.
  intros Ha H Hp. destruct H as [t|es n rhs _ _ Hin|n Hin|es n rhs _ Hin].
  - inversion Hp; subst. left. assumption.
  - right. apply Ha in Hin. exact Hin.
  - right. apply Ha in Hin. exact Hin.
  - right. apply Ha in Hin. exact Hin.
Qed.

Definition rhs_ok (rhs : list expression) : Prop := rhs <> [] /\ forall e, In e rhs -> e <> [] /\ forall t, In t e -> lowered_ok t.

Lemma lowered_rhs_ok anon es rhs : (forall q, In q anon -> exists k, p_lhs q = Nonterminal (anon_name k)) ->
  lowered_alts anon es rhs -> proper_alts es -> rhs_ok rhs.
Proof.
  intros Ha Hl (H1 & H2 & H3). split.
  - intros ->. inversion Hl; subst. contradiction.
  - intros e' He'. destruct (lowered_alts_In_inv _ _ _ _ Hl He') as (e & He & Ht). split.
    + intros ->. inversion Ht; subst. apply (H2 [] He). reflexivity.
    + intros t' Ht'. apply lowered_terms_Forall2 in Ht. destruct (Forall2_In_inv _ _ _ _ Ht Ht') as (t & Hin & Hlt).
      eapply lowered_term_ok; eauto.
Qed.

Lemma normalize_ok pg g : proper_grammar pg -> normalize_parsed_grammar pg = Ok g ->
  g <> [] /\ forall p, In p g -> (exists n, p_lhs p = Nonterminal n /\ lowered_ok (Nonterminal n)) /\ rhs_ok (p_rhs p).
Proof.
  intros Hpg Hn. destruct (normalize_spec _ _ Hn) as (user & anon & -> & Hu & _ & _ & Ha & Hg).
  assert (Ha' : forall q, In q anon -> exists k, p_lhs q = Nonterminal (anon_name k)) by (intros q Hq; destruct (Ha q Hq) as (k & E & _); eauto).
  destruct Hpg as [Hne Hpg]. split.
  { destruct Hu; [contradiction|discriminate]. }
  intros p Hp. apply in_app_iff in Hp. destruct Hp as [Hp|Hp].
  - destruct (Forall2_In_inv _ _ _ _ Hu Hp) as (x & Hx & E & Hl). destruct (Hpg x Hx) as [A B]. split.
    + eexists. split; [exact E|]. left. exact A.
    + eapply lowered_rhs_ok; eassumption.
  - destruct (Ha' p Hp) as [k E]. split; [eexists; split; [exact E|right; eauto]|].
    destruct (Hg p Hp) as (t & Ho & Hr). pose proof (proper_occurs_in pg t (conj Hne Hpg) Ho) as Hpt.
    assert (He : lowered_ok (Terminal [])) by (left; intros [[] _]).
    destruct t as [t|es|es]; cbn in Hr; [contradiction| |]; inversion Hpt; subst.
    + destruct Hr as [[_ Hr]|[-> _]]; [|contradiction]. eapply lowered_rhs_ok; [exact Ha'|exact Hr|]. split; auto.
    + destruct Hr as (rhs' & Hr & ->). apply lowered_rhs_ok in Hr; [|assumption|split; auto]. destruct Hr as [H1' H2'].
      split; [destruct rhs'; discriminate|]. intros e He'. apply in_app_iff in He'. destruct He' as [He'|[<-|[]]]; [auto|].
      split; [discriminate|]. intros t [<-|[]]. assumption.
Qed.

Lemma parsed_well_formed s g : grammar_complete alphabetic F s = Ok (Some g) -> well_formed g /\ forall t, has_term g t -> lowered_ok t.
Proof.
  intro H. apply grammar_complete_exact in H. destruct H as (pg & Ht & Hn). apply grammar_text_proper in Ht.
  destruct (normalize_ok _ _ Ht Hn) as [H1 H2]. split.
  - split; [assumption|]. intros p Hp. destruct (H2 p Hp) as ((n & E & _) & H3 & H4). split; [eauto|]. split; [assumption|].
    intros e He. apply (H4 e He).
  - intros t (p & Hp & Hc). destruct (H2 p Hp) as ((n & E & Hn') & H3 & H4). destruct Hc as [->|(e & He & Hte)].
    + rewrite E. assumption.
    + apply (H4 e He). assumption.
Qed.
End Notation.

Lemma anon_name_writable k : writable_term (Nonterminal (anon_name k)).
Proof.
  unfold writable_term, anon_name. rewrite in_app_iff. intros [H|H].
  - cbn in H. decompose [or] H; try discriminate; contradiction.
  - pose proof (dec_digits k) as Hd. rewrite Forall_forall in Hd. apply Hd in H. discriminate.
Qed.

Lemma lowered_ok_bnf t : lowered_ok Bnf t -> writable_term t.
Proof.
  intros [H|[k ->]]; [|apply anon_name_writable]. destruct t as [s|n]; [exact H|]. destruct H as [text H].
  cbn. apply token_text_inv in H. apply H.
Qed.

Lemma writable_split g : writable_grammar g <-> well_formed g /\ forall t, has_term g t -> writable_term t.
Proof.
  split.
  - intros [H1 H2]. split.
    + split; [assumption|]. intros p Hp. destruct (H2 p Hp) as (A & B & C & D). split; [assumption|]. split; [assumption|].
      intros e He. apply (D e He).
    + intros t (p & Hp & [->|(e & He & Ht)]); destruct (H2 p Hp) as (A & B & C & D); [assumption|]. apply (D e He). assumption.
  - intros [[H1 H2] H3]. split; [assumption|]. intros p Hp. destruct (H2 p Hp) as (A & B & C). split; [assumption|]. split.
    + apply H3. exists p. auto.
    + split; [assumption|]. intros e He. split; [apply C; assumption|]. intros t Ht. apply H3. exists p. split; [assumption|].
      right. eauto.
Qed.

Lemma parsed_bnf_writable s g : grammar_complete alphabetic BNF s = Ok (Some g) -> writable_grammar g.
Proof.
  intro H. apply (parsed_well_formed Bnf) in H. destruct H as [H1 H2]. apply writable_split. split; [assumption|].
  intros t Ht. apply lowered_ok_bnf. auto.
Qed.

(** ** Display *)

(** [text] consists of the tokens [toks], with layout only between them. *)
Definition says (toks : list token) (text : str) : Prop :=
  forall toks' lay rest, layout lay -> spells alphabetic Bnf toks' rest -> spells alphabetic Bnf (toks ++ toks') (text ++ lay ++ rest).

Lemma says_token tok text : token_text alphabetic Bnf tok text -> tok <> TokOpen -> tok <> TokOpenOpt -> says [tok] text.
Proof. intros H H1 H2 toks' lay rest Hl Hs. cbn [app]. constructor; auto; [intros [->| ->]; contradiction|discriminate]. Qed.
Lemma says_app a x lay b y : says a x -> layout lay -> says b y -> says (a ++ b) (x ++ lay ++ y).
Proof. intros Ha Hl Hb toks' lay' rest Hl' Hs. rewrite <- !app_assoc. apply Ha; [assumption|]. apply Hb; assumption. Qed.
Lemma layout_blank : layout (lit " ").
Proof. apply layout_space; [reflexivity|constructor]. Qed.
Lemma layout_newline : layout [10%N].
Proof. apply layout_space; [reflexivity|constructor]. Qed.

Lemma contains_In c s : str_contains c s = true <-> In c s.
Proof.
  unfold str_contains. rewrite existsb_exists. split.
  - intros (x & Hx & E). apply N.eqb_eq in E. subst. assumption.
  - intro H. exists c. split; [assumption|]. apply N.eqb_refl.
Qed.

Definition term_token (t : term) : token :=
  match t with
  | Terminal s => TokString (if str_contains squote s then dquote else squote) s
  | Nonterminal n => TokName n
  end.
Lemma term_token_toks t : term_toks (Simple t) [term_token t].
Proof. destruct t; constructor. Qed.
Lemma term_token_text t : writable_term t -> token_text alphabetic Bnf (term_token t) (display_term t).
Proof.
  destruct t as [s|n]; cbn [writable_term display_term term_token].
  - intro H. destruct (str_contains squote s) eqn:E.
    + apply contains_In in E. constructor; [right; left; reflexivity|]. intro H'. apply H. auto.
    + constructor; [left; reflexivity|]. intro H'. apply contains_In in H'. unfold squote in *. congruence.
  - intro H. constructor. assumption.
Qed.
Lemma says_term t : writable_term t -> says [term_token t] (display_term t).
Proof. intro H. apply says_token; [apply term_token_text; assumption| |]; destruct t; discriminate. Qed.

Lemma join_cons sep x y l : join sep (x :: y :: l) = x ++ sep ++ join sep (y :: l).
Proof. reflexivity. Qed.

Lemma says_expression e : writable_expression e -> exists toks, terms_toks (map Simple e) toks /\ says toks (display_expression e).
Proof.
  intros [Hne H]. induction e as [|t [|u e] IH]; [contradiction| |].
  - exists ([term_token t] ++ []). split; [constructor; [apply term_token_toks|constructor]|]. apply says_term. apply H. left; reflexivity.
  - destruct IH as (toks & H1 & H2); [discriminate|intros x Hx; apply H; right; assumption|].
    exists ([term_token t] ++ toks). split; [constructor; [apply term_token_toks|assumption]|].
    unfold display_expression. cbn [map]. rewrite join_cons. apply says_app; [apply says_term; apply H; left; reflexivity|apply layout_blank|assumption].
Qed.

Lemma says_rhs es : es <> [] -> (forall e, In e es -> writable_expression e) ->
  exists toks, alts_toks (map (map Simple) es) toks /\ says toks (join (lit " | ") (map display_expression es)).
Proof.
  intros Hne H. induction es as [|e [|f es] IH]; [contradiction| |].
  - destruct (says_expression e) as (toks & H1 & H2); [apply H; left; reflexivity|]. exists toks. split; [|exact H2].
    constructor; [|assumption]. destruct (H e (or_introl eq_refl)) as [He _]. destruct e; [contradiction|discriminate].
  - destruct IH as (toks' & H3 & H4); [discriminate|intros x Hx; apply H; right; assumption|].
    destruct (says_expression e) as (toks & H1 & H2); [apply H; left; reflexivity|].
    exists (toks ++ [TokAlt] ++ toks'). split.
    + change (map (map Simple) (e :: f :: es)) with (map Simple e :: map (map Simple) (f :: es)). cbn [app]. constructor; auto.
      destruct (H e (or_introl eq_refl)) as [He _]. destruct e; [contradiction|discriminate].
    + cbn [map] in *. rewrite join_cons. change (lit " | ") with (lit " " ++ lit "|" ++ lit " ") at 1. rewrite <- !app_assoc.
      apply says_app; [assumption|apply layout_blank|]. apply says_app; [|apply layout_blank|assumption].
      apply says_token; [constructor|discriminate|discriminate].
Qed.

Lemma says_production p : writable_production p -> exists n toks, p_lhs p = Nonterminal n /\
  production_toks (mkParsed n (map (map Simple) (p_rhs p))) toks /\ says toks (display_production p).
Proof.
  intros ((n & E) & Hw & Hne & H). destruct (says_rhs _ Hne H) as (toks & H1 & H2).
  exists n, ([TokName n] ++ [TokDefine false] ++ toks). split; [assumption|]. split.
  - exists false, toks. split; [assumption|reflexivity].
  - unfold display_production. change (lit " ::= ") with (lit " " ++ lit "::=" ++ lit " "). rewrite <- !app_assoc.
    rewrite E in *. apply says_app; [apply (says_term (Nonterminal n)); assumption|apply layout_blank|].
    apply says_app; [|apply layout_blank|assumption]. apply says_token; [constructor|discriminate|discriminate].
Qed.

Lemma says_grammar g : writable_grammar g -> exists pg toks, Forall2 (fun p p' => plain p = Some p') g pg /\
  productions_toks pg toks /\ says toks (join [10%N] (map display_production g)).
Proof.
  intros [Hne H]. induction g as [|p [|q g] IH]; [contradiction| |].
  - destruct (says_production p) as (n & toks & E & H1 & H2); [apply H; left; reflexivity|].
    eexists [_], (toks ++ []). split; [constructor; [unfold plain; rewrite E; reflexivity|constructor]|].
    split; [constructor; [exact H1|constructor]|]. rewrite app_nil_r. exact H2.
  - destruct IH as (pg & toks' & H3 & H4 & H5); [discriminate|intros x Hx; apply H; right; assumption|].
    destruct (says_production p) as (n & toks & E & H1 & H2); [apply H; left; reflexivity|].
    eexists (_ :: pg), (toks ++ toks'). split; [constructor; [unfold plain; rewrite E; reflexivity|assumption]|].
    split; [constructor; [exact H1|assumption]|]. cbn [map] in *. rewrite join_cons.
    apply says_app; [assumption|apply layout_newline|assumption].
Qed.

Lemma says_spells toks text lay : says toks text -> layout lay -> spells alphabetic Bnf toks (text ++ lay).
Proof.
  intros H Hl. rewrite <- (app_nil_r toks), <- (app_nil_r lay). apply H; [assumption|]. constructor. left; reflexivity.
Qed.
Lemma says_spells_nil toks text : says toks text -> spells alphabetic Bnf toks text.
Proof. intro H. rewrite <- (app_nil_r text). apply says_spells; [assumption|constructor]. Qed.

Lemma display_term_text t : writable_term t -> term_text alphabetic Bnf t (display_term t).
Proof. intro H. exists [term_token t]. split; [apply term_token_toks|]. apply says_spells_nil, says_term. assumption. Qed.
Lemma display_expression_text e : writable_expression e -> expression_text alphabetic Bnf e (display_expression e).
Proof.
  intro H. destruct (says_expression e H) as (toks & H1 & H2). exists toks. split; [apply H|]. split; [assumption|].
  apply says_spells_nil. assumption.
Qed.
Lemma display_production_text p : writable_production p -> production_text alphabetic Bnf p (display_production p).
Proof.
  intro H. destruct (says_production p H) as (n & toks & H1 & H2 & H3). exists n, toks. split; [assumption|]. split; [assumption|].
  apply says_spells_nil. assumption.
Qed.
Lemma display_grammar_text g : writable_grammar g -> exists pg, Forall2 (fun p p' => plain p = Some p') g pg /\
  grammar_text alphabetic Bnf pg (display_grammar g).
Proof.
  intro H. destruct (says_grammar g H) as (pg & toks & H1 & H2 & H3). exists pg. split; [assumption|].
  exists [], (display_grammar g), toks. split; [reflexivity|]. split; [constructor|]. split.
  - intros ->. inversion H1; subst. apply (proj1 H). reflexivity.
  - split; [assumption|]. apply says_spells; [assumption|apply layout_newline].
Qed.

(** ** Entry points *)

Lemma to_result_ok {A} (x : res (option A)) a : to_result x = Ok (ROk a) <-> x = Ok (Some a).
Proof. destruct x as [[b|]| |]; cbn; split; intro H; try discriminate; injection H as ->; reflexivity. Qed.

Lemma term_from_str_exact s t : term_from_str alphabetic s = Ok (ROk t) <-> term_text alphabetic Bnf t s.
Proof. unfold term_from_str. rewrite to_result_ok. apply (term_exact Bnf). Qed.
Lemma expression_from_str_exact s e : expression_from_str alphabetic s = Ok (ROk e) <-> expression_text alphabetic Bnf e s.
Proof. unfold expression_from_str. rewrite to_result_ok. apply (expression_exact Bnf). Qed.
Lemma production_from_str_exact s p : production_from_str alphabetic s = Ok (ROk p) <-> production_text alphabetic Bnf p s.
Proof. unfold production_from_str. rewrite to_result_ok. apply (production_exact Bnf). Qed.

Lemma term_text_writable t s : term_text alphabetic Bnf t s -> writable_term t.
Proof.
  intros (toks & H1 & H2). apply spells_allowed in H2. apply (proj1 (toks_proper Bnf)) in H1; [|assumption].
  inversion H1; subst. apply lowered_ok_bnf. left. assumption.
Qed.
Lemma expression_text_writable e s : expression_text alphabetic Bnf e s -> writable_expression e.
Proof.
  intros (toks & H0 & H1 & H2). split; [assumption|]. apply spells_allowed in H2.
  intros t Ht. apply (proj1 (proj2 (toks_proper Bnf))) with (t := Simple t) in H1; [|assumption|apply in_map; assumption].
  inversion H1; subst. apply lowered_ok_bnf. left. assumption.
Qed.
Lemma production_text_writable p s : production_text alphabetic Bnf p s -> writable_production p.
Proof.
  intros (n & toks & E & (inc & ts & H1 & ->) & H2). apply spells_allowed in H2. inversion H2 as [|x l A B]; subst. inversion B as [|x l _ C]; subst.
  apply (proj2 (proj2 (toks_proper Bnf))) in H1; [|assumption]. destruct H1 as (P1 & P2 & P3). cbn [pp_rhs] in *.
  split; [eauto|]. split; [rewrite E; apply lowered_ok_bnf; left; exact A|]. split; [intro E'; rewrite E' in P1; apply P1; reflexivity|].
  intros e He. split.
  - intros ->. apply (P2 []); [|reflexivity]. apply (in_map (map Simple)) in He. exact He.
  - intros t Ht. specialize (P3 (map Simple e) (Simple t) (in_map (map Simple) _ _ He) (in_map Simple _ _ Ht)).
    inversion P3; subst. apply lowered_ok_bnf. left. assumption.
Qed.

Lemma display_term_round t : term_from_str alphabetic (display_term t) = Ok (ROk t) <-> writable_term t.
Proof. rewrite term_from_str_exact. split; [apply term_text_writable|apply display_term_text]. Qed.
Lemma display_expression_round e : expression_from_str alphabetic (display_expression e) = Ok (ROk e) <-> writable_expression e.
Proof. rewrite expression_from_str_exact. split; [apply expression_text_writable|apply display_expression_text]. Qed.
Lemma display_production_round p : production_from_str alphabetic (display_production p) = Ok (ROk p) <-> writable_production p.
Proof. rewrite production_from_str_exact. split; [apply production_text_writable|apply display_production_text]. Qed.

(** Auto-detection. *)
Lemma detect_spec s : is_format_standard_bnf s = true <-> starts_bnf s.
Proof.
  unfold is_format_standard_bnf. split.
  - destruct (p_char c_lt (whitespace_plus_comments s)) as [r|] eqn:E; [|discriminate]. intros _.
    apply p_char_suffix in E. destruct (skip_split (length s) s (le_n _)) as (lay & rest & -> & Hl & Hr).
    unfold whitespace_plus_comments in E. destruct Hr as [Hr|[Hr _]]; rewrite Hr in E; [|discriminate].
    exists lay, r. rewrite E. auto.
  - intros (lay & rest & -> & Hl). unfold whitespace_plus_comments. rewrite skip_layout by assumption. reflexivity.
Qed.

Lemma from_str_bnf s : starts_bnf s -> grammar_from_str alphabetic s = to_result (grammar_complete alphabetic BNF s).
Proof. intro H. apply detect_spec in H. unfold grammar_from_str. rewrite H. reflexivity. Qed.
Lemma from_str_abnf s : ~ starts_bnf s -> grammar_from_str alphabetic s = to_result (grammar_complete alphabetic ABNF s).
Proof.
  intro H. unfold grammar_from_str. destruct (is_format_standard_bnf s) eqn:E; [|reflexivity]. apply detect_spec in E. contradiction.
Qed.

Lemma grammar_text_bnf pg s : grammar_text alphabetic Bnf pg s -> starts_bnf s.
Proof.
  intros (lay & rest & toks & -> & Hl & Hne & Hg & Hs). exists lay. destruct Hg as [|p ps ts ts' (inc & ts1 & _ & ->) _]; [contradiction|].
  cbn [app] in Hs. apply spells_inv in Hs; [|assumption]. destruct Hs as (text & s1 & -> & Ht & _). apply token_text_inv in Ht.
  destruct Ht as [Ht _]. exists ((pp_lhs p ++ lit ">") ++ s1). rewrite Ht. cbn [app]. auto.
Qed.
Lemma grammar_text_abnf pg s : grammar_text alphabetic Abnf pg s -> ~ starts_bnf s.
Proof.
  intros (lay & rest & toks & -> & Hl & Hne & Hg & Hs) Hst. apply detect_spec in Hst. unfold is_format_standard_bnf, whitespace_plus_comments in Hst.
  rewrite skip_layout in Hst by assumption. destruct Hg as [|p ps ts ts' (inc & ts1 & _ & ->) _]; [contradiction|].
  cbn [app] in Hs. apply spells_inv in Hs; [|assumption]. destruct Hs as (text & s1 & -> & Ht & _).
  rewrite (skip_token alphabetic Halpha Abnf _ _ s1 Ht) in Hst. apply token_text_inv in Ht.
  destruct Ht as (E1 & c & n & E2 & Hc & _). rewrite E1, E2 in Hst. cbn [app p_char] in Hst. destruct (N.eqb c c_lt) eqn:Ec; [|discriminate].
  apply N.eqb_eq in Ec. subst c. rewrite (not_alphabetic alphabetic Halpha) in Hc; [discriminate|]. left; reflexivity.
Qed.

Lemma grammar_from_str_exact s g : grammar_from_str alphabetic s = Ok (ROk g) <->
  exists Nt pg, grammar_text alphabetic Nt pg s /\ normalize_parsed_grammar pg = Ok g.
Proof.
  split.
  - unfold grammar_from_str. destruct (is_format_standard_bnf s); rewrite to_result_ok.
    + intro H. apply (grammar_complete_exact Bnf) in H. eauto.
    + intro H. apply (grammar_complete_exact Abnf) in H. eauto.
  - intros ([|] & pg & Ht & Hn).
    + rewrite from_str_bnf by (eapply grammar_text_bnf; eassumption). apply to_result_ok, (grammar_complete_exact Bnf). eauto.
    + rewrite from_str_abnf by (eapply grammar_text_abnf; eassumption). apply to_result_ok, (grammar_complete_exact Abnf). eauto.
Qed.

Lemma grammar_text_unique N1 N2 pg1 pg2 s : grammar_text alphabetic N1 pg1 s -> grammar_text alphabetic N2 pg2 s -> N1 = N2 /\ pg1 = pg2.
Proof.
  intros H1 H2. assert (N1 = N2).
  { destruct N1, N2; auto; exfalso; [apply (grammar_text_abnf _ _ H2)|apply (grammar_text_abnf _ _ H1)]; eapply grammar_text_bnf; eassumption. }
  subst N2. split; [reflexivity|]. apply grammar_exact in H1. apply grammar_exact in H2. congruence.
Qed.

Lemma display_starts g : (exists p r n, g = p :: r /\ p_lhs p = Nonterminal n) -> starts_bnf (display_grammar g).
Proof.
  intros (p & r & n & -> & E). exists []. unfold display_grammar. destruct r as [|q r]; cbn [map join];
    unfold display_production at 1; rewrite E; cbn [display_term]; rewrite <- !app_assoc; eexists; split; try reflexivity; constructor.
Qed.

Lemma display_grammar_complete g : writable_grammar g -> grammar_complete alphabetic BNF (display_grammar g) = Ok (Some g).
Proof.
  intro H. destruct (display_grammar_text g H) as (pg & H1 & H2). apply (grammar_complete_exact Bnf). exists pg. split; [assumption|].
  apply normalize_plain. assumption.
Qed.

Lemma display_grammar_round g : grammar_from_str alphabetic (display_grammar g) = Ok (ROk g) <-> writable_grammar g.
Proof.
  split.
  - intro H. unfold grammar_from_str in H. destruct (is_format_standard_bnf (display_grammar g)) eqn:E.
    + apply to_result_ok in H. apply parsed_bnf_writable in H. assumption.
    + exfalso. apply to_result_ok in H. apply (parsed_well_formed Abnf) in H. destruct H as [[H1 H2] _].
      destruct g as [|p g]; [contradiction|]. destruct (H2 p (or_introl eq_refl)) as ((n & En) & _).
      assert (Hst : starts_bnf (display_grammar (p :: g))) by (apply display_starts; eauto).
      apply detect_spec in Hst. congruence.
  - intro H. rewrite from_str_bnf.
    + apply to_result_ok, display_grammar_complete. assumption.
    + destruct H as [H1 H2]. destruct g as [|p g]; [contradiction|]. destruct (H2 p (or_introl eq_refl)) as ((n & En) & _).
      apply display_starts. eauto.
Qed.
End Alpha.
