(** The text parsers accept exactly the texts of the specification, continued: lists,
    expressions, productions and grammars. *)
From Verif Require Export TextProofs.
From Coq Require String.
Import String.StringSyntax.

(** Token sequences of lists. *)
Inductive items {A} (item : A -> list token -> Prop) : list A -> list token -> Prop :=
| items_nil : items item [] []
| items_cons a l ts ts' : item a ts -> items item l ts' -> items item (a :: l) (ts ++ ts').
Inductive alts {A} (item : A -> list token -> Prop) : list A -> list token -> Prop :=
| alts_one a ts : item a ts -> alts item [a] ts
| alts_more a l ts ts' : item a ts -> alts item l ts' -> alts item (a :: l) (ts ++ TokAlt :: ts').

Definition nonempty {A} (item : A -> list token -> Prop) (l : list A) (ts : list token) : Prop :=
  l <> [] /\ items item l ts.
Definition simple_toks (t : term) : list token -> Prop := term_toks (Simple t).

Lemma terms_items e ts : terms_toks e ts <-> items term_toks e ts.
Proof. split; induction 1; constructor; auto. Qed.
Lemma alts_alts es ts : alts_toks es ts <-> alts (nonempty term_toks) es ts.
Proof.
  split.
  - induction 1; constructor; auto; split; auto; apply terms_items; assumption.
  - induction 1 as [a l [H1 H2]|a l ts ts' [H1 H2] _ IH]; constructor; auto; apply terms_items; assumption.
Qed.
Lemma items_map {A B} (f : A -> B) item l ts : items (fun a => item (f a)) l ts <-> items item (map f l) ts.
Proof.
  split.
  - induction 1; constructor; auto.
  - revert ts; induction l as [|a l IH]; intros ts H; inversion H; subst; constructor; auto.
Qed.
Lemma alts_map {A B} (f : A -> B) (item : B -> list token -> Prop) l ts : alts (fun a => item (f a)) l ts <-> alts item (map f l) ts.
Proof.
  split.
  - induction 1; cbn; constructor; auto.
  - revert ts; induction l as [|a l IH]; intros ts H; [inversion H|].
    cbn in H. inversion H as [a' ts' H1 E1 E2|a' l' ts1 ts2 H1 H2 E1 E2]; subst.
    + destruct l; [|discriminate]. constructor. assumption.
    + constructor; auto.
Qed.
Lemma alts_ext {A} (i1 i2 : A -> list token -> Prop) l ts : (forall a ts, i1 a ts -> i2 a ts) -> alts i1 l ts -> alts i2 l ts.
Proof. intros H. induction 1; constructor; auto. Qed.

Section Alpha.
Variable alphabetic : char -> bool.
Hypothesis Halpha : alphabetic_ok alphabetic.
Variable Nt : notation.
Notation F := (format_of Nt).
Notation spells := (spells alphabetic Nt).
Notation ws := whitespace_plus_comments.
Definition clean (s : str) : Prop := ws s = s.
Lemma clean_ws s : clean (ws s).
Proof. apply skip_clean. Qed.

(** ** Soundness *)

Definition sound {A} (item : A -> list token -> Prop) (p : str -> pres A) : Prop :=
  forall s a r, p s = Ok (Some (a, r)) -> exists toks, item a toks /\ clean r /\
    forall toks', spells toks' r -> spells (toks ++ toks') s.

Lemma terminal_sound s t r : terminal s = Some (t, r) -> exists toks, simple_toks t toks /\ clean r /\
  forall toks', spells toks' r -> spells (toks ++ toks') s.
Proof.
  intro H. apply terminal_inv in H. destruct H as (q & x & s1 & -> & Hq & Hx & -> & ->).
  exists [TokString q x]. split; [constructor|]. split; [apply clean_ws|]. intros toks' H.
  apply spells_intro; auto; try discriminate. constructor; assumption.
Qed.
Lemma nonterminal_sound s t r : nonterminal alphabetic F s = Some (t, r) -> exists toks, simple_toks t toks /\ clean r /\
  forall toks', spells toks' r -> spells (toks ++ toks') s.
Proof.
  intro H. apply nonterminal_inv in H; [|assumption]. destruct H as (n & text & s1 & -> & -> & Ht & He & ->).
  exists [TokName n]. split; [constructor|]. split; [apply clean_ws|]. intros toks' H.
  apply spells_intro; auto; try discriminate.
Qed.
Lemma parse_term_sound : sound simple_toks (fun s => Ok (parse_term alphabetic F s)).
Proof.
  intros s t r H. injection H as H. unfold parse_term in H. destruct (terminal s) as [[t' r']|] eqn:E.
  - injection H as -> ->. apply terminal_sound. assumption.
  - apply nonterminal_sound. assumption.
Qed.
Lemma nbs_sound {A} item (p : str -> pres A) : sound item p -> sound item (fun s => not_before_separator F (p s)).
Proof.
  intros H s a r E. apply H. unfold not_before_separator in E. destruct (p s) as [[[a' r']|]| |]; cbn in E; try discriminate.
  destruct (p_tag _ r'); congruence.
Qed.

Lemma many1_loop_sound {A} item (p : str -> pres A) : sound item p -> forall fuel acc s l r,
  many1_loop fuel p acc s = Ok (Some (l, r)) -> exists l' toks, l = acc ++ l' /\ items item l' toks /\ (clean s -> clean r) /\
    forall toks', spells toks' r -> spells (toks ++ toks') s.
Proof.
  intro Hp. induction fuel as [|fuel IH]; intros acc s l r H; [discriminate|]. cbn [many1_loop] in H.
  destruct (p s) as [[[a s']|]| |] eqn:E; try discriminate.
  - destruct (Nat.eqb _ _); [discriminate|]. apply IH in H. destruct H as (l' & toks & -> & H1 & H2 & H3).
    destruct (Hp _ _ _ E) as (toks1 & H4 & H5 & H6).
    exists (a :: l'), (toks1 ++ toks). split; [rewrite <- app_assoc; reflexivity|]. split; [constructor; assumption|].
    split; [auto|]. intros toks' H. rewrite <- app_assoc. auto.
  - injection H as <- <-. exists [], []. split; [symmetry; apply app_nil_r|]. split; [constructor|]. auto.
Qed.
Lemma many1_sound {A} item (p : str -> pres A) fuel : sound item p -> sound (nonempty item) (many1 fuel p).
Proof.
  intros Hp s l r H. unfold many1 in H. destruct (p s) as [[[a s']|]| |] eqn:E; try discriminate. cbn [pbind] in H.
  apply (many1_loop_sound item p Hp) in H. destruct H as (l' & toks & -> & H1 & H2 & H3).
  destruct (Hp _ _ _ E) as (toks1 & H4 & H5 & H6). exists (toks1 ++ toks).
  split; [split; [discriminate|constructor; assumption]|]. split; [auto|]. intros toks' H. rewrite <- app_assoc. auto.
Qed.
Lemma expression_next_sound s r : expression_next F s = Some r -> clean r /\ forall toks', spells toks' r -> spells (TokAlt :: toks') s.
Proof.
  unfold expression_next. destruct (p_char (f_alternative F) s) as [s1|] eqn:E; [|discriminate]. cbn [obind].
  intro H; injection H as <-. apply p_char_suffix in E. subst s. split; [apply clean_ws|]. intros toks' H.
  apply (spells_intro alphabetic Halpha Nt TokAlt toks' [f_alternative F] s1); auto; try discriminate.
  case Nt; constructor.
Qed.
Lemma xt_list_sound {A} item (p : str -> pres A) : sound item p -> forall fuel acc s l r,
  xt_list fuel p (expression_next F) acc s = Ok (Some (l, r)) -> exists l' toks, l = acc ++ l' /\ alts item l' toks /\ clean r /\
    forall toks', spells toks' r -> spells (toks ++ toks') s.
Proof.
  intro Hp. induction fuel as [|fuel IH]; intros acc s l r H; [discriminate|]. cbn [xt_list] in H.
  destruct (p s) as [[[a s1]|]| |] eqn:E; try discriminate. cbn [pbind] in H. destruct (Hp _ _ _ E) as (toks1 & H4 & H5 & H6).
  destruct (expression_next F s1) as [s2|] eqn:E2.
  - apply IH in H. destruct H as (l' & toks & -> & H1 & H2 & H3).
    destruct (expression_next_sound _ _ E2) as [_ H7].
    exists (a :: l'), (toks1 ++ TokAlt :: toks). split; [rewrite <- app_assoc; reflexivity|].
    split; [constructor; assumption|]. split; [assumption|]. intros toks' H. rewrite <- app_assoc. cbn. auto.
  - injection H as <- <-. exists [a], toks1. split; [reflexivity|]. split; [constructor; assumption|]. auto.
Qed.

Lemma rhs_of_sound fuel p : sound term_toks p -> sound alts_toks (rhs_of F fuel p).
Proof.
  intros Hp s l r H. unfold rhs_of in H. apply (xt_list_sound (nonempty term_toks)) in H.
  - destruct H as (l' & toks & -> & H1 & H2). exists toks. split; [|assumption]. apply alts_alts. assumption.
  - apply many1_sound, nbs_sound, Hp.
Qed.

Lemma bracketed_sound fuel p a b s es r (op cl : token) : sound term_toks p ->
  (op = TokOpen \/ op = TokOpenOpt) -> cl = TokClose \/ cl = TokCloseOpt ->
  token_text alphabetic Nt op [a] -> token_text alphabetic Nt cl [b] ->
  bracketed a b (rhs_of F fuel p) s = Ok (Some (es, r)) ->
  exists toks, alts_toks es toks /\ clean r /\ forall toks', spells toks' r -> spells ((op :: toks ++ [cl]) ++ toks') s.
Proof.
  intros Hp Hop Hcl Ta Tb H. unfold bracketed in H.
  destruct (p_char a s) as [s1|] eqn:E1; [|discriminate]. cbn [option_map pbind] in H. apply p_char_suffix in E1.
  destruct (rhs_of F fuel p s1) as [[[es' s2]|]| |] eqn:E2; try discriminate. cbn [pbind] in H.
  destruct (p_char b s2) as [s3|] eqn:E3; [|discriminate]. cbn [option_map pbind] in H. apply p_char_suffix in E3.
  injection H as -> <-. apply rhs_of_sound in E2; [|assumption]. destruct E2 as (toks & H1 & _ & H2).
  exists toks. split; [assumption|]. split; [apply clean_ws|]. intros toks' H. subst s s2.
  cbn [app]. apply (spells_intro_open alphabetic Nt op _ [a] s1); [assumption| |assumption].
  rewrite <- app_assoc. apply H2. cbn [app].
  apply (spells_intro alphabetic Halpha Nt cl toks' [b] s3); auto; destruct Hcl as [->| ->]; discriminate.
Qed.

Lemma read_term_sound fuel : sound term_toks (read_term alphabetic F fuel).
Proof.
  induction fuel as [|fuel IH]; intros s t r H; [discriminate|]. cbn [read_term] in H.
  destruct (terminal s) as [[t' r']|] eqn:E1.
  { injection H as <- <-. apply terminal_sound. assumption. }
  destruct (nonterminal alphabetic F s) as [[t' r']|] eqn:E2.
  { injection H as <- <-. apply nonterminal_sound. assumption. }
  destruct (bracketed c_open c_close _ s) as [[[es r']|]| |] eqn:E3; try discriminate.
  - injection H as <- <-.
    eapply (bracketed_sound _ _ _ _ _ _ _ TokOpen TokClose) in E3; auto; try (constructor; fail).
    destruct E3 as (toks & H1 & H2 & H3). eexists. split; [constructor; exact H1|]. split; assumption.
  - destruct (bracketed c_lbrack c_rbrack _ s) as [[[es r']|]| |] eqn:E4; try discriminate.
    cbn [pbind] in H. injection H as <- <-.
    eapply (bracketed_sound _ _ _ _ _ _ _ TokOpenOpt TokCloseOpt) in E4; auto; try (constructor; fail).
    destruct E4 as (toks & H1 & H2 & H3). eexists. split; [constructor; exact H1|]. split; assumption.
Qed.

Lemma after_lhs_sound s r : after_lhs F s = Some r -> clean r /\ exists inc, forall toks', spells toks' r -> spells (TokDefine inc :: toks') s.
Proof.
  unfold after_lhs. destruct (p_tag (f_separator F) s) as [s1|] eqn:E; [|discriminate]. cbn [obind]. apply p_tag_spec in E.
  intro H; injection H as <-. split; [apply clean_ws|]. subst s.
  destruct (p_char (f_alternative F) s1) as [s2|] eqn:E.
  - apply p_char_suffix in E. subst s1. exists true. intros toks' H.
    replace (f_separator F ++ f_alternative F :: s2) with ((f_separator F ++ [f_alternative F]) ++ s2) by (rewrite <- app_assoc; reflexivity).
    apply (spells_intro alphabetic Halpha Nt); auto; try discriminate. case Nt; constructor.
  - exists false. intros toks' H. apply (spells_intro alphabetic Halpha Nt); auto; try discriminate. case Nt; constructor.
Qed.
Lemma read_prod_lhs_sound s n r : read_prod_lhs alphabetic F s = Some (n, r) -> clean r /\ exists inc, forall toks', spells toks' r -> spells (TokName n :: TokDefine inc :: toks') s.
Proof.
  unfold read_prod_lhs. destruct (name alphabetic F s) as [[n' s1]|] eqn:E; [|discriminate]. cbn [obind].
  destruct (after_lhs F (ws s1)) as [s2|] eqn:E2; [|discriminate]. cbn [obind]. intro H; injection H as -> ->.
  apply after_lhs_sound in E2. destruct E2 as [H1 (inc & H2)]. split; [assumption|]. exists inc. intros toks' H.
  apply name_inv in E; [|assumption]. destruct E as (text & -> & H3 & H4).
  apply (spells_intro alphabetic Halpha Nt); auto; discriminate.
Qed.
Lemma prod_lhs_sound s t r : prod_lhs alphabetic F s = Some (t, r) -> clean r /\ exists n inc, t = Nonterminal n /\ forall toks', spells toks' r -> spells (TokName n :: TokDefine inc :: toks') s.
Proof.
  unfold prod_lhs, nonterminal. destruct (name alphabetic F s) as [[n' s1]|] eqn:E; [|discriminate]. cbn [obind].
  destruct (after_lhs F (ws s1)) as [s2|] eqn:E2; [|discriminate]. cbn [obind]. intro H; injection H as <- <-.
  destruct (read_prod_lhs_sound s n' s2) as [H1 (inc & H2)].
  { unfold read_prod_lhs. rewrite E. cbn [obind]. rewrite E2. reflexivity. }
  split; [assumption|]. exists n', inc. auto.
Qed.

Lemma read_production_sound fuel : sound production_toks (read_production alphabetic F fuel).
Proof.
  intros s p r H. unfold read_production in H. destruct (read_prod_lhs alphabetic F s) as [[n s1]|] eqn:E1; [|discriminate].
  cbn [pbind] in H. destruct (rhs_of F fuel _ s1) as [[[rhs s2]|]| |] eqn:E2; try discriminate. cbn [pbind] in H.
  assert (E : p = mkParsed n rhs /\ r = s2).
  { destruct s2 as [|c s2]; [injection H; auto|]. destruct (read_prod_lhs alphabetic F (c :: s2)); [injection H; auto|discriminate]. }
  destruct E as [-> ->]. apply rhs_of_sound in E2; [|apply read_term_sound].
  apply read_prod_lhs_sound in E1. destruct E1 as [_ (inc & H1)], E2 as (toks & H2 & H3 & H4).
  exists (TokName n :: TokDefine inc :: toks). split; [exists inc, toks; auto|]. split; [assumption|].
  intros toks' H5. cbn [app]. auto.
Qed.

Lemma prod_rhs_sound fuel : sound (alts (nonempty simple_toks)) (prod_rhs alphabetic F fuel).
Proof.
  intros s l r H. unfold prod_rhs in H. apply (xt_list_sound (nonempty simple_toks)) in H.
  - destruct H as (l' & toks & -> & H1 & H2). exists toks. split; assumption.
  - apply (many1_sound simple_toks). apply nbs_sound, parse_term_sound.
Qed.

(** A production as a parsed production. *)
Definition embed (p : production) : option parsed_production :=
  match p_lhs p with
  | Nonterminal n => Some (mkParsed n (map (map Simple) (p_rhs p)))
  | Terminal _ => None
  end.
Definition plain_toks (p : production) (ts : list token) : Prop :=
  exists p', embed p = Some p' /\ production_toks p' ts.

Lemma simple_alts l ts : alts (nonempty simple_toks) l ts <-> alts_toks (map (map Simple) l) ts.
Proof.
  rewrite alts_alts, <- alts_map. split; apply alts_ext; intros a t [H1 H2]; split.
  - destruct a; [contradiction|discriminate].
  - apply (items_map Simple term_toks). assumption.
  - destruct a; [contradiction|discriminate].
  - apply (items_map Simple term_toks). assumption.
Qed.

Lemma parse_production_sound fuel : sound plain_toks (parse_production alphabetic F fuel).
Proof.
  intros s p r H. unfold parse_production in H. destruct (prod_lhs alphabetic F s) as [[lhs s1]|] eqn:E1; [|discriminate].
  cbn [pbind] in H. destruct (prod_rhs alphabetic F fuel s1) as [[[rhs s2]|]| |] eqn:E2; try discriminate. cbn [pbind] in H.
  destruct (production_end alphabetic F s2); [|discriminate]. injection H as <- <-.
  apply prod_rhs_sound in E2. apply prod_lhs_sound in E1. destruct E1 as [_ (n & inc & -> & H1)], E2 as (toks & H2 & H3 & H4).
  exists (TokName n :: TokDefine inc :: toks). split.
  - eexists. split; [reflexivity|]. exists inc, toks. split; [|reflexivity]. apply simple_alts. assumption.
  - split; [assumption|]. intros toks' H5. cbn [app]. auto.
Qed.

Lemma productions_items g ts : productions_toks g ts <-> items production_toks g ts.
Proof. split; induction 1; constructor; auto. Qed.

(** Leading layout is only skipped before productions. *)
Definition sound_ws {A} (item : A -> list token -> Prop) (p : str -> pres A) : Prop :=
  forall s a r, p s = Ok (Some (a, r)) -> exists toks, item a toks /\ clean r /\
    forall toks', spells toks' r -> spells (toks ++ toks') (ws s).

Lemma read_grammar_sound s g : parsed_grammar_complete alphabetic F s = Ok (Some g) -> grammar_text alphabetic Nt g s.
Proof.
  unfold parsed_grammar_complete. intro H.
  assert (H' : read_grammar alphabetic F (fuel_for s) s = Ok (Some (g, []))).
  { destruct (read_grammar _ _ _ s) as [[[g' [|c r]]|]| |]; cbn in H; try discriminate. injection H as ->. reflexivity. }
  clear H. unfold read_grammar in H'.
  set (p := fun s0 : str => read_production alphabetic F (fuel_for s) (ws s0)) in H'.
  assert (Hp : sound_ws production_toks p).
  { intros s0 a r H. apply read_production_sound in H. exact H. }
  assert (Hl : forall fuel acc s l, clean s -> many1_loop fuel p acc s = Ok (Some (l, [])) ->
            exists l' toks, l = acc ++ l' /\ items production_toks l' toks /\ spells toks s).
  { induction fuel as [|fuel IH]; intros acc s0 l Hc H; [discriminate|]. cbn [many1_loop] in H.
    destruct (p s0) as [[[a s1]|]| |] eqn:E; try discriminate.
    - destruct (Nat.eqb _ _); [discriminate|]. destruct (Hp _ _ _ E) as (toks1 & H1 & H2 & H3).
      apply IH in H; [|assumption]. destruct H as (l' & toks & -> & H4 & H5).
      exists (a :: l'), (toks1 ++ toks). split; [rewrite <- app_assoc; reflexivity|]. split; [constructor; assumption|].
      rewrite <- Hc. auto.
    - injection H as <- ->. exists [], []. split; [symmetry; apply app_nil_r|]. split; [constructor|]. constructor. left; reflexivity. }
  unfold many1 in H'. destruct (p (ws s)) as [[[a s1]|]| |] eqn:E; try discriminate. cbn [pbind] in H'.
  destruct (Hp _ _ _ E) as (toks1 & H1 & H2 & H3). apply Hl in H'; [|assumption].
  destruct H' as (l' & toks & -> & H4 & H5). apply H3 in H5. rewrite (clean_ws s) in H5.
  apply spells_unskip in H5; [|assumption]. destruct H5 as (lay & rest & -> & Hlay & Hsp).
  exists lay, rest, (toks1 ++ toks). split; [reflexivity|]. split; [assumption|]. split; [discriminate|].
  split; [|assumption]. apply productions_items. constructor; assumption.
Qed.
End Alpha.
