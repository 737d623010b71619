(** The text parsers accept exactly the texts of the specification, continued: every text of the
    specification is accepted. *)
From Verif Require Export TextRead.
From Coq Require String.
Import String.StringSyntax.

(** What may follow a complete right hand side, and an alternative. *)
Definition ends_rhs (toks : list token) : Prop :=
  match toks with
  | [] => True
  | TokClose :: _ | TokCloseOpt :: _ => True
  | TokName _ :: TokDefine _ :: _ => True
  | _ => False
  end.
Definition ends_alt (toks : list token) : Prop :=
  match toks with TokAlt :: _ => True | _ => ends_rhs toks end.
Definition no_define (toks : list token) : Prop :=
  match toks with TokDefine _ :: _ => False | _ => True end.
Lemma ends_rhs_alt toks : ends_rhs toks -> ends_alt toks.
Proof. destruct toks as [|[] toks]; cbn; auto. Qed.
Lemma ends_alt_no_define toks : ends_alt toks -> no_define toks.
Proof. destruct toks as [|[] toks]; cbn; auto. Qed.
Lemma term_no_define t ts toks : term_toks t ts -> no_define (ts ++ toks).
Proof. destruct 1; cbn; exact I. Qed.

Section Alpha.
Variable alphabetic : char -> bool.
Hypothesis Halpha : alphabetic_ok alphabetic.
Variable Nt : notation.
Notation F := (format_of Nt).
Notation spells := (spells alphabetic Nt).
Notation ws := whitespace_plus_comments.

(** [r] is what remains of [s] after at least one token. *)
Definition eats (toks : list token) (s r : str) : Prop :=
  spells toks r /\ clean r /\ exists pre, pre <> [] /\ s = pre ++ r.

Lemma eats_shorter toks s r : eats toks s r -> length r < length s.
Proof. intros (_ & _ & pre & Hp & ->). rewrite app_length. destruct pre; [contradiction|]. cbn. lia. Qed.
Lemma eats_bytes toks s r : eats toks s r -> Nat.eqb (byte_len r) (byte_len s) = false.
Proof. intros (_ & _ & pre & Hp & ->). apply Nat.eqb_neq, proper_bytes. assumption. Qed.
Lemma eats_trans t1 t2 a b c : eats t1 a b -> eats t2 b c -> eats t2 a c.
Proof.
  intros (_ & _ & p & Hp & ->) (H1 & H2 & q & Hq & ->). split; [assumption|]. split; [assumption|].
  exists (p ++ q). split; [destruct p; [contradiction|discriminate]|]. rewrite app_assoc. reflexivity.
Qed.

Lemma text_nonempty tok text : token_text alphabetic Nt tok text -> text <> [].
Proof. intro H. apply token_first in H; [|assumption]. destruct H as (c & r & -> & _). discriminate. Qed.

Lemma eats_ws tok text toks s1 : token_text alphabetic Nt tok text -> spells toks (ws s1) -> eats toks (text ++ s1) (ws s1).
Proof.
  intros Ht Hs. split; [assumption|]. split; [apply clean_ws|]. destruct (ws_suffix s1) as [pre E].
  exists (text ++ pre). split; [|rewrite <- app_assoc; congruence].
  pose proof (text_nonempty _ _ Ht). destruct text; [contradiction|discriminate].
Qed.

Definition complete {A} (item : A -> list token -> Prop) (follow : list token -> Prop) (bound : nat) (p : str -> pres A) : Prop :=
  forall a ts toks s, item a ts -> follow toks -> length s < bound -> spells (ts ++ toks) s ->
    exists r, p s = Ok (Some (a, r)) /\ eats toks s r.

Lemma terminal_complete q x toks s : spells (TokString q x :: toks) s -> exists r, terminal s = Some (Terminal x, r) /\ eats toks s r.
Proof.
  intro H. apply spells_inv in H; [|assumption]. destruct H as (text & s1 & -> & Ht & Hs & _).
  pose proof (eats_ws _ _ _ _ Ht Hs). apply token_text_inv in Ht. destruct Ht as (-> & Hq & Hx).
  exists (ws s1). split; [apply terminal_make|]; assumption.
Qed.
Lemma name_complete n toks s : spells (TokName n :: toks) s -> exists s1, name alphabetic F s = Some (n, s1) /\ eats toks s (ws s1).
Proof.
  intro H. apply spells_inv in H; [|assumption]. destruct H as (text & s1 & -> & Ht & Hs & _ & He).
  exists s1. split; [apply name_make; auto; intro E; eapply He; eauto|]. eapply eats_ws; eassumption.
Qed.
Lemma nonterminal_complete n toks s : spells (TokName n :: toks) s ->
  terminal s = None /\ exists r, nonterminal alphabetic F s = Some (Nonterminal n, r) /\ eats toks s r.
Proof.
  intro H. split.
  - apply spells_inv in H; [|assumption]. destruct H as (text & s1 & -> & Ht & _).
    eapply terminal_none; [exact Halpha|exact Ht|reflexivity].
  - apply name_complete in H. destruct H as (s1 & E & He). exists (ws s1). unfold nonterminal. rewrite E. auto.
Qed.

Lemma simple_complete t ts toks s : simple_toks t ts -> spells (ts ++ toks) s ->
  exists r, parse_term alphabetic F s = Some (t, r) /\ eats toks s r.
Proof.
  intros Ht Hs. unfold parse_term. inversion Ht; subst; cbn [app] in Hs.
  - destruct (terminal_complete _ _ _ _ Hs) as (r & -> & H). eauto.
  - destruct (nonterminal_complete _ _ _ Hs) as (-> & r & -> & H). eauto.
Qed.

(** No term begins where a right hand side ends. *)
Lemma separator_complete inc toks s : spells (TokDefine inc :: toks) s -> exists s1, p_tag (f_separator F) s = Some s1.
Proof.
  intro H. apply spells_inv in H; [|assumption]. destruct H as (text & s1 & -> & Ht & _). apply token_text_inv in Ht. subst text.
  eexists. apply p_tag_spec. rewrite <- app_assoc. reflexivity.
Qed.
Lemma separator_no_define toks s : no_define toks -> spells toks s -> clean s -> p_tag (f_separator F) s = None.
Proof.
  intros Hn H Hc. inversion H as [s' Hl E1 E2|tok text lay rest toks' Ht Hl Ho Hna Hs E1 E2]; subst.
  - unfold clean, ws in Hc. rewrite (skip_last s Hl) in Hc. rewrite <- Hc. case Nt; reflexivity.
  - eapply separator_none; [exact Halpha|exact Ht|]. destruct tok; try reflexivity. contradiction.
Qed.

Lemma end_fails {A} (toks : list token) (s : str) (x : pres A) : ends_alt toks -> spells toks s -> clean s ->
  (forall n inc toks', toks = TokName n :: TokDefine inc :: toks' -> exists a r, x = Ok (Some (a, r)) /\ eats (TokDefine inc :: toks') s r) ->
  (terminal s = None -> name alphabetic F s = None -> p_char c_open s = None -> p_char c_lbrack s = None -> x = Ok None) ->
  not_before_separator F x = Ok None.
Proof.
  intros He H Hc H1 H2.
  assert (Hplain : forall tok text s1 toks', toks = tok :: toks' -> s = text ++ s1 -> token_text alphabetic Nt tok text ->
            is_name tok = false -> is_string tok = false -> tok <> TokOpen -> tok <> TokOpenOpt -> not_before_separator F x = Ok None).
  { intros tok text s1 toks' -> -> Ht E1 E2 E3 E4. rewrite H2; [reflexivity| | | |].
    - eapply terminal_none; eauto.
    - eapply name_none; eauto.
    - eapply char_none; eauto; try (right; discriminate). left; reflexivity.
    - eapply char_none; eauto; try (right; discriminate). right; right; left; reflexivity. }
  inversion H as [s' Hl E1 E2|tok text lay rest toks' Ht Hl Ho Hna Hs E1 E2]; subst.
  - unfold clean, ws in Hc. rewrite (skip_last s Hl) in Hc. subst s. rewrite H2; try reflexivity. case Nt; reflexivity.
  - destruct tok; cbn in He; try contradiction; try (eapply Hplain; eauto; discriminate).
    destruct toks' as [|[] toks']; cbn in He; try contradiction.
    destruct (H1 _ _ _ eq_refl) as (a & r & -> & Hea). cbn. destruct Hea as (Hr & _).
    destruct (separator_complete _ _ _ Hr) as [s1 ->]. reflexivity.
Qed.

(** ** Lists *)

Lemma many1_loop_complete {A} (item : A -> list token -> Prop) (follow stop : list token -> Prop) bound p :
  complete item follow bound p ->
  (forall a ts toks, item a ts -> follow (ts ++ toks)) -> (forall toks, stop toks -> follow toks) ->
  (forall toks s, stop toks -> length s < bound -> spells toks s -> clean s -> p s = Ok None) ->
  forall l ts, items item l ts -> forall fuel acc toks s, stop toks -> length s < bound -> length s < fuel -> clean s ->
    spells (ts ++ toks) s ->
    exists r, many1_loop fuel p acc s = Ok (Some (acc ++ l, r)) /\ (l = [] /\ ts = [] /\ r = s \/ eats toks s r).
Proof.
  intros Hp Hf1 Hf2 Hstop. induction 1 as [|a l ts ts' Ha Hl IH]; intros fuel acc toks s Hs Hb Hfu Hc Hsp.
  - destruct fuel as [|fuel]; [lia|]. cbn [many1_loop]. rewrite (Hstop toks s) by assumption.
    exists s. rewrite app_nil_r. auto.
  - destruct fuel as [|fuel]; [lia|]. cbn [many1_loop]. rewrite <- app_assoc in Hsp.
    assert (Hfo : follow (ts' ++ toks)).
    { destruct Hl; [apply Hf2; assumption|]. rewrite <- app_assoc. eapply Hf1. eassumption. }
    destruct (Hp a ts (ts' ++ toks) s Ha Hfo Hb Hsp) as (r & -> & He). rewrite (eats_bytes _ _ _ He).
    pose proof (eats_shorter _ _ _ He). destruct He as (H1 & H2 & H3) eqn:Eh. 
    destruct (IH fuel (acc ++ [a]) toks r Hs) as (r' & -> & Hr'); try lia; try assumption.
    exists r'. rewrite <- app_assoc. split; [reflexivity|]. right.
    destruct Hr' as [(-> & -> & ->)|Hr']; [split; [exact H1|]; split; [exact H2|exact H3]|].
    eapply eats_trans; eassumption.
Qed.

Lemma many1_complete {A} (item : A -> list token -> Prop) (follow stop : list token -> Prop) bound p fuel :
  complete item follow bound p ->
  (forall a ts toks, item a ts -> follow (ts ++ toks)) -> (forall toks, stop toks -> follow toks) ->
  (forall toks s, stop toks -> length s < bound -> spells toks s -> clean s -> p s = Ok None) ->
  bound <= fuel -> complete (nonempty item) stop bound (many1 fuel p).
Proof.
  intros Hp Hf1 Hf2 Hstop Hfu l ts toks s [Hne Hl] Hs Hb Hsp. destruct Hl as [|a l ts ts' Ha Hl]; [contradiction|].
  rewrite <- app_assoc in Hsp. unfold many1.
  assert (Hfo : follow (ts' ++ toks)).
  { destruct Hl; [apply Hf2; assumption|]. rewrite <- app_assoc. eapply Hf1. eassumption. }
  destruct (Hp a ts (ts' ++ toks) s Ha Hfo Hb Hsp) as (r & -> & He). cbn [pbind].
  pose proof (eats_shorter _ _ _ He). pose proof He as (H1 & H2 & H3).
  destruct (many1_loop_complete item follow stop bound p Hp Hf1 Hf2 Hstop l ts' Hl fuel [a] toks r Hs) as (r' & -> & Hr');
    try lia; try assumption.
  exists r'. split; [reflexivity|]. destruct Hr' as [(-> & -> & ->)|Hr']; [exact He|]. eapply eats_trans; eassumption.
Qed.

Lemma alt_complete toks s : spells (TokAlt :: toks) s -> exists r, expression_next F s = Some r /\ eats toks s r.
Proof.
  intro H. apply spells_inv in H; [|assumption]. destruct H as (text & s1 & -> & Ht & Hs & _).
  pose proof (eats_ws _ _ _ _ Ht Hs). apply token_text_inv in Ht. subst text. exists (ws s1). split; [|assumption].
  unfold expression_next. cbn [app]. rewrite p_char_make. reflexivity.
Qed.
Lemma alt_none toks s : ends_rhs toks -> spells toks s -> clean s -> expression_next F s = None.
Proof.
  intros Hn H Hc. unfold expression_next. inversion H as [s' Hl E1 E2|tok text lay rest toks' Ht Hl Ho Hna Hs E1 E2]; subst.
  - unfold clean, ws in Hc. rewrite (skip_last s Hl) in Hc. rewrite <- Hc. reflexivity.
  - rewrite (alternative_none alphabetic Halpha Nt tok text); [reflexivity|exact Ht|].
    intros ->. contradiction.
Qed.

Lemma xt_list_complete {A} (item : A -> list token -> Prop) bound p :
  complete item ends_alt bound p ->
  forall l ts, alts item l ts -> forall fuel acc toks s, ends_rhs toks -> length s < bound -> length s < fuel ->
    spells (ts ++ toks) s ->
    exists r, xt_list fuel p (expression_next F) acc s = Ok (Some (acc ++ l, r)) /\ eats toks s r.
Proof.
  intro Hp. induction 1 as [a ts Ha|a l ts ts' Ha Hl IH]; intros fuel acc toks s Hs Hb Hfu Hsp;
    (destruct fuel as [|fuel]; [lia|]); cbn [xt_list].
  - destruct (Hp a ts toks s Ha (ends_rhs_alt _ Hs) Hb Hsp) as (r & -> & He). cbn [pbind].
    pose proof He as (H1 & H2 & _). rewrite (alt_none _ _ Hs H1 H2). eauto.
  - rewrite <- app_assoc in Hsp. cbn [app] in Hsp.
    destruct (Hp a ts (TokAlt :: ts' ++ toks) s Ha I Hb Hsp) as (r & -> & He). cbn [pbind].
    pose proof He as (H1 & H2 & _). destruct (alt_complete _ _ H1) as (r2 & -> & He2).
    pose proof (eats_shorter _ _ _ He). pose proof (eats_shorter _ _ _ He2). pose proof He2 as (H3 & H4 & _).
    destruct (IH fuel (acc ++ [a]) toks r2 Hs) as (r' & -> & Hr'); try lia; try assumption.
    exists r'. rewrite <- app_assoc. split; [reflexivity|]. eapply eats_trans; [exact He|]. eapply eats_trans; eassumption.
Qed.

(** ** Expressions *)

Lemma nbs_complete {A} (item : A -> list token -> Prop) bound p : complete item (fun _ => True) bound p ->
  complete item no_define bound (fun s => not_before_separator F (p s)).
Proof.
  intros Hp a ts toks s Ha Hn Hb Hs. destruct (Hp a ts toks s Ha I Hb Hs) as (r & -> & He). exists r. split; [|exact He].
  cbn. destruct He as (H1 & H2 & _). rewrite (separator_no_define toks r Hn H1 H2). reflexivity.
Qed.

Lemma parse_term_complete bound : complete simple_toks (fun _ => True) bound (fun s => Ok (parse_term alphabetic F s)).
Proof.
  intros t ts toks s Ht _ _ Hs. destruct (simple_complete t ts toks s Ht Hs) as (r & E & He). rewrite E. eauto.
Qed.

Lemma nonterminal_none s : name alphabetic F s = None -> nonterminal alphabetic F s = None.
Proof. intro H. unfold nonterminal. rewrite H. reflexivity. Qed.

Lemma parse_expression_complete fuel : complete (nonempty simple_toks) ends_alt fuel (parse_expression alphabetic F fuel).
Proof.
  apply (many1_complete simple_toks no_define ends_alt fuel).
  - apply nbs_complete, parse_term_complete.
  - intros a ts toks. apply term_no_define.
  - apply ends_alt_no_define.
  - intros toks s He _ Hs Hc. apply (end_fails toks s); auto.
    + intros n inc toks' ->. destruct (simple_complete (Nonterminal n) [TokName n] (TokDefine inc :: toks') s) as (r & E & Hr).
      * constructor.
      * exact Hs.
      * rewrite E. eauto.
    + intros H1 H2 _ _. unfold parse_term. rewrite H1. rewrite nonterminal_none by assumption. reflexivity.
  - apply le_n.
Qed.

Lemma prod_rhs_complete fuel : complete (alts (nonempty simple_toks)) ends_rhs fuel (prod_rhs alphabetic F fuel).
Proof.
  intros l ts toks s Hl He Hb Hs. unfold prod_rhs.
  apply (xt_list_complete (nonempty simple_toks) fuel _ (parse_expression_complete fuel) l ts Hl fuel [] toks s); assumption.
Qed.

Lemma expression_of_complete bound fuel p : complete term_toks (fun _ => True) bound p ->
  (forall toks s, ends_alt toks -> length s < bound -> spells toks s -> clean s -> not_before_separator F (p s) = Ok None) ->
  bound <= fuel -> complete (nonempty term_toks) ends_alt bound (expression_of F fuel p).
Proof.
  intros Hp He Hb. apply (many1_complete term_toks no_define ends_alt bound).
  - apply nbs_complete. assumption.
  - intros a ts toks. apply term_no_define.
  - apply ends_alt_no_define.
  - exact He.
  - exact Hb.
Qed.
Lemma rhs_of_complete bound fuel p : complete term_toks (fun _ => True) bound p ->
  (forall toks s, ends_alt toks -> length s < bound -> spells toks s -> clean s -> not_before_separator F (p s) = Ok None) ->
  bound <= fuel -> complete alts_toks ends_rhs bound (rhs_of F fuel p).
Proof.
  intros Hp He Hb l ts toks s Hl Hf Hle Hs. apply alts_alts in Hl. unfold rhs_of.
  apply (xt_list_complete (nonempty term_toks) bound _ (expression_of_complete bound fuel p Hp He Hb) l ts Hl fuel [] toks s); auto. lia.
Qed.

Lemma bracketed_none a b inner s : p_char a s = None -> bracketed a b inner s = Ok None.
Proof. intro H. unfold bracketed. rewrite H. reflexivity. Qed.

Lemma bracketed_complete a b inner op cl es ts toks s bound :
  op = TokOpen \/ op = TokOpenOpt -> cl = TokClose \/ cl = TokCloseOpt ->
  token_text alphabetic Nt op [a] -> token_text alphabetic Nt cl [b] ->
  (forall text, token_text alphabetic Nt op text -> text = [a]) -> (forall text, token_text alphabetic Nt cl text -> text = [b]) ->
  complete alts_toks ends_rhs bound inner -> length s <= bound ->
  alts_toks es ts -> spells ((op :: ts ++ [cl]) ++ toks) s ->
  exists r, bracketed a b inner s = Ok (Some (es, r)) /\ eats toks s r.
Proof.
  intros Hop Hcl Ta Tb Ua Ub Hi Hb Hes Hs. cbn [app] in Hs. apply spells_inv in Hs; [|assumption].
  destruct Hs as (text & s1 & -> & Ht & _ & Hs & _). rewrite (Ua _ Ht) in *. specialize (Hs Hop). cbn [app] in *. cbn [length] in Hb.
  rewrite <- app_assoc in Hs. cbn [app] in Hs.
  destruct (Hi es ts (cl :: toks) s1 Hes) as (r1 & E1 & He1); [destruct Hcl as [->| ->]; exact I|lia|exact Hs|].
  pose proof He1 as (H1 & _). apply spells_inv in H1; [|assumption]. destruct H1 as (text2 & s2 & -> & Ht2 & Hs2 & _).
  rewrite (Ub _ Ht2) in *. exists (ws s2). split.
  - unfold bracketed. rewrite p_char_make. cbn [option_map pbind]. rewrite E1. cbn [pbind app]. rewrite p_char_make. reflexivity.
  - pose proof (eats_ws _ _ _ _ Ht2 Hs2) as He2. rewrite (Ub _ Ht2) in He2. pose proof (eats_trans _ _ _ _ _ He1 He2) as (H3 & H4 & pre & H5 & E).
    split; [assumption|]. split; [assumption|]. exists (a :: pre). split; [discriminate|]. cbn. rewrite <- E. reflexivity.
Qed.

Lemma read_term_end f : 0 < f -> forall toks s, ends_alt toks -> spells toks s -> clean s ->
  not_before_separator F (read_term alphabetic F f s) = Ok None.
Proof.
  intros Hf toks s He Hs Hc. destruct f as [|f]; [lia|]. apply (end_fails toks s); auto.
  - intros n inc toks' ->. destruct (nonterminal_complete n (TokDefine inc :: toks') s Hs) as (E1 & r & E2 & Hr).
    cbn [read_term]. rewrite E1, E2. eauto.
  - intros H1 H2 H3 H4. cbn [read_term]. rewrite H1, nonterminal_none by assumption.
    rewrite !bracketed_none by assumption. reflexivity.
Qed.

Lemma read_term_complete f : complete term_toks (fun _ => True) f (read_term alphabetic F f).
Proof.
  induction f as [|f IH]; intros t ts toks s Ht _ Hb Hs; [lia|].
  assert (Hr : complete alts_toks ends_rhs f (rhs_of F f (read_term alphabetic F f))).
  { apply rhs_of_complete; [exact IH| |apply le_n]. intros toks' s' H1 H2. apply read_term_end; [lia|assumption]. }
  cbn [read_term]. destruct Ht as [q x|n|es ts H|es ts H].
  - destruct (terminal_complete _ _ _ _ Hs) as (r & -> & He). eauto.
  - destruct (nonterminal_complete _ _ _ Hs) as (-> & r & -> & He). eauto.
  - pose proof Hs as Hs'. cbn [app] in Hs'. apply spells_inv in Hs'; [|assumption]. destruct Hs' as (text & s1 & E & Htx & _).
    assert (E1 : terminal s = None) by (rewrite E; apply (terminal_none alphabetic Halpha Nt TokOpen text s1 Htx eq_refl)).
    assert (E2 : name alphabetic F s = None) by (rewrite E; apply (name_none alphabetic Halpha Nt TokOpen text s1 Htx eq_refl)).
    rewrite E1, (nonterminal_none s E2).
    destruct (bracketed_complete c_open c_close (rhs_of F f (read_term alphabetic F f)) TokOpen TokClose es ts toks s f) with (2 := or_introl eq_refl : TokClose = TokClose \/ TokClose = TokCloseOpt) (7 := Hr)
      as (r & Eb & He); auto; try (constructor; fail); try (intros tx Hx; apply token_text_inv in Hx; exact Hx); try lia.
    rewrite Eb. eauto.
  - pose proof Hs as Hs'. cbn [app] in Hs'. apply spells_inv in Hs'; [|assumption]. destruct Hs' as (text & s1 & E & Htx & _).
    assert (E1 : terminal s = None) by (rewrite E; apply (terminal_none alphabetic Halpha Nt TokOpenOpt text s1 Htx eq_refl)).
    assert (E2 : name alphabetic F s = None) by (rewrite E; apply (name_none alphabetic Halpha Nt TokOpenOpt text s1 Htx eq_refl)).
    rewrite E1, (nonterminal_none s E2).
    assert (E3 : p_char c_open s = None).
    { rewrite E. eapply (char_none alphabetic Halpha Nt c_open TokOpenOpt text s1 Htx); first [left; discriminate|right; discriminate|left; reflexivity]. }
    rewrite (bracketed_none c_open c_close _ s E3).
    destruct (bracketed_complete c_lbrack c_rbrack (rhs_of F f (read_term alphabetic F f)) TokOpenOpt TokCloseOpt es ts toks s f) with (2 := or_intror eq_refl : TokCloseOpt = TokClose \/ TokCloseOpt = TokCloseOpt) (7 := Hr)
      as (r & Eb & He); auto; try (constructor; fail); try (intros tx Hx; apply token_text_inv in Hx; exact Hx); try lia.
    rewrite Eb. cbn [pbind]. eauto.
Qed.

Lemma read_rhs_complete f : complete alts_toks ends_rhs f (rhs_of F f (read_term alphabetic F f)).
Proof.
  apply rhs_of_complete; [apply read_term_complete| |apply le_n]. intros toks' s' H1 H2. apply read_term_end; [lia|assumption].
Qed.

(** ** Productions and grammars *)

Lemma after_lhs_complete inc toks s : match toks with TokAlt :: _ => False | [] => False | _ => True end ->
  spells (TokDefine inc :: toks) s -> exists r, after_lhs F s = Some r /\ eats toks s r.
Proof.
  intros Hn H. apply spells_inv in H; [|assumption]. destruct H as (text & s1 & -> & Ht & Hs & _).
  pose proof (eats_ws _ _ _ _ Ht Hs) as He. apply token_text_inv in Ht. exists (ws s1). split; [|assumption].
  unfold after_lhs. rewrite Ht, <- app_assoc.
  destruct inc.
  - rewrite (proj2 (p_tag_spec _ _ ([f_alternative F] ++ s1)) eq_refl). cbn [obind app]. rewrite p_char_make. reflexivity.
  - rewrite (proj2 (p_tag_spec _ _ ([] ++ s1)) eq_refl). cbn [obind app].
    destruct (p_char (f_alternative F) s1) as [s2|] eqn:E; [|reflexivity]. exfalso. apply p_char_suffix in E.
    assert (Hw : ws s1 = s1) by (subst s1; case Nt; reflexivity). rewrite Hw in Hs.
    inversion Hs as [s' Hl E1 E2|tok text' lay rest toks' Ht' Hl Ho Hna Hs' E1 E2]; subst; [contradiction|].
    assert (Hx : p_char (f_alternative F) (text' ++ lay ++ rest) = None).
    { eapply alternative_none; [exact Halpha|exact Ht'|]. intros ->. contradiction. }
    rewrite E2, p_char_make in Hx. discriminate.
Qed.

Lemma alts_first es ts toks : alts_toks es ts -> match ts ++ toks with TokAlt :: _ => False | [] => False | _ => True end.
Proof.
  intro H. assert (Hf : exists e ts1 ts2, e <> [] /\ terms_toks e ts1 /\ ts = ts1 ++ ts2).
  { destruct H as [e ts H1 H2|e es ts ts' H1 H2 _]; [exists e, ts, []; rewrite app_nil_r|exists e, ts, (TokAlt :: ts')]; auto. }
  destruct Hf as (e & ts1 & ts2 & H1 & H2 & ->). destruct H2 as [|t e a b Ht _]; [contradiction|].
  destruct Ht; exact I.
Qed.

Lemma read_prod_lhs_complete n inc toks s : match toks with TokAlt :: _ => False | [] => False | _ => True end ->
  spells (TokName n :: TokDefine inc :: toks) s -> exists r, read_prod_lhs alphabetic F s = Some (n, r) /\ eats toks s r.
Proof.
  intros Hn H. destruct (name_complete _ _ _ H) as (s1 & E1 & He1). pose proof He1 as (H1 & _).
  destruct (after_lhs_complete inc toks (ws s1) Hn H1) as (r & E2 & He2). exists r. split; [|eapply eats_trans; eassumption].
  unfold read_prod_lhs. rewrite E1. cbn [obind]. rewrite E2. reflexivity.
Qed.
Lemma prod_lhs_complete n inc toks s : match toks with TokAlt :: _ => False | [] => False | _ => True end ->
  spells (TokName n :: TokDefine inc :: toks) s -> exists r, prod_lhs alphabetic F s = Some (Nonterminal n, r) /\ eats toks s r.
Proof.
  intros Hn H. destruct (read_prod_lhs_complete n inc toks s Hn H) as (r & E & He). exists r. split; [|assumption].
  unfold read_prod_lhs in E. unfold prod_lhs, nonterminal. destruct (name alphabetic F s) as [[n' s1]|]; [|discriminate].
  cbn [obind] in *. destruct (after_lhs F (ws s1)); [|discriminate]. cbn [obind] in *. congruence.
Qed.

(** What may follow a production: nothing or another production. *)
Definition production_follows (toks : list token) : Prop :=
  toks = [] \/ exists p ts toks', production_toks p ts /\ toks = ts ++ toks'.
Lemma production_follows_ends toks : production_follows toks -> ends_rhs toks.
Proof. intros [->|(p & ts & toks' & (inc & ts' & _ & ->) & ->)]; exact I. Qed.
Lemma spells_clean_nil s : spells [] s -> clean s -> s = [].
Proof. intros H Hc. inversion H as [s' Hl E1 E2|]; subst. unfold clean, ws in Hc. rewrite (skip_last s Hl) in Hc. auto. Qed.

Lemma production_follows_lhs toks s : production_follows toks -> spells toks s -> clean s ->
  s = [] \/ exists n r, read_prod_lhs alphabetic F s = Some (n, r).
Proof.
  intros [->|(p & ts & toks' & (inc & ts' & Ha & ->) & ->)] Hs Hc; [left; apply spells_clean_nil; assumption|].
  right. cbn [app] in Hs. destruct (read_prod_lhs_complete (pp_lhs p) inc (ts' ++ toks') s) as (r & E & _); eauto.
  apply (alts_first _ _ _ Ha).
Qed.

Lemma read_production_complete f : complete production_toks production_follows f (read_production alphabetic F f).
Proof.
  intros p ts toks s (inc & ts' & Ha & ->) Hf Hb Hs. cbn [app] in Hs.
  destruct (read_prod_lhs_complete _ _ _ _ (alts_first _ _ toks Ha) Hs) as (r & E1 & He1).
  pose proof He1 as (H1 & _). pose proof (eats_shorter _ _ _ He1).
  destruct (read_rhs_complete f (pp_rhs p) ts' toks r Ha (production_follows_ends _ Hf)) as (r2 & E2 & He2); [lia|exact H1|].
  exists r2. split; [|eapply eats_trans; eassumption]. unfold read_production. rewrite E1. cbn [pbind]. rewrite E2. cbn [pbind].
  replace (mkParsed (pp_lhs p) (pp_rhs p)) with p by (destruct p; reflexivity).
  destruct He2 as (H2 & H3 & _). destruct (production_follows_lhs _ _ Hf H2 H3) as [->|(n & x & E)]; [reflexivity|].
  destruct r2; [reflexivity|]. rewrite E. reflexivity.
Qed.

Lemma plain_follows_end toks s : production_follows toks -> spells toks s -> clean s -> production_end alphabetic F s = true.
Proof.
  intros Hf Hs Hc. destruct s as [|c s]; [reflexivity|].
  destruct (production_follows_lhs _ _ Hf Hs Hc) as [E|(n & r & E)]; [discriminate|].
  unfold production_end. rewrite Hc. revert E. unfold read_prod_lhs, prod_lhs, nonterminal.
  case Nt; cbn [format_of f_start BNF ABNF].
  - unfold name. cbn [f_delimiter BNF]. destruct (p_char c_lt (c :: s)); [reflexivity|discriminate].
  - destruct (name alphabetic ABNF (c :: s)) as [[n' s1]|]; [|discriminate]. cbn [obind].
    destruct (after_lhs ABNF (ws s1)); [reflexivity|discriminate].
Qed.

Lemma parse_production_complete f : complete plain_toks production_follows f (parse_production alphabetic F f).
Proof.
  intros p ts toks s (p' & Ep & inc & ts' & Ha & ->) Hf Hb Hs. cbn [app] in Hs.
  unfold embed in Ep. destruct p as [[x|n] rhs]; cbn in Ep; [discriminate|]. injection Ep as <-. cbn [pp_lhs pp_rhs] in *.
  destruct (prod_lhs_complete _ _ _ _ (alts_first _ _ toks Ha) Hs) as (r & E1 & He1).
  pose proof He1 as (H1 & _). pose proof (eats_shorter _ _ _ He1).
  destruct (prod_rhs_complete f rhs ts' toks r) as (r2 & E2 & He2); [apply simple_alts; assumption|apply production_follows_ends; assumption|lia|exact H1|].
  exists r2. split; [|eapply eats_trans; eassumption]. unfold parse_production. rewrite E1. cbn [pbind]. rewrite E2. cbn [pbind].
  destruct He2 as (H2 & H3 & _). rewrite (plain_follows_end _ _ Hf H2 H3). reflexivity.
Qed.

Lemma ws_production_complete {A} (item : A -> list token -> Prop) follow f (p : str -> pres A) :
  (forall a ts, item a ts -> exists tok ts', ts = tok :: ts') ->
  complete item follow f p -> complete item follow f (fun s => p (ws s)).
Proof.
  intros Hi Hp a ts toks s Ha Hf Hb Hs. destruct (Hi a ts Ha) as (tok & ts' & E).
  assert (Hc : ws s = s).
  { subst ts. cbn [app] in Hs. apply spells_inv in Hs; [|assumption]. destruct Hs as (text & s1 & -> & Ht & _).
    apply (skip_token alphabetic Halpha Nt tok). assumption. }
  rewrite Hc. eapply Hp; eassumption.
Qed.

Lemma read_grammar_complete s g : grammar_text alphabetic Nt g s -> parsed_grammar_complete alphabetic F s = Ok (Some g).
Proof.
  intros (lay & rest & toks & -> & Hl & Hne & Hg & Hs). unfold parsed_grammar_complete, read_grammar.
  set (f := fuel_for (lay ++ rest)). unfold ws at 2. rewrite skip_layout by assumption.
  assert (Hc : skip false rest = rest).
  { destruct g as [|p g]; [contradiction|]. inversion Hg as [|p' g' ts ts' (inc & ts'' & _ & ->) _ E1 E2]; subst.
    cbn [app] in Hs. apply spells_inv in Hs; [|assumption]. destruct Hs as (text & s1 & -> & Ht & _).
    eapply skip_token; eassumption. }
  rewrite Hc. apply productions_items in Hg.
  assert (Hb : length rest < f) by (unfold f, fuel_for; rewrite app_length; lia).
  assert (Hp : complete production_toks production_follows f (fun s => read_production alphabetic F f (ws s))).
  { apply ws_production_complete; [|apply read_production_complete]. intros a ts (inc & ts' & _ & ->). eauto. }
  destruct (many1_complete production_toks production_follows (fun toks => toks = []) f _ f Hp) with (a := g) (ts := toks) (toks := @nil token) (s := rest)
    as (r & E & He); auto.
  - intros a ts toks' H. right. eauto.
  - intros toks' ->. left; reflexivity.
  - intros toks' s -> _ H1 H2. rewrite (spells_clean_nil s H1 H2). unfold read_production. case Nt; reflexivity.
  - split; assumption.
  - rewrite app_nil_r. assumption.
  - unfold many1 in *. rewrite E. destruct He as (H1 & H2 & _). rewrite (spells_clean_nil r H1 H2). reflexivity.
Qed.
End Alpha.
