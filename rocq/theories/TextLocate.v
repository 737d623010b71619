(** Where reading a grammar stops: the text before the place named by an [Eof] error is a complete
    grammar, and what follows starts like a rule. *)
From Verif Require Export TextTail TextErrorsProofs.
From Coq Require String.
Import String.StringSyntax.

(** ** Specification *)

(** The text starts like a rule: a name, layout and a definition symbol. *)
Definition rule_head (alphabetic : char -> bool) (N : notation) (r : str) : Prop :=
  exists n name_text lay inc define rest, r = name_text ++ lay ++ define ++ rest /\
    token_text alphabetic N (TokName n) name_text /\ layout lay /\ token_text alphabetic N (TokDefine inc) define /\
    (N = Abnf -> exists c l, lay = c :: l /\ is_whitespace c = true).

(** ** Proofs *)

Section Locate.
Variable alphabetic : char -> bool.
Hypothesis Halpha : alphabetic_ok alphabetic.
Variable Nt : notation.
Notation F := (format_of Nt).
Notation spells := (spells alphabetic Nt).
Notation ws := whitespace_plus_comments.

Definition starts_rule (r : str) : Prop := exists n r', read_prod_lhs alphabetic F r = Some (n, r').

Lemma define_first inc text : token_text alphabetic Nt (TokDefine inc) text ->
  exists c t, text = c :: t /\ ~ ends_name c /\ is_whitespace c = false.
Proof.
  intro H. apply token_text_inv in H. revert H. case Nt; destruct inc; cbn; intros ->; eexists _, _; (split; [reflexivity|]);
    (split; [intros [H|[H|[H|[]]]]; discriminate|reflexivity]).
Qed.
Lemma starts_rule_head r : starts_rule r <-> rule_head alphabetic Nt r.
Proof.
  split.
  - intros (n & r' & H). unfold read_prod_lhs in H. destruct (name alphabetic F r) as [[n' s1]|] eqn:E1; [|discriminate].
    cbn [obind] in H. destruct (after_lhs F (ws s1)) as [s2|] eqn:E2; [|discriminate].
    destruct (name_inv alphabetic Halpha Nt _ _ _ E1) as (text & -> & Ht & Hn).
    unfold after_lhs in E2. destruct (p_tag (f_separator F) (ws s1)) as [s3|] eqn:E3; [|discriminate].
    apply p_tag_spec in E3. destruct (skip_split (length s1) s1 (le_n _)) as (lay & rest & -> & Hl & [E|[E _]]);
      unfold ws in E3; rewrite E in E3; [|revert E3; case Nt; discriminate]. clear E.
    subst rest. exists n', text, lay, false, (f_separator F), s3. split; [reflexivity|]. split; [assumption|]. split; [assumption|].
    split; [case Nt; constructor|]. intro EN. destruct lay as [|c l].
    + exfalso. destruct (Hn EN) as [E|(c & x & E & He)]; rewrite EN in E; cbn in E; [discriminate|]. injection E as <- _.
      destruct He as [He|[He|[He|[]]]]; discriminate.
    + exists c, l. split; [reflexivity|]. inversion Hl as [|c0 l0 Hw Hl0 Ec|body nl l0 Hb Hnl Hl0 Ec]; [congruence|]. exfalso.
      destruct (Hn EN) as [E|(c' & x & E & He)]; [discriminate|].
      assert (E' : c' = c_semi) by (injection E as E _; unfold c_semi; congruence).
      subst c'. destruct He as [He|[He|[He|[]]]]; discriminate.
  - intros (n & text & lay & inc & def & rest & -> & Ht & Hl & Hd & He).
    exists n. unfold read_prod_lhs. rewrite (name_make alphabetic Nt n); [|assumption|].
    + cbn [obind]. unfold ws. rewrite skip_layout by assumption. rewrite (skip_token alphabetic Halpha Nt (TokDefine inc)) by assumption.
      apply token_text_inv in Hd. subst def. unfold after_lhs. rewrite <- app_assoc.
      rewrite (proj2 (p_tag_spec _ _ _) eq_refl). cbn [obind]. eauto.
    + intro EN. destruct (He EN) as (c & l & -> & Hc). right. exists c, (l ++ def ++ rest). split; [reflexivity|]. left. assumption.
Qed.
Lemma starts_rule_clean r : starts_rule r -> r <> [] /\ clean r.
Proof.
  intros (n & r' & H). unfold read_prod_lhs in H. destruct (name alphabetic F r) as [[n' s1]|] eqn:E1; [|discriminate].
  destruct (name_inv alphabetic Halpha Nt _ _ _ E1) as (text & -> & Ht & _).
  pose proof (text_nonempty alphabetic Halpha Nt _ _ Ht). split; [destruct text; [contradiction|discriminate]|].
  apply (skip_token alphabetic Halpha Nt (TokName n')). assumption.
Qed.

(** After a production the text is at its end or at another rule. *)
Lemma read_production_rest fuel s p r : read_production alphabetic F fuel s = Ok (Some (p, r)) -> r = [] \/ starts_rule r.
Proof.
  intro H. unfold read_production in H. destruct (read_prod_lhs alphabetic F s) as [[n s1]|] eqn:E1; [|discriminate].
  cbn [pbind] in H. destruct (rhs_of F fuel _ s1) as [[[rhs s2]|]| |] eqn:E2; try discriminate. cbn [pbind] in H.
  destruct s2 as [|c s2]; [injection H as _ <-; left; reflexivity|].
  destruct (read_prod_lhs alphabetic F (c :: s2)) as [[n' x]|] eqn:E; [|discriminate]. injection H as _ <-. right. exists n', x. assumption.
Qed.
Lemma loop_rest fuel0 fuel : forall acc s l r, s = [] \/ starts_rule s ->
  many1_loop fuel (fun s => read_production alphabetic F fuel0 (ws s)) acc s = Ok (Some (l, r)) -> r = [] \/ starts_rule r.
Proof.
  induction fuel as [|fuel IH]; intros acc s l r Hs H; [discriminate|]. cbn [many1_loop] in H.
  destruct (read_production alphabetic F fuel0 (ws s)) as [[[a s1]|]| |] eqn:E; try discriminate.
  - destruct (Nat.eqb _ _); [discriminate|]. eapply IH; [|exact H]. eapply read_production_rest. exact E.
  - injection H as <- <-. assumption.
Qed.

Lemma read_grammar_cut fuel s g r : read_grammar alphabetic F fuel s = Ok (Some (g, r)) -> r <> [] ->
  exists s0, s = s0 ++ r /\ grammar_text alphabetic Nt g s0 /\ starts_rule r.
Proof.
  intros H Hne. unfold read_grammar, many1 in H. set (p := fun s0 : str => read_production alphabetic F fuel (ws s0)) in H.
  change (read_production alphabetic F fuel (ws (ws s))) with (p (ws s)) in H.
  destruct (p (ws s)) as [[[a s1]|]| |] eqn:E; try discriminate. cbn [pbind] in H.
  assert (Hr : starts_rule r).
  { destruct (loop_rest fuel fuel [a] s1 g r) as [E'|E']; [|exact H|contradiction|assumption]. eapply read_production_rest. exact E. }
  destruct (starts_rule_clean r Hr) as [_ Hc].
  assert (Hp : forall s a r', p s = Ok (Some (a, r')) -> exists toks, production_toks a toks /\ clean r' /\
      forall toks', spells_to alphabetic Nt r toks' r' -> spells_to alphabetic Nt r (toks ++ toks') (ws s)).
  { intros s0 a0 r0 H0. apply (read_production_sound_t alphabetic Halpha Nt r Hne Hc) in H0. exact H0. }
  assert (Hl : forall f acc s l, clean s -> many1_loop f p acc s = Ok (Some (l, r)) ->
            exists l' toks, l = acc ++ l' /\ items production_toks l' toks /\ spells_to alphabetic Nt r toks s).
  { induction f as [|f IH]; intros acc s0 l Hc0 H0; [discriminate|]. cbn [many1_loop] in H0.
    destruct (p s0) as [[[a0 s2]|]| |] eqn:E0; try discriminate.
    - destruct (Nat.eqb _ _); [discriminate|]. destruct (Hp _ _ _ E0) as (toks1 & H1 & H2 & H3).
      apply IH in H0; [|assumption]. destruct H0 as (l' & toks & -> & H4 & H5).
      exists (a0 :: l'), (toks1 ++ toks). split; [rewrite <- app_assoc; reflexivity|]. split; [constructor; assumption|].
      rewrite <- Hc0. auto.
    - injection H0 as <- ->. exists [], []. split; [symmetry; apply app_nil_r|]. split; constructor. }
  destruct (Hp _ _ _ E) as (toks1 & H1 & H2 & H3). apply Hl in H; [|assumption]. destruct H as (l' & toks & -> & H4 & H5).
  apply H3 in H5. rewrite (clean_ws s) in H5. apply (spells_unskip_t alphabetic Halpha Nt r Hne Hc) in H5.
  destruct H5 as (lay & rest & -> & Hlay & Hsp). apply spells_to_cut in Hsp. destruct Hsp as (s0 & -> & Hsp).
  exists (lay ++ s0). split; [apply app_assoc|]. split; [|assumption].
  exists lay, s0, (toks1 ++ toks). split; [reflexivity|]. split; [assumption|]. split; [discriminate|].
  split; [|assumption]. apply productions_items. constructor; assumption.
Qed.

(** ** Reading reaches every rule that follows a complete grammar *)


Lemma loop_passes bound r : starts_rule r -> forall l ts, items production_toks l ts -> forall fuel acc s,
  length s < bound -> length s < fuel -> clean s -> spells_to alphabetic Nt r ts s ->
  exists fuel', length r < fuel' /\
    many1_loop fuel (fun s => read_production alphabetic F bound (ws s)) acc s =
    many1_loop fuel' (fun s => read_production alphabetic F bound (ws s)) (acc ++ l) r.
Proof.
  intros Hr. destruct (starts_rule_clean r Hr) as [Hne Hcl].
  assert (Hp : complete_t alphabetic Nt r production_toks production_follows bound (fun s => read_production alphabetic F bound (ws s))).
  { apply (ws_production_complete_t alphabetic Halpha Nt r).
    - assumption.
    - intros a ts (inc & ts' & _ & ->). eauto.
    - apply read_production_complete_t; assumption. }
  induction 1 as [|a l ts ts' Ha Hl IH]; intros fuel acc s Hb Hf Hc Hs.
  - exists fuel. inversion Hs; subst. rewrite app_nil_r. auto.
  - destruct fuel as [|fuel]; [lia|]. cbn [many1_loop].
    assert (Hfo : production_follows ts').
    { destruct Hl as [|a' l ts1 ts2 Ha' _]; [left; reflexivity|]. right. eauto. }
    destruct (Hp a ts ts' s Ha Hfo Hb Hs) as (r' & -> & He). rewrite (eats_bytes_t _ _ _ _ _ _ He).
    pose proof (eats_shorter_t _ _ _ _ _ _ He). destruct He as (H1 & H2 & _).
    destruct (IH fuel (acc ++ [a]) r') as (fuel' & H3 & E); try assumption; try lia.
    exists fuel'. split; [assumption|]. rewrite E, <- app_assoc. reflexivity.
Qed.

Lemma loop_some {A} (p : str -> pres A) : (forall s a r, p s = Ok (Some (a, r)) -> suffix r s /\ length r < length s) ->
  forall fuel acc s, many1_loop fuel p acc s <> Ok None /\
    forall l r, many1_loop fuel p acc s = Ok (Some (l, r)) -> exists l', l = acc ++ l'.
Proof.
  intro Hp. induction fuel as [|fuel IH]; intros acc s; cbn [many1_loop]; [split; discriminate|].
  destruct (p s) as [[[a r]|]| |] eqn:E; try (split; discriminate).
  - destruct (Hp _ _ _ E) as [H1 H2]. rewrite (shorter_bytes _ _ H1 H2). destruct (IH (acc ++ [a]) r) as [H3 H4].
    split; [assumption|]. intros l r' H. apply H4 in H. destruct H as [l' ->]. exists (a :: l'). rewrite <- app_assoc. reflexivity.
  - split; [discriminate|]. intros l r H. injection H as <- _. exists []. symmetry. apply app_nil_r.
Qed.
Lemma forget_some {A} (x : res (parsed A)) a : forget_res x = Ok (Some a) -> x = Ok (Yields a).
Proof. destruct x as [[e|b]| |]; cbn; intro H; try discriminate. injection H as ->. reflexivity. Qed.
Lemma read_production_shorter fuel s p r : read_production alphabetic F fuel s = Ok (Some (p, r)) -> suffix r s /\ length r < length s.
Proof.
  intro H. rewrite <- forget_read_production in H. apply forget_some in H.
  eapply (read_production_placed alphabetic Halpha Nt). exact H.
Qed.

Lemma read_grammar_passes s0 r g0 : grammar_text alphabetic Nt g0 s0 -> newline (last s0 0%N) -> starts_rule r ->
  exists g1 r1, read_grammar alphabetic F (fuel_for (s0 ++ r)) (s0 ++ r) = Ok (Some (g0 ++ g1, r1)) /\ suffix r1 r.
Proof.
  intros (lay & rest & toks & -> & Hl & Hne & Hg & Hs) Hn Hr. destruct (starts_rule_clean r Hr) as [Hrn Hcl].
  assert (Hrest : rest <> []).
  { intros ->. apply spells_nil_text in Hs; [|assumption]. subst toks. destruct g0 as [|p g0]; [contradiction|].
    inversion Hg as [|p' g' ts ts' (inc & ts'' & _ & ->) _ E1 E2]. }
  rewrite last_app in Hn by assumption.
  assert (Hto : spells_to alphabetic Nt r toks (rest ++ r)) by (apply spells_to_paste; auto).
  set (s := (lay ++ rest) ++ r). set (f := fuel_for s). unfold read_grammar, many1.
  assert (Es : ws s = rest ++ r).
  { unfold s, ws. rewrite <- app_assoc, skip_layout by assumption. destruct g0 as [|p g0]; [contradiction|].
    inversion Hg as [|p' g' ts ts' (inc & ts'' & _ & ->) _ E1 E2]; subst. cbn [app] in Hto.
    apply spells_inv_t in Hto; try assumption. destruct Hto as (text & s1 & -> & Ht & _). apply (skip_token alphabetic Halpha Nt _ _ _ Ht). }
  rewrite Es. assert (Hlen : length (rest ++ r) < f) by (unfold f, fuel_for, s; rewrite !app_length; lia).
  apply productions_items in Hg. destruct Hg as [|a l ts ts' Ha Hg]; [contradiction|].
  assert (Hp : complete_t alphabetic Nt r production_toks production_follows f (fun s => read_production alphabetic F f (ws s))).
  { apply (ws_production_complete_t alphabetic Halpha Nt r).
    - assumption.
    - intros a' ts0 (inc & ts1 & _ & ->). eauto.
    - apply read_production_complete_t; assumption. }
  assert (Hfo : production_follows ts').
  { destruct Hg as [|a' l ts1 ts2 Ha' _]; [left; reflexivity|]. right. eauto. }
  destruct (Hp a ts ts' (rest ++ r) Ha Hfo Hlen Hto) as (s1 & -> & He). cbn [pbind].
  pose proof (eats_shorter_t _ _ _ _ _ _ He). destruct He as (H1 & H2 & _).
  destruct (loop_passes f r Hr l ts' Hg f [a] s1) as (fuel' & Hf' & ->); try assumption; try lia.
  assert (Hlr : length r < f) by (rewrite app_length in Hlen; lia).
  pose proof (many1_loop_good (fun s => read_production alphabetic F f (ws s)) fuel' ([a] ++ l) r Hf') as Hgood.
  assert (Hgo : forall r', suffix r' r -> good false r' (read_production alphabetic F f (ws r'))).
  { intros r' Hr'. apply ws_good, read_production_good. apply suffix_length in Hr'. pose proof (ws_length r'). lia. }
  specialize (Hgood Hgo). clear Hgo.
  destruct (loop_some (fun s => read_production alphabetic F f (ws s))) with (fuel := fuel') (acc := [a] ++ l) (s := r) as [H3 H4].
  { intros s2 p2 r2 E2. apply read_production_shorter in E2. pose proof (ws_suffix s2) as H5. pose proof (suffix_length _ _ H5).
    split; [eapply suffix_trans; [apply E2|assumption]|lia]. }
  destruct (many1_loop fuel' _ ([a] ++ l) r) as [[[g r1]|]| |] eqn:E; cbn in Hgood; try contradiction.
  destruct (H4 _ _ eq_refl) as [g1 ->]. exists g1, r1. split; [reflexivity|apply Hgood].
Qed.

(** ** The errors *)

(** The error of a grammar is that of the extended path. *)
Lemma grammar_error s e : e_grammar_complete alphabetic F s = Ok (Fails e) -> e_parsed_grammar_complete alphabetic F s = Ok (Fails e).
Proof.
  unfold e_grammar_complete. set (x := e_parsed_grammar_complete alphabetic F s).
  assert (H : (let* o := x in match o with Yields pg => let* g := normalize_parsed_grammar pg in Ok (Yields g) | Fails e => Ok (Fails e) end) = Ok (Fails e) -> x = Ok (Fails e)).
  { destruct x as [[e'|pg]| |]; cbn; try discriminate; [congruence|]. destruct (normalize_parsed_grammar pg); discriminate. }
  destruct (grammar_has_extended_syntax s); [exact H|]. destruct (plain_grammar_total alphabetic F s) as [[g|] ->]; [discriminate|exact H].
Qed.
Lemma eof_error s e : e_parsed_grammar_complete alphabetic F s = Ok (Fails e) -> e_code e = KEof ->
  exists g, read_grammar alphabetic F (fuel_for s) s = Ok (Some (g, e_input e)) /\ e_input e <> [].
Proof.
  unfold e_parsed_grammar_complete. pose proof (forget_read_grammar alphabetic F (fuel_for s) s) as Hf.
  pose proof (read_grammar_placed alphabetic Halpha Nt (fuel_for s) s) as Hp.
  destruct (e_read_grammar alphabetic F (fuel_for s) s) as [[e'|[g [|c r]]]| |]; cbn [e_all_consuming eresbind]; try discriminate.
  - cbn in Hp. intro H; injection H as <-. intro E. rewrite E in Hp. destruct Hp as [_ []].
  - intro H; injection H as <-. intros _. exists g. split; [rewrite <- Hf; reflexivity|discriminate].
Qed.

Lemma grammar_eof s e : e_grammar_complete alphabetic F s = Ok (Fails e) -> e_code e = KEof ->
  exists s0 g, s = s0 ++ e_input e /\ grammar_text alphabetic Nt g s0 /\ rule_head alphabetic Nt (e_input e).
Proof.
  intros H He. apply grammar_error in H. destruct (eof_error s e H He) as (g & Hg & Hne).
  destruct (read_grammar_cut _ _ _ _ Hg Hne) as (s0 & E & H1 & H2). exists s0, g. split; [assumption|]. split; [assumption|].
  apply starts_rule_head. assumption.
Qed.
Lemma grammar_reaches s0 r g0 e : grammar_text alphabetic Nt g0 s0 -> newline (last s0 0%N) -> rule_head alphabetic Nt r ->
  e_grammar_complete alphabetic F (s0 ++ r) = Ok (Fails e) -> e_code e = KEof /\ suffix (e_input e) r.
Proof.
  intros Hg Hn Hr H. apply starts_rule_head in Hr. destruct (read_grammar_passes s0 r g0 Hg Hn Hr) as (g1 & r1 & E & Hs).
  rewrite <- forget_read_grammar in E. apply forget_some in E. apply grammar_error in H. unfold e_parsed_grammar_complete in H.
  rewrite E in H. destruct r1 as [|c r1]; cbn in H; [discriminate|]. injection H as <-. auto.
Qed.
End Locate.
