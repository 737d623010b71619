(** The text parsers on a text whose beginning is well formed and whose rest, the tail, starts like
    a rule but is otherwise arbitrary.  The lemmas are those of [TextRead] and [TextComplete] with
    "the tail" in place of "the end of the text". *)
From Verif Require Export TextComplete.
From Coq Require String.
Import String.StringSyntax.

Section Tail.
Variable alphabetic : char -> bool.
Hypothesis Halpha : alphabetic_ok alphabetic.
Variable Nt : notation.
Notation F := (format_of Nt).
Notation spells := (spells alphabetic Nt).
Notation ws := whitespace_plus_comments.
Variable tail : str.
Hypothesis tail_nonempty : tail <> [].
Hypothesis tail_clean : ws tail = tail.

(** The tokens, then the tail. *)
Inductive spells_to : list token -> str -> Prop :=
| spells_to_end : spells_to [] tail
| spells_to_token tok text lay rest toks :
    token_text alphabetic Nt tok text -> layout lay ->
    (tok = TokOpen \/ tok = TokOpenOpt -> lay = []) ->
    (forall n, Nt = Abnf -> tok = TokName n -> name_end (lay ++ rest)) ->
    spells_to toks rest -> spells_to (tok :: toks) (text ++ lay ++ rest).

(** The text before the tail spells the tokens. *)
Lemma spells_to_cut toks s : spells_to toks s -> exists s0, s = s0 ++ tail /\ spells toks s0.
Proof.
  induction 1 as [|tok text lay rest toks Ht Hl Ho Hn _ (s0 & -> & IH)].
  - exists []. split; [reflexivity|]. constructor. left; reflexivity.
  - exists (text ++ lay ++ s0). split; [rewrite <- !app_assoc; reflexivity|]. constructor; auto.
    intros n E1 E2. specialize (Hn n E1 E2). rewrite app_assoc in Hn.
    destruct (lay ++ s0) as [|c r]; [left; reflexivity|]. right. destruct Hn as [Hn|(c' & r' & Hn & He)]; [discriminate|].
    injection Hn as -> _. eauto.
Qed.

(** Conversely, if that text ends with a line end. *)
Lemma newline_white c : newline c -> is_whitespace c = true.
Proof. intros [->| ->]; reflexivity. Qed.
Lemma last_app (a b : str) : b <> [] -> last (a ++ b) 0%N = last b 0%N.
Proof.
  intro H. induction a as [|c a IH]; [reflexivity|]. cbn [app]. rewrite <- IH. cbn [last]. destruct (a ++ b) eqn:E; [|reflexivity].
  apply app_eq_nil in E. destruct E; contradiction.
Qed.
Lemma last_in (s : str) d : s <> [] -> In (last s d) s.
Proof.
  induction s as [|c [|c' s] IH]; intro H; [contradiction|left; reflexivity|]. right. apply IH. discriminate.
Qed.
Lemma spells_to_paste toks s0 : spells toks s0 -> s0 = [] \/ newline (last s0 0%N) -> spells_to toks (s0 ++ tail).
Proof.
  induction 1 as [s [->|(body & -> & Hb)]|tok text lay rest toks Ht Hl Ho Hn _ IH]; intro He.
  - constructor.
  - exfalso. destruct He as [He|He]; [discriminate|]. destruct body as [|c body]; [destruct He; discriminate|].
    rewrite last_app in He by discriminate. apply (Hb (last (c :: body) 0%N)); [|assumption]. apply last_in. discriminate.
  - rewrite <- !app_assoc. pose proof (text_nonempty alphabetic Halpha Nt _ _ Ht) as Hne.
    assert (Hr : rest = [] \/ newline (last rest 0%N)).
    { destruct rest as [|c rest]; [left; reflexivity|]. right. destruct He as [He|He]; [destruct text; [contradiction|discriminate]|].
      rewrite app_assoc, last_app in He by discriminate. exact He. }
    constructor; auto. intros n E1 E2. destruct (Hn n E1 E2) as [E|(c & r & E & Hc)].
    + exfalso. apply app_eq_nil in E. destruct E as [-> ->]. cbn [app] in He. rewrite app_nil_r in He.
      destruct He as [He|He]; [contradiction|]. subst tok. apply token_text_inv in Ht. rewrite E1 in Ht.
      destruct Ht as [-> (c & n' & E & _ & Hx)]. apply (Hx (last n 0%N)); [apply last_in; rewrite E; discriminate|].
      left. apply newline_white. assumption.
    + right. rewrite app_assoc, E. cbn. eauto.
Qed.

Lemma spells_skip_t toks rest lay : layout lay -> spells_to toks rest -> spells_to toks (skip false (lay ++ rest)).
Proof.
  intros Hl H. rewrite skip_layout by assumption. inversion H as [E1 E2|tok text l r toks' Ht H1 H2 H3 H4 E1 E2].
  - rewrite <- E2. change (skip false tail) with (ws tail). rewrite tail_clean. constructor.
  - subst. rewrite (skip_token alphabetic Halpha Nt tok) by assumption. econstructor; eassumption.
Qed.
Lemma spells_nonempty_t toks : ~ spells_to toks [].
Proof.
  intro H. inversion H as [E1 E2|tok text lay rest toks' Ht _ _ _ _ E1 E2]; [destruct (tail_nonempty E2)|].
  pose proof (text_nonempty alphabetic Halpha Nt _ _ Ht). destruct text; [contradiction|discriminate].
Qed.
Lemma spells_unskip_t toks s : spells_to toks (ws s) -> exists lay rest, s = lay ++ rest /\ layout lay /\ spells_to toks rest.
Proof.
  intro H. destruct (skip_split (length s) s (le_n _)) as (lay & rest & -> & Hl & Hs).
  exists lay, rest. split; [reflexivity|]. split; [assumption|]. unfold ws in H.
  destruct Hs as [E|[E Hc]]; rewrite E in H; [assumption|]. destruct (spells_nonempty_t _ H).
Qed.
Lemma spells_inv_t tok toks s : spells_to (tok :: toks) s -> exists text s1,
  s = text ++ s1 /\ token_text alphabetic Nt tok text /\ spells_to toks (ws s1) /\
  (tok = TokOpen \/ tok = TokOpenOpt -> spells_to toks s1) /\
  (forall n, Nt = Abnf -> tok = TokName n -> name_end s1).
Proof.
  intro H. inversion H as [|tok' text lay rest toks' Ht Hl Ho Hn Hs E1 E2]; subst.
  exists text, (lay ++ rest). split; [reflexivity|]. split; [assumption|].
  split; [apply spells_skip_t; assumption|]. split; [|exact Hn].
  intro E. rewrite (Ho E). exact Hs.
Qed.
Lemma spells_intro_t tok toks text s1 : token_text alphabetic Nt tok text -> spells_to toks (ws s1) ->
  tok <> TokOpen -> tok <> TokOpenOpt ->
  (forall n, Nt = Abnf -> tok = TokName n -> name_end s1) ->
  spells_to (tok :: toks) (text ++ s1).
Proof.
  intros Ht Hs H1 H2 Hn. apply spells_unskip_t in Hs. destruct Hs as (lay & rest & -> & Hl & Hs).
  apply spells_to_token; auto. intros [E|E]; contradiction.
Qed.
Lemma spells_intro_open_t tok toks text s1 : token_text alphabetic Nt tok text -> spells_to toks s1 ->
  tok = TokOpen \/ tok = TokOpenOpt -> spells_to (tok :: toks) (text ++ s1).
Proof.
  intros Ht Hs Ho. change (text ++ s1) with (text ++ [] ++ s1). apply spells_to_token; auto; [constructor|].
  intros n _ E. destruct Ho as [->| ->]; discriminate.
Qed.

(** ** Soundness *)

Definition sound_t {A} (item : A -> list token -> Prop) (p : str -> pres A) : Prop :=
  forall s a r, p s = Ok (Some (a, r)) -> exists toks, item a toks /\ clean r /\
    forall toks', spells_to toks' r -> spells_to (toks ++ toks') s.
Lemma terminal_sound_t s t r : terminal s = Some (t, r) -> exists toks, simple_toks t toks /\ clean r /\
  forall toks', spells_to toks' r -> spells_to (toks ++ toks') s.
Proof.
  intro H. apply terminal_inv in H. destruct H as (q & x & s1 & -> & Hq & Hx & -> & ->).
  exists [TokString q x]. split; [constructor|]. split; [apply clean_ws|]. intros toks' H.
  apply spells_intro_t; auto; try discriminate. constructor; assumption.
Qed.
Lemma nonterminal_sound_t s t r : nonterminal alphabetic F s = Some (t, r) -> exists toks, simple_toks t toks /\ clean r /\
  forall toks', spells_to toks' r -> spells_to (toks ++ toks') s.
Proof.
  intro H. apply nonterminal_inv in H; [|assumption]. destruct H as (n & text & s1 & -> & -> & Ht & He & ->).
  exists [TokName n]. split; [constructor|]. split; [apply clean_ws|]. intros toks' H.
  apply spells_intro_t; auto; try discriminate.
Qed.
Lemma nbs_sound_t {A} item (p : str -> pres A) : sound_t item p -> sound_t item (fun s => not_before_separator F (p s)).
Proof.
  intros H s a r E. apply H. unfold not_before_separator in E. destruct (p s) as [[[a' r']|]| |]; cbn in E; try discriminate.
  destruct (p_tag _ r'); congruence.
Qed.
Lemma many1_loop_sound_t {A} item (p : str -> pres A) : sound_t item p -> forall fuel acc s l r,
  many1_loop fuel p acc s = Ok (Some (l, r)) -> exists l' toks, l = acc ++ l' /\ items item l' toks /\ (clean s -> clean r) /\
    forall toks', spells_to toks' r -> spells_to (toks ++ toks') s.
Proof.
  intro Hp. induction fuel as [|fuel IH]; intros acc s l r H; [discriminate|]. cbn [many1_loop] in H.
  destruct (p s) as [[[a s']|]| |] eqn:E; try discriminate.
  - destruct (Nat.eqb _ _); [discriminate|]. apply IH in H. destruct H as (l' & toks & -> & H1 & H2 & H3).
    destruct (Hp _ _ _ E) as (toks1 & H4 & H5 & H6).
    exists (a :: l'), (toks1 ++ toks). split; [rewrite <- app_assoc; reflexivity|]. split; [constructor; assumption|].
    split; [auto|]. intros toks' H. rewrite <- app_assoc. auto.
  - injection H as <- <-. exists [], []. split; [symmetry; apply app_nil_r|]. split; [constructor|]. auto.
Qed.
Lemma many1_sound_t {A} item (p : str -> pres A) fuel : sound_t item p -> sound_t (nonempty item) (many1 fuel p).
Proof.
  intros Hp s l r H. unfold many1 in H. destruct (p s) as [[[a s']|]| |] eqn:E; try discriminate. cbn [pbind] in H.
  apply (many1_loop_sound_t item p Hp) in H. destruct H as (l' & toks & -> & H1 & H2 & H3).
  destruct (Hp _ _ _ E) as (toks1 & H4 & H5 & H6). exists (toks1 ++ toks).
  split; [split; [discriminate|constructor; assumption]|]. split; [auto|]. intros toks' H. rewrite <- app_assoc. auto.
Qed.
Lemma expression_next_sound_t s r : expression_next F s = Some r -> clean r /\ forall toks', spells_to toks' r -> spells_to (TokAlt :: toks') s.
Proof.
  unfold expression_next. destruct (p_char (f_alternative F) s) as [s1|] eqn:E; [|discriminate]. cbn [obind].
  intro H; injection H as <-. apply p_char_suffix in E. subst s. split; [apply clean_ws|]. intros toks' H.
  apply (spells_intro_t TokAlt toks' [f_alternative F] s1); auto; try discriminate.
  case Nt; constructor.
Qed.
Lemma xt_list_sound_t {A} item (p : str -> pres A) : sound_t item p -> forall fuel acc s l r,
  xt_list fuel p (expression_next F) acc s = Ok (Some (l, r)) -> exists l' toks, l = acc ++ l' /\ alts item l' toks /\ clean r /\
    forall toks', spells_to toks' r -> spells_to (toks ++ toks') s.
Proof.
  intro Hp. induction fuel as [|fuel IH]; intros acc s l r H; [discriminate|]. cbn [xt_list] in H.
  destruct (p s) as [[[a s1]|]| |] eqn:E; try discriminate. cbn [pbind] in H. destruct (Hp _ _ _ E) as (toks1 & H4 & H5 & H6).
  destruct (expression_next F s1) as [s2|] eqn:E2.
  - apply IH in H. destruct H as (l' & toks & -> & H1 & H2 & H3).
    destruct (expression_next_sound_t _ _ E2) as [_ H7].
    exists (a :: l'), (toks1 ++ TokAlt :: toks). split; [rewrite <- app_assoc; reflexivity|].
    split; [constructor; assumption|]. split; [assumption|]. intros toks' H. rewrite <- app_assoc. cbn. auto.
  - injection H as <- <-. exists [a], toks1. split; [reflexivity|]. split; [constructor; assumption|]. auto.
Qed.
Lemma rhs_of_sound_t fuel p : sound_t term_toks p -> sound_t alts_toks (rhs_of F fuel p).
Proof.
  intros Hp s l r H. unfold rhs_of in H. apply (xt_list_sound_t (nonempty term_toks)) in H.
  - destruct H as (l' & toks & -> & H1 & H2). exists toks. split; [|assumption]. apply alts_alts. assumption.
  - apply many1_sound_t, nbs_sound_t, Hp.
Qed.
Lemma bracketed_sound_t fuel p a b s es r (op cl : token) : sound_t term_toks p ->
  (op = TokOpen \/ op = TokOpenOpt) -> cl = TokClose \/ cl = TokCloseOpt ->
  token_text alphabetic Nt op [a] -> token_text alphabetic Nt cl [b] ->
  bracketed a b (rhs_of F fuel p) s = Ok (Some (es, r)) ->
  exists toks, alts_toks es toks /\ clean r /\ forall toks', spells_to toks' r -> spells_to ((op :: toks ++ [cl]) ++ toks') s.
Proof.
  intros Hp Hop Hcl Ta Tb H. unfold bracketed in H.
  destruct (p_char a s) as [s1|] eqn:E1; [|discriminate]. cbn [option_map pbind] in H. apply p_char_suffix in E1.
  destruct (rhs_of F fuel p s1) as [[[es' s2]|]| |] eqn:E2; try discriminate. cbn [pbind] in H.
  destruct (p_char b s2) as [s3|] eqn:E3; [|discriminate]. cbn [option_map pbind] in H. apply p_char_suffix in E3.
  injection H as -> <-. apply rhs_of_sound_t in E2; [|assumption]. destruct E2 as (toks & H1 & _ & H2).
  exists toks. split; [assumption|]. split; [apply clean_ws|]. intros toks' H. subst s s2.
  cbn [app]. apply (spells_intro_open_t op _ [a] s1); [assumption| |assumption].
  rewrite <- app_assoc. apply H2. cbn [app].
  apply (spells_intro_t cl toks' [b] s3); auto; destruct Hcl as [->| ->]; discriminate.
Qed.
Lemma read_term_sound_t fuel : sound_t term_toks (read_term alphabetic F fuel).
Proof.
  induction fuel as [|fuel IH]; intros s t r H; [discriminate|]. cbn [read_term] in H.
  destruct (terminal s) as [[t' r']|] eqn:E1.
  { injection H as <- <-. apply terminal_sound_t. assumption. }
  destruct (nonterminal alphabetic F s) as [[t' r']|] eqn:E2.
  { injection H as <- <-. apply nonterminal_sound_t. assumption. }
  destruct (bracketed c_open c_close _ s) as [[[es r']|]| |] eqn:E3; try discriminate.
  - injection H as <- <-.
    eapply (bracketed_sound_t _ _ _ _ _ _ _ TokOpen TokClose) in E3; auto; try (constructor; fail).
    destruct E3 as (toks & H1 & H2 & H3). eexists. split; [constructor; exact H1|]. split; assumption.
  - destruct (bracketed c_lbrack c_rbrack _ s) as [[[es r']|]| |] eqn:E4; try discriminate.
    cbn [pbind] in H. injection H as <- <-.
    eapply (bracketed_sound_t _ _ _ _ _ _ _ TokOpenOpt TokCloseOpt) in E4; auto; try (constructor; fail).
    destruct E4 as (toks & H1 & H2 & H3). eexists. split; [constructor; exact H1|]. split; assumption.
Qed.
Lemma after_lhs_sound_t s r : after_lhs F s = Some r -> clean r /\ exists inc, forall toks', spells_to toks' r -> spells_to (TokDefine inc :: toks') s.
Proof.
  unfold after_lhs. destruct (p_tag (f_separator F) s) as [s1|] eqn:E; [|discriminate]. cbn [obind]. apply p_tag_spec in E.
  intro H; injection H as <-. split; [apply clean_ws|]. subst s.
  destruct (p_char (f_alternative F) s1) as [s2|] eqn:E.
  - apply p_char_suffix in E. subst s1. exists true. intros toks' H.
    replace (f_separator F ++ f_alternative F :: s2) with ((f_separator F ++ [f_alternative F]) ++ s2) by (rewrite <- app_assoc; reflexivity).
    apply (spells_intro_t); auto; try discriminate. case Nt; constructor.
  - exists false. intros toks' H. apply (spells_intro_t); auto; try discriminate. case Nt; constructor.
Qed.
Lemma read_prod_lhs_sound_t s n r : read_prod_lhs alphabetic F s = Some (n, r) -> clean r /\ exists inc, forall toks', spells_to toks' r -> spells_to (TokName n :: TokDefine inc :: toks') s.
Proof.
  unfold read_prod_lhs. destruct (name alphabetic F s) as [[n' s1]|] eqn:E; [|discriminate]. cbn [obind].
  destruct (after_lhs F (ws s1)) as [s2|] eqn:E2; [|discriminate]. cbn [obind]. intro H; injection H as -> ->.
  apply after_lhs_sound_t in E2. destruct E2 as [H1 (inc & H2)]. split; [assumption|]. exists inc. intros toks' H.
  apply name_inv in E; [|assumption]. destruct E as (text & -> & H3 & H4).
  apply (spells_intro_t); auto; discriminate.
Qed.
Lemma read_production_sound_t fuel : sound_t production_toks (read_production alphabetic F fuel).
Proof.
  intros s p r H. unfold read_production in H. destruct (read_prod_lhs alphabetic F s) as [[n s1]|] eqn:E1; [|discriminate].
  cbn [pbind] in H. destruct (rhs_of F fuel _ s1) as [[[rhs s2]|]| |] eqn:E2; try discriminate. cbn [pbind] in H.
  assert (E : p = mkParsed n rhs /\ r = s2).
  { destruct s2 as [|c s2]; [injection H; auto|]. destruct (read_prod_lhs alphabetic F (c :: s2)); [injection H; auto|discriminate]. }
  destruct E as [-> ->]. apply rhs_of_sound_t in E2; [|apply read_term_sound_t].
  apply read_prod_lhs_sound_t in E1. destruct E1 as [_ (inc & H1)], E2 as (toks & H2 & H3 & H4).
  exists (TokName n :: TokDefine inc :: toks). split; [exists inc, toks; auto|]. split; [assumption|].
  intros toks' H5. cbn [app]. auto.
Qed.
Definition sound_ws_t {A} (item : A -> list token -> Prop) (p : str -> pres A) : Prop :=
  forall s a r, p s = Ok (Some (a, r)) -> exists toks, item a toks /\ clean r /\
    forall toks', spells_to toks' r -> spells_to (toks ++ toks') (ws s).

(** ** Completeness *)

(** The tail starts like a rule. *)
Hypothesis tail_head : exists n r, read_prod_lhs alphabetic F tail = Some (n, r).

Lemma tail_name : exists n text s1 s2, tail = text ++ s1 /\ token_text alphabetic Nt (TokName n) text /\
  name alphabetic F tail = Some (n, s1) /\ p_tag (f_separator F) (ws s1) = Some s2.
Proof.
  destruct tail_head as (n & r & H). unfold read_prod_lhs in H. destruct (name alphabetic F tail) as [[n' s1]|] eqn:E; [|discriminate].
  cbn [obind] in H. unfold after_lhs in H. destruct (p_tag _ (ws s1)) as [s2|] eqn:E2; [|discriminate].
  destruct (name_inv alphabetic Halpha Nt _ _ _ E) as (text & E3 & Ht & _). exists n', text, s1, s2. auto.
Qed.
Lemma tail_no_separator : p_tag (f_separator F) tail = None.
Proof. destruct tail_name as (n & text & s1 & s2 & E & Ht & _). rewrite E. eapply separator_none; eauto. Qed.
Lemma tail_no_alternative : p_char (f_alternative F) tail = None.
Proof. destruct tail_name as (n & text & s1 & s2 & E & Ht & _). rewrite E. eapply alternative_none; eauto. discriminate. Qed.
Lemma tail_terminal : terminal tail = None.
Proof. destruct tail_name as (n & text & s1 & s2 & E & Ht & _). rewrite E. eapply terminal_none; eauto. Qed.
Lemma tail_nonterminal : exists n r, nonterminal alphabetic F tail = Some (Nonterminal n, r) /\ exists s1, p_tag (f_separator F) r = Some s1.
Proof.
  destruct tail_name as (n & text & s1 & s2 & _ & _ & E1 & E2). exists n, (ws s1). unfold nonterminal. rewrite E1. cbn. eauto.
Qed.

Definition eats_t (toks : list token) (s r : str) : Prop :=
  spells_to toks r /\ clean r /\ exists pre, pre <> [] /\ s = pre ++ r.
Lemma eats_shorter_t toks s r : eats_t toks s r -> length r < length s.
Proof. intros (_ & _ & pre & Hp & ->). rewrite app_length. destruct pre; [contradiction|]. cbn. lia. Qed.
Lemma eats_bytes_t toks s r : eats_t toks s r -> Nat.eqb (byte_len r) (byte_len s) = false.
Proof. intros (_ & _ & pre & Hp & ->). apply Nat.eqb_neq, proper_bytes. assumption. Qed.
Lemma eats_trans_t t1 t2 a b c : eats_t t1 a b -> eats_t t2 b c -> eats_t t2 a c.
Proof.
  intros (_ & _ & p & Hp & ->) (H1 & H2 & q & Hq & ->). split; [assumption|]. split; [assumption|].
  exists (p ++ q). split; [destruct p; [contradiction|discriminate]|]. rewrite app_assoc. reflexivity.
Qed.
Lemma eats_ws_t tok text toks s1 : token_text alphabetic Nt tok text -> spells_to toks (ws s1) -> eats_t toks (text ++ s1) (ws s1).
Proof.
  intros Ht Hs. split; [assumption|]. split; [apply clean_ws|]. destruct (ws_suffix s1) as [pre E].
  exists (text ++ pre). split; [|rewrite <- app_assoc; congruence].
  pose proof (text_nonempty alphabetic Halpha Nt _ _ Ht). destruct text; [contradiction|discriminate].
Qed.
Definition complete_t {A} (item : A -> list token -> Prop) (follow : list token -> Prop) (bound : nat) (p : str -> pres A) : Prop :=
  forall a ts toks s, item a ts -> follow toks -> length s < bound -> spells_to (ts ++ toks) s ->
    exists r, p s = Ok (Some (a, r)) /\ eats_t toks s r.
Lemma terminal_complete_t q x toks s : spells_to (TokString q x :: toks) s -> exists r, terminal s = Some (Terminal x, r) /\ eats_t toks s r.
Proof.
  intro H. apply spells_inv_t in H. destruct H as (text & s1 & -> & Ht & Hs & _).
  pose proof (eats_ws_t _ _ _ _ Ht Hs). apply token_text_inv in Ht. destruct Ht as (-> & Hq & Hx).
  exists (ws s1). split; [apply terminal_make|]; assumption.
Qed.
Lemma name_complete_t n toks s : spells_to (TokName n :: toks) s -> exists s1, name alphabetic F s = Some (n, s1) /\ eats_t toks s (ws s1).
Proof.
  intro H. apply spells_inv_t in H. destruct H as (text & s1 & -> & Ht & Hs & _ & He).
  exists s1. split; [apply name_make; auto; intro E; eapply He; eauto|]. eapply eats_ws_t; eassumption.
Qed.
Lemma nonterminal_complete_t n toks s : spells_to (TokName n :: toks) s ->
  terminal s = None /\ exists r, nonterminal alphabetic F s = Some (Nonterminal n, r) /\ eats_t toks s r.
Proof.
  intro H. split.
  - apply spells_inv_t in H. destruct H as (text & s1 & -> & Ht & _).
    eapply terminal_none; [exact Halpha|exact Ht|reflexivity].
  - apply name_complete_t in H. destruct H as (s1 & E & He). exists (ws s1). unfold nonterminal. rewrite E. auto.
Qed.
Lemma separator_complete_t inc toks s : spells_to (TokDefine inc :: toks) s -> exists s1, p_tag (f_separator F) s = Some s1.
Proof.
  intro H. apply spells_inv_t in H. destruct H as (text & s1 & -> & Ht & _). apply token_text_inv in Ht. subst text.
  eexists. apply p_tag_spec. rewrite <- app_assoc. reflexivity.
Qed.
Lemma separator_no_define_t toks s : no_define toks -> spells_to toks s -> clean s -> p_tag (f_separator F) s = None.
Proof.
  intros Hn H Hc. inversion H as [E1 E2|tok text lay rest toks' Ht Hl Ho Hna Hs E1 E2]; subst.
  - apply tail_no_separator.
  - eapply separator_none; [exact Halpha|exact Ht|]. destruct tok; try reflexivity. contradiction.
Qed.
Lemma end_fails_t {A} (toks : list token) (s : str) (x : pres A) : ends_alt toks -> spells_to toks s -> clean s ->
  (forall n inc toks', toks = TokName n :: TokDefine inc :: toks' -> exists a r, x = Ok (Some (a, r)) /\ eats_t (TokDefine inc :: toks') s r) ->
  (terminal s = None -> name alphabetic F s = None -> p_char c_open s = None -> p_char c_lbrack s = None -> x = Ok None) ->
  (s = tail -> not_before_separator F x = Ok None) ->
  not_before_separator F x = Ok None.
Proof.
  intros He H Hc H1 H2 H0.
  assert (Hplain : forall tok text s1 toks', toks = tok :: toks' -> s = text ++ s1 -> token_text alphabetic Nt tok text ->
            is_name tok = false -> is_string tok = false -> tok <> TokOpen -> tok <> TokOpenOpt -> not_before_separator F x = Ok None).
  { intros tok text s1 toks' -> -> Ht E1 E2 E3 E4. rewrite H2; [reflexivity| | | |].
    - eapply terminal_none; eauto.
    - eapply name_none; eauto.
    - eapply char_none; eauto; try (right; discriminate). left; reflexivity.
    - eapply char_none; eauto; try (right; discriminate). right; right; left; reflexivity. }
  inversion H as [E1 E2|tok text lay rest toks' Ht Hl Ho Hna Hs E1 E2]; subst.
  - auto.
  - destruct tok; cbn in He; try contradiction; try (eapply Hplain; eauto; discriminate).
    destruct toks' as [|[] toks']; cbn in He; try contradiction.
    destruct (H1 _ _ _ eq_refl) as (a & r & -> & Hea). cbn. destruct Hea as (Hr & _).
    destruct (separator_complete_t _ _ _ Hr) as [s1 ->]. reflexivity.
Qed.
Lemma many1_loop_complete_t {A} (item : A -> list token -> Prop) (follow stop : list token -> Prop) bound p :
  complete_t item follow bound p ->
  (forall a ts toks, item a ts -> follow (ts ++ toks)) -> (forall toks, stop toks -> follow toks) ->
  (forall toks s, stop toks -> length s < bound -> spells_to toks s -> clean s -> p s = Ok None) ->
  forall l ts, items item l ts -> forall fuel acc toks s, stop toks -> length s < bound -> length s < fuel -> clean s ->
    spells_to (ts ++ toks) s ->
    exists r, many1_loop fuel p acc s = Ok (Some (acc ++ l, r)) /\ (l = [] /\ ts = [] /\ r = s \/ eats_t toks s r).
Proof.
  intros Hp Hf1 Hf2 Hstop. induction 1 as [|a l ts ts' Ha Hl IH]; intros fuel acc toks s Hs Hb Hfu Hc Hsp.
  - destruct fuel as [|fuel]; [lia|]. cbn [many1_loop]. rewrite (Hstop toks s) by assumption.
    exists s. rewrite app_nil_r. auto.
  - destruct fuel as [|fuel]; [lia|]. cbn [many1_loop]. rewrite <- app_assoc in Hsp.
    assert (Hfo : follow (ts' ++ toks)).
    { destruct Hl; [apply Hf2; assumption|]. rewrite <- app_assoc. eapply Hf1. eassumption. }
    destruct (Hp a ts (ts' ++ toks) s Ha Hfo Hb Hsp) as (r & -> & He). rewrite (eats_bytes_t _ _ _ He).
    pose proof (eats_shorter_t _ _ _ He). destruct He as (H1 & H2 & H3) eqn:Eh. 
    destruct (IH fuel (acc ++ [a]) toks r Hs) as (r' & -> & Hr'); try lia; try assumption.
    exists r'. rewrite <- app_assoc. split; [reflexivity|]. right.
    destruct Hr' as [(-> & -> & ->)|Hr']; [split; [exact H1|]; split; [exact H2|exact H3]|].
    eapply eats_trans_t; eassumption.
Qed.
Lemma many1_complete_t {A} (item : A -> list token -> Prop) (follow stop : list token -> Prop) bound p fuel :
  complete_t item follow bound p ->
  (forall a ts toks, item a ts -> follow (ts ++ toks)) -> (forall toks, stop toks -> follow toks) ->
  (forall toks s, stop toks -> length s < bound -> spells_to toks s -> clean s -> p s = Ok None) ->
  bound <= fuel -> complete_t (nonempty item) stop bound (many1 fuel p).
Proof.
  intros Hp Hf1 Hf2 Hstop Hfu l ts toks s [Hne Hl] Hs Hb Hsp. destruct Hl as [|a l ts ts' Ha Hl]; [contradiction|].
  rewrite <- app_assoc in Hsp. unfold many1.
  assert (Hfo : follow (ts' ++ toks)).
  { destruct Hl; [apply Hf2; assumption|]. rewrite <- app_assoc. eapply Hf1. eassumption. }
  destruct (Hp a ts (ts' ++ toks) s Ha Hfo Hb Hsp) as (r & -> & He). cbn [pbind].
  pose proof (eats_shorter_t _ _ _ He). pose proof He as (H1 & H2 & H3).
  destruct (many1_loop_complete_t item follow stop bound p Hp Hf1 Hf2 Hstop l ts' Hl fuel [a] toks r Hs) as (r' & -> & Hr');
    try lia; try assumption.
  exists r'. split; [reflexivity|]. destruct Hr' as [(-> & -> & ->)|Hr']; [exact He|]. eapply eats_trans_t; eassumption.
Qed.
Lemma alt_complete_t toks s : spells_to (TokAlt :: toks) s -> exists r, expression_next F s = Some r /\ eats_t toks s r.
Proof.
  intro H. apply spells_inv_t in H. destruct H as (text & s1 & -> & Ht & Hs & _).
  pose proof (eats_ws_t _ _ _ _ Ht Hs). apply token_text_inv in Ht. subst text. exists (ws s1). split; [|assumption].
  unfold expression_next. cbn [app]. rewrite p_char_make. reflexivity.
Qed.
Lemma alt_none_t toks s : ends_rhs toks -> spells_to toks s -> clean s -> expression_next F s = None.
Proof.
  intros Hn H Hc. unfold expression_next. inversion H as [E1 E2|tok text lay rest toks' Ht Hl Ho Hna Hs E1 E2]; subst.
  - rewrite tail_no_alternative. reflexivity.
  - rewrite (alternative_none alphabetic Halpha Nt tok text); [reflexivity|exact Ht|].
    intros ->. contradiction.
Qed.
Lemma xt_list_complete_t {A} (item : A -> list token -> Prop) bound p :
  complete_t item ends_alt bound p ->
  forall l ts, alts item l ts -> forall fuel acc toks s, ends_rhs toks -> length s < bound -> length s < fuel ->
    spells_to (ts ++ toks) s ->
    exists r, xt_list fuel p (expression_next F) acc s = Ok (Some (acc ++ l, r)) /\ eats_t toks s r.
Proof.
  intro Hp. induction 1 as [a ts Ha|a l ts ts' Ha Hl IH]; intros fuel acc toks s Hs Hb Hfu Hsp;
    (destruct fuel as [|fuel]; [lia|]); cbn [xt_list].
  - destruct (Hp a ts toks s Ha (ends_rhs_alt _ Hs) Hb Hsp) as (r & -> & He). cbn [pbind].
    pose proof He as (H1 & H2 & _). rewrite (alt_none_t _ _ Hs H1 H2). eauto.
  - rewrite <- app_assoc in Hsp. cbn [app] in Hsp.
    destruct (Hp a ts (TokAlt :: ts' ++ toks) s Ha I Hb Hsp) as (r & -> & He). cbn [pbind].
    pose proof He as (H1 & H2 & _). destruct (alt_complete_t _ _ H1) as (r2 & -> & He2).
    pose proof (eats_shorter_t _ _ _ He). pose proof (eats_shorter_t _ _ _ He2). pose proof He2 as (H3 & H4 & _).
    destruct (IH fuel (acc ++ [a]) toks r2 Hs) as (r' & -> & Hr'); try lia; try assumption.
    exists r'. rewrite <- app_assoc. split; [reflexivity|]. eapply eats_trans_t; [exact He|]. eapply eats_trans_t; eassumption.
Qed.
Lemma nbs_complete_t {A} (item : A -> list token -> Prop) bound p : complete_t item (fun _ => True) bound p ->
  complete_t item no_define bound (fun s => not_before_separator F (p s)).
Proof.
  intros Hp a ts toks s Ha Hn Hb Hs. destruct (Hp a ts toks s Ha I Hb Hs) as (r & -> & He). exists r. split; [|exact He].
  cbn. destruct He as (H1 & H2 & _). rewrite (separator_no_define_t toks r Hn H1 H2). reflexivity.
Qed.
Lemma expression_of_complete_t bound fuel p : complete_t term_toks (fun _ => True) bound p ->
  (forall toks s, ends_alt toks -> length s < bound -> spells_to toks s -> clean s -> not_before_separator F (p s) = Ok None) ->
  bound <= fuel -> complete_t (nonempty term_toks) ends_alt bound (expression_of F fuel p).
Proof.
  intros Hp He Hb. apply (many1_complete_t term_toks no_define ends_alt bound).
  - apply nbs_complete_t. assumption.
  - intros a ts toks. apply term_no_define.
  - apply ends_alt_no_define.
  - exact He.
  - exact Hb.
Qed.
Lemma rhs_of_complete_t bound fuel p : complete_t term_toks (fun _ => True) bound p ->
  (forall toks s, ends_alt toks -> length s < bound -> spells_to toks s -> clean s -> not_before_separator F (p s) = Ok None) ->
  bound <= fuel -> complete_t alts_toks ends_rhs bound (rhs_of F fuel p).
Proof.
  intros Hp He Hb l ts toks s Hl Hf Hle Hs. apply alts_alts in Hl. unfold rhs_of.
  apply (xt_list_complete_t (nonempty term_toks) bound _ (expression_of_complete_t bound fuel p Hp He Hb) l ts Hl fuel [] toks s); auto. lia.
Qed.
Lemma bracketed_complete_t a b inner op cl es ts toks s bound :
  op = TokOpen \/ op = TokOpenOpt -> cl = TokClose \/ cl = TokCloseOpt ->
  token_text alphabetic Nt op [a] -> token_text alphabetic Nt cl [b] ->
  (forall text, token_text alphabetic Nt op text -> text = [a]) -> (forall text, token_text alphabetic Nt cl text -> text = [b]) ->
  complete_t alts_toks ends_rhs bound inner -> length s <= bound ->
  alts_toks es ts -> spells_to ((op :: ts ++ [cl]) ++ toks) s ->
  exists r, bracketed a b inner s = Ok (Some (es, r)) /\ eats_t toks s r.
Proof.
  intros Hop Hcl Ta Tb Ua Ub Hi Hb Hes Hs. cbn [app] in Hs. apply spells_inv_t in Hs.
  destruct Hs as (text & s1 & -> & Ht & _ & Hs & _). rewrite (Ua _ Ht) in *. specialize (Hs Hop). cbn [app] in *. cbn [length] in Hb.
  rewrite <- app_assoc in Hs. cbn [app] in Hs.
  destruct (Hi es ts (cl :: toks) s1 Hes) as (r1 & E1 & He1); [destruct Hcl as [->| ->]; exact I|lia|exact Hs|].
  pose proof He1 as (H1 & _). apply spells_inv_t in H1. destruct H1 as (text2 & s2 & -> & Ht2 & Hs2 & _).
  rewrite (Ub _ Ht2) in *. exists (ws s2). split.
  - unfold bracketed. rewrite p_char_make. cbn [option_map pbind]. rewrite E1. cbn [pbind app]. rewrite p_char_make. reflexivity.
  - pose proof (eats_ws_t _ _ _ _ Ht2 Hs2) as He2. rewrite (Ub _ Ht2) in He2. pose proof (eats_trans_t _ _ _ _ _ He1 He2) as (H3 & H4 & pre & H5 & E).
    split; [assumption|]. split; [assumption|]. exists (a :: pre). split; [discriminate|]. cbn. rewrite <- E. reflexivity.
Qed.
Lemma read_term_end_t f : 0 < f -> forall toks s, ends_alt toks -> spells_to toks s -> clean s ->
  not_before_separator F (read_term alphabetic F f s) = Ok None.
Proof.
  intros Hf toks s He Hs Hc. destruct f as [|f]; [lia|]. apply (end_fails_t toks s); auto.
  - intros n inc toks' ->. destruct (nonterminal_complete_t n (TokDefine inc :: toks') s Hs) as (E1 & r & E2 & Hr).
    cbn [read_term]. rewrite E1, E2. eauto.
  - intros H1 H2 H3 H4. cbn [read_term]. rewrite H1, nonterminal_none by assumption.
    rewrite !bracketed_none by assumption. reflexivity.
  - intros ->. cbn [read_term]. rewrite tail_terminal. destruct tail_nonterminal as (n & r & -> & s1 & E). cbn. rewrite E. reflexivity.
Qed.
Lemma read_term_complete_t f : complete_t term_toks (fun _ => True) f (read_term alphabetic F f).
Proof.
  induction f as [|f IH]; intros t ts toks s Ht _ Hb Hs; [lia|].
  assert (Hr : complete_t alts_toks ends_rhs f (rhs_of F f (read_term alphabetic F f))).
  { apply rhs_of_complete_t; [exact IH| |apply le_n]. intros toks' s' H1 H2. apply read_term_end_t; [lia|assumption]. }
  cbn [read_term]. destruct Ht as [q x|n|es ts H|es ts H].
  - destruct (terminal_complete_t _ _ _ _ Hs) as (r & -> & He). eauto.
  - destruct (nonterminal_complete_t _ _ _ Hs) as (-> & r & -> & He). eauto.
  - pose proof Hs as Hs'. cbn [app] in Hs'. apply spells_inv_t in Hs'. destruct Hs' as (text & s1 & E & Htx & _).
    assert (E1 : terminal s = None) by (rewrite E; apply (terminal_none alphabetic Halpha Nt TokOpen text s1 Htx eq_refl)).
    assert (E2 : name alphabetic F s = None) by (rewrite E; apply (name_none alphabetic Halpha Nt TokOpen text s1 Htx eq_refl)).
    rewrite E1, (nonterminal_none alphabetic Nt s E2).
    destruct (bracketed_complete_t c_open c_close (rhs_of F f (read_term alphabetic F f)) TokOpen TokClose es ts toks s f) with (2 := or_introl eq_refl : TokClose = TokClose \/ TokClose = TokCloseOpt) (7 := Hr)
      as (r & Eb & He); auto; try (constructor; fail); try (intros tx Hx; apply token_text_inv in Hx; exact Hx); try lia.
    rewrite Eb. eauto.
  - pose proof Hs as Hs'. cbn [app] in Hs'. apply spells_inv_t in Hs'. destruct Hs' as (text & s1 & E & Htx & _).
    assert (E1 : terminal s = None) by (rewrite E; apply (terminal_none alphabetic Halpha Nt TokOpenOpt text s1 Htx eq_refl)).
    assert (E2 : name alphabetic F s = None) by (rewrite E; apply (name_none alphabetic Halpha Nt TokOpenOpt text s1 Htx eq_refl)).
    rewrite E1, (nonterminal_none alphabetic Nt s E2).
    assert (E3 : p_char c_open s = None).
    { rewrite E. eapply (char_none alphabetic Halpha Nt c_open TokOpenOpt text s1 Htx); first [left; discriminate|right; discriminate|left; reflexivity]. }
    rewrite (bracketed_none c_open c_close _ s E3).
    destruct (bracketed_complete_t c_lbrack c_rbrack (rhs_of F f (read_term alphabetic F f)) TokOpenOpt TokCloseOpt es ts toks s f) with (2 := or_intror eq_refl : TokCloseOpt = TokClose \/ TokCloseOpt = TokCloseOpt) (7 := Hr)
      as (r & Eb & He); auto; try (constructor; fail); try (intros tx Hx; apply token_text_inv in Hx; exact Hx); try lia.
    rewrite Eb. cbn [pbind]. eauto.
Qed.
Lemma read_rhs_complete_t f : complete_t alts_toks ends_rhs f (rhs_of F f (read_term alphabetic F f)).
Proof.
  apply rhs_of_complete_t; [apply read_term_complete_t| |apply le_n]. intros toks' s' H1 H2. apply read_term_end_t; [lia|assumption].
Qed.
Lemma after_lhs_complete_t inc toks s : match toks with TokAlt :: _ => False | [] => False | _ => True end ->
  spells_to (TokDefine inc :: toks) s -> exists r, after_lhs F s = Some r /\ eats_t toks s r.
Proof.
  intros Hn H. apply spells_inv_t in H. destruct H as (text & s1 & -> & Ht & Hs & _).
  pose proof (eats_ws_t _ _ _ _ Ht Hs) as He. apply token_text_inv in Ht. exists (ws s1). split; [|assumption].
  unfold after_lhs. rewrite Ht, <- app_assoc.
  destruct inc.
  - rewrite (proj2 (p_tag_spec _ _ ([f_alternative F] ++ s1)) eq_refl). cbn [obind app]. rewrite p_char_make. reflexivity.
  - rewrite (proj2 (p_tag_spec _ _ ([] ++ s1)) eq_refl). cbn [obind app].
    destruct (p_char (f_alternative F) s1) as [s2|] eqn:E; [|reflexivity]. exfalso. apply p_char_suffix in E.
    assert (Hw : ws s1 = s1) by (subst s1; case Nt; reflexivity). rewrite Hw in Hs.
    inversion Hs as [E1 E2|tok text' lay rest toks' Ht' Hl Ho Hna Hs' E1 E2]; subst; [contradiction|].
    assert (Hx : p_char (f_alternative F) (text' ++ lay ++ rest) = None).
    { eapply alternative_none; [exact Halpha|exact Ht'|]. intros ->. contradiction. }
    rewrite E2, p_char_make in Hx. discriminate.
Qed.
Lemma read_prod_lhs_complete_t n inc toks s : match toks with TokAlt :: _ => False | [] => False | _ => True end ->
  spells_to (TokName n :: TokDefine inc :: toks) s -> exists r, read_prod_lhs alphabetic F s = Some (n, r) /\ eats_t toks s r.
Proof.
  intros Hn H. destruct (name_complete_t _ _ _ H) as (s1 & E1 & He1). pose proof He1 as (H1 & _).
  destruct (after_lhs_complete_t inc toks (ws s1) Hn H1) as (r & E2 & He2). exists r. split; [|eapply eats_trans_t; eassumption].
  unfold read_prod_lhs. rewrite E1. cbn [obind]. rewrite E2. reflexivity.
Qed.
Lemma production_follows_lhs_t toks s : production_follows toks -> spells_to toks s -> clean s ->
  s <> [] /\ exists n r, read_prod_lhs alphabetic F s = Some (n, r).
Proof.
  intros [->|(p & ts & toks' & (inc & ts' & Ha & ->) & ->)] Hs Hc.
  { inversion Hs; subst. split; [exact tail_nonempty|exact tail_head]. }
  split; [intros ->; apply spells_inv_t in Hs; destruct Hs as (text & s1 & E & Ht & _); pose proof (text_nonempty alphabetic Halpha Nt _ _ Ht); destruct text; [contradiction|discriminate]|].
  cbn [app] in Hs. destruct (read_prod_lhs_complete_t (pp_lhs p) inc (ts' ++ toks') s) as (r & E & _); eauto.
  apply (alts_first _ _ _ Ha).
Qed.
Lemma read_production_complete_t f : complete_t production_toks production_follows f (read_production alphabetic F f).
Proof.
  intros p ts toks s (inc & ts' & Ha & ->) Hf Hb Hs. cbn [app] in Hs.
  destruct (read_prod_lhs_complete_t _ _ _ _ (alts_first _ _ toks Ha) Hs) as (r & E1 & He1).
  pose proof He1 as (H1 & _). pose proof (eats_shorter_t _ _ _ He1).
  destruct (read_rhs_complete_t f (pp_rhs p) ts' toks r Ha (production_follows_ends _ Hf)) as (r2 & E2 & He2); [lia|exact H1|].
  exists r2. split; [|eapply eats_trans_t; eassumption]. unfold read_production. rewrite E1. cbn [pbind]. rewrite E2. cbn [pbind].
  replace (mkParsed (pp_lhs p) (pp_rhs p)) with p by (destruct p; reflexivity).
  destruct He2 as (H2 & H3 & _). destruct (production_follows_lhs_t _ _ Hf H2 H3) as (Hne & n & x & E).
  destruct r2; [reflexivity|]. rewrite E. reflexivity.
Qed.
Lemma ws_production_complete_t {A} (item : A -> list token -> Prop) follow f (p : str -> pres A) :
  (forall a ts, item a ts -> exists tok ts', ts = tok :: ts') ->
  complete_t item follow f p -> complete_t item follow f (fun s => p (ws s)).
Proof.
  intros Hi Hp a ts toks s Ha Hf Hb Hs. destruct (Hi a ts Ha) as (tok & ts' & E).
  assert (Hc : ws s = s).
  { subst ts. cbn [app] in Hs. apply spells_inv_t in Hs. destruct Hs as (text & s1 & -> & Ht & _).
    apply (skip_token alphabetic Halpha Nt tok). assumption. }
  rewrite Hc. eapply Hp; eassumption.
Qed.
End Tail.
